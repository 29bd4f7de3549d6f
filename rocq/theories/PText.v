(** Properties of formatted text: C47-C49, C51 and C52. The specification is in SText.v
    and SFormat.v. *)
From Verif Require Import Base MStrings MText SStrings SText SFormat StrProofs SplitProofs RuleProofs
  PlaceProofs TextProofs LayoutProofs LayoutProofs2 WidthProofs IndentProofs TextApi.
Open Scope nat_scope.

(** C47. Whatever the rules, a word that is too long is split into two parts that make
    up the word (from the given position); the first part fits with its hyphen, neither
    part is empty, and code points are not torn apart. Nothing is split off only if that
    is not demanded or if there is room for at most two columns. *)
Theorem C47_parts : forall rules m word start n k must, utf8_rules rules -> add_words [] rules = TOk m ->
  at_boundary word start -> columns (skipn start word) k -> n < k ->
  exists w h r, split m word start n must = TOk (w, h, r) /\
    ((w = [] /\ h = None /\ (must = false \/ n <= 2)) \/
     (w ++ r = skipn start word /\ w <> [] /\ r <> [] /\ fits w h n /\ (h = None \/ h = Some c_dash) /\
      forall c, utf8_text (skipn start word) c -> exists a b, utf8_text w a /\ utf8_text r b)).
Proof. exact C47_parts_proof. Qed.
Print Assumptions C47_parts.

Example C47_parts_example :
  utf8_rules [$"long long-word"] /\
  (exists m, add_words [] [$"long long-word"] = TOk m /\
    split m ($"longlong-word,") 0 8 false = TOk ($"long", Some c_dash, $"long-word,")) /\
  at_boundary ($"longlong-word,") 0 /\ columns (skipn 0 ($"longlong-word,")) 14.
Proof. exact C47_parts_example_proof. Qed.

(** If there is a rule for the word and one of the places that it names can be used, the
    word is split there, at the last place that is possible. (A rule with a space at the
    end names its last place twice; the statement then holds without "the last".) *)
Theorem C47_rule : forall rules m word rule start n must w h r, utf8_rules rules -> add_words [] rules = TOk m ->
  at_boundary word start -> first_rule rules word rule -> last_char rule <> Some c_space ->
  (exists j h', rule_break rule j h' /\ start + 1 < j /\ fits (between word start j) h' n) ->
  split m word start n must = TOk (w, h, r) ->
  exists i, rule_break rule i h /\ start + 1 < i /\ w = between word start i /\ r = skipn i word /\
    fits w h n /\
    forall j h', rule_break rule j h' -> i < j -> ~ fits (between word start j) h' n.
Proof. exact C47_rule_proof. Qed.
Print Assumptions C47_rule.

Example C47_rule_example :
  first_rule [$"long long-word"; $"longl ong-word"] ($"LongLong-word!") ($"long long-word") /\
  rule_break ($"long long-word") 4 (Some c_dash) /\
  fits (between ($"LongLong-word!") 0 4) (Some c_dash) 8.
Proof. exact C47_rule_example_proof. Qed.

(** Words for which there is no rule are split only on demand: at the last good place
    that leaves a column free and uses at least a third of the width, or otherwise with
    a hyphen in the last column. *)
Theorem C47_default : forall rules m word start n k, utf8_rules rules -> add_words [] rules = TOk m ->
  at_boundary word start -> (forall r, In r rules -> ~ rule_for r word) ->
  utf8_text (skipn start word) k -> 2 < n < k ->
  split m word start n false = TOk ([], None, word) /\
  exists w h r i, split m word start n true = TOk (w, h, r) /\ w ++ r = skipn start word /\ utf8_text w i /\
    ((i = n - 1 /\ h = Some c_dash /\
      forall v u j h', v ++ u = skipn start word -> utf8_text v j -> n <= 3 * j -> j < n - 1 ->
        ~ good_place (skipn start word) (length v) h') \/
     (n <= 3 * i /\ i < n - 1 /\ good_place (skipn start word) (length w) h /\
      forall v u j h', v ++ u = skipn start word -> utf8_text v j -> i < j < n - 1 ->
        ~ good_place (skipn start word) (length v) h')).
Proof. exact C47_default_proof. Qed.
Print Assumptions C47_default.

Example C47_default_example :
  split [] ($"abcde.fgh12ijkl") 0 8 true = TOk ($"abcde.", None, $"fgh12ijkl") /\
  split [] ($"abcde.fgh12ijkl") 6 8 true = TOk ($"fgh12", Some c_dash, $"ijkl") /\
  split [] ($"abcdefghijkl") 0 8 true = TOk ($"abcdefg", Some c_dash, $"hijkl").
Proof. vm_compute. auto. Qed.

(** A rule is refused exactly if it begins with a space or has two spaces in a row. *)
Theorem C47_refused_rules : forall m rule, add_word m rule = TThrows (TInvalidRule rule) <-> bad_rule rule.
Proof. exact add_word_throws_proof. Qed.
Print Assumptions C47_refused_rules.

Theorem C47_accepted_rules : forall rules m,
  (forall r, In r rules -> ~ bad_rule r) <-> exists m', add_words m rules = TOk m'.
Proof. exact add_words_proof. Qed.
Print Assumptions C47_accepted_rules.

Example C47_refused_example :
  add_word [] ($"ab  cd") = TThrows (TInvalidRule ($"ab  cd")) /\ bad_rule ($"ab  cd").
Proof. split; [vm_compute; reflexivity|]. right. exists ($"ab"), ($"cd"). reflexivity. Qed.

(** With a rule that is not UTF-8 a part can be wider than what there is room for. *)
Theorem C47_malformed_rule_refuted : exists rules m word n w h r,
  add_words [] rules = TOk m /\ split m word 0 n true = TOk (w, h, r) /\ n < count_code_points word /\
  ~ fits w h n.
Proof. exact C47_malformed_proof. Qed.
Print Assumptions C47_malformed_rule_refuted.

(** C48. Every line of the text has at most as many columns as the line width, unless it
    is indented so far that there are one or two columns left. *)
Theorem C48_width : forall width rules f ops f1 line, utf8_rules rules -> text_formatter width rules = TOk f ->
  (forall o, In o ops -> op_utf8 o) -> run_ops ops f = TOk f1 -> In line (lines_of (shown f1)) ->
  narrow width line \/ squeezed width line.
Proof. exact width_proof. Qed.
Print Assumptions C48_width.

Example C48_example :
  let ops := [OpPush (Some 2); OpWords ($"A few words and alongwordthatdoesnotfit"); OpNewline; OpPop;
              OpLines ($"abc")] in
  exists f f1, text_formatter 12 [] = TOk f /\ run_ops ops f = TOk f1 /\
    lines_of (shown f1) = [$"  A few"; $"  words and"; $"  alongword-"; $"  thatdoesn-"; $"  otfit"; $"abc"].
Proof. do 2 eexists. split; [reflexivity|]. split; vm_compute; reflexivity. Qed.

(** Lines do get longer if there are one or two columns left. *)
Theorem C48_squeezed_refuted : exists f f1 line, text_formatter 5 [] = TOk f /\
  run_ops [OpPush (Some 3); OpWords ($"abcdef")] f = TOk f1 /\ In line (lines_of (shown f1)) /\
  ~ narrow 5 line.
Proof. exact C48_squeezed_proof. Qed.
Print Assumptions C48_squeezed_refuted.

(** C52, C48. Writing always comes to an end and never accesses anything outside of the
    strings. It throws only if text passed to write_lines ends with CR or if more
    indentations are removed than were added. *)
Theorem C52_outcomes : forall width rules f ops, utf8_rules rules -> text_formatter width rules = TOk f ->
  (exists f1, run_ops ops f = TOk f1) \/
  (exists t, In (OpLines t) ops /\ last_char t = Some c_cr /\ run_ops ops f = TThrows TOutOfRange) \/
  (In OpPop ops /\ run_ops ops f = TThrows TNoIndentation).
Proof. exact C52_outcomes_proof. Qed.
Print Assumptions C52_outcomes.

Theorem C52_no_exception : forall width rules f ops, utf8_rules rules -> text_formatter width rules = TOk f ->
  balanced 0 ops -> (forall t, In (OpLines t) ops -> last_char t <> Some c_cr) ->
  exists f1, run_ops ops f = TOk f1.
Proof. exact C52_no_exception_proof. Qed.
Print Assumptions C52_no_exception.

(** A formatter exists for every line width above two and for every list of rules that
    are accepted. *)
Theorem C52_formatter : forall width rules,
  (exists f, text_formatter width rules = TOk f) <-> 2 < width /\ forall r, In r rules -> ~ bad_rule r.
Proof. exact C52_formatter_proof. Qed.
Print Assumptions C52_formatter.

Theorem C52_carriage_return_refuted : forall width rules f t, utf8_rules rules ->
  text_formatter width rules = TOk f -> last_char t = Some c_cr ->
  run_ops [OpLines t] f = TThrows TOutOfRange.
Proof. exact C52_cr_proof. Qed.
Print Assumptions C52_carriage_return_refuted.

Example C52_example :
  let ops := [OpPush (Some 3); OpWords ($" - a b"); OpPush None; OpLines ($"c"); OpPop; OpPop] in
  balanced 0 ops /\ (exists f f1, text_formatter 3 [] = TOk f /\ run_ops ops f = TOk f1) /\
  (exists f, text_formatter 3 [] = TOk f /\ run_ops [OpPop] f = TThrows TNoIndentation).
Proof. split; [exact I|]. split; [do 2 eexists|eexists]; (split; [reflexivity|vm_compute; reflexivity]). Qed.

(** C49. The output is a layout of the text: see [layout]. A gap between words can only
    get lost if one of the texts has a list marker ('-', '*' or '1.'). *)
Theorem C49_layout : forall width rules f ops f1, utf8_rules rules -> text_formatter width rules = TOk f ->
  run_ops ops f = TOk f1 -> exists p, layout (ops_marker ops) (ops_items ops) (shown f1) p.
Proof. exact layout_proof. Qed.
Print Assumptions C49_layout.

(** The characters that are not white space are written in order, and nothing is added
    but white space and hyphens at ends of lines. *)
Theorem C49_characters : forall width rules f ops f1, utf8_rules rules -> text_formatter width rules = TOk f ->
  run_ops ops f = TOk f1 -> reflowed (visible (ops_text ops)) (shown f1).
Proof. exact reflow_proof. Qed.
Print Assumptions C49_characters.

Example C49_example :
  exists f f1, text_formatter 9 [$"for mat"] = TOk f /\
    run_ops [OpWords ($"The  format" ++ [c_lf] ++ $"of	options")] f = TOk f1 /\
    shown f1 = $"The  for-" ++ [c_lf] ++ $"mat" ++ [c_lf] ++ $"of" ++ [c_lf] ++ $"options".
Proof. do 2 eexists. split; [vm_compute; reflexivity|]. split; vm_compute; reflexivity. Qed.

(** Gaps do get lost after a list marker: on lines that are too narrow for the indentation,
    and if the rest of the line is written by another call. *)
Theorem C49_gap_refuted :
  (exists f f1, text_formatter 3 [] = TOk f /\ run_ops [OpWords ($" - x")] f = TOk f1 /\ shown f1 = $" -x") /\
  (exists f f1, text_formatter 40 [] = TOk f /\
     run_ops [OpWords ($"- "); OpWords ($"x")] f = TOk f1 /\ shown f1 = $"-x").
Proof. exact C49_gap_proof. Qed.
Print Assumptions C49_gap_refuted.

(** Characters get lost if a rule is not UTF-8. *)
Theorem C49_malformed_rule_refuted : exists width rules f text f1, text_formatter width rules = TOk f /\
  run_ops [OpWords text] f = TOk f1 /\ ~ reflowed (visible text) (shown f1).
Proof. exact C49_malformed_proof. Qed.
Print Assumptions C49_malformed_rule_refuted.

(** C51. After a text the indentation is what it was before, unless a line of the text
    begins with a tab and more blanks or with spaces and a tab: new lines begin in the
    column they would have begun in. (As above, the indentation is what was last demanded
    if that is less than the line width.) *)
Theorem C51_restored : forall width rules f ops f1 text f2, utf8_rules rules -> text_formatter width rules = TOk f ->
  run_ops ops f = TOk f1 -> simple_indents text -> write_words text f1 = TOk f2 ->
  f_indents f2 = f_indents f1 /\
  forall n l, f_indents f1 = n :: l -> n < width -> w_indent (f_writer f1) = n /\ w_indent (f_writer f2) = n.
Proof. exact C51_restored_proof. Qed.
Print Assumptions C51_restored.

Example C51_example :
  simple_indents ($" - an item" ++ [c_lf] ++ $"	1. b") /\
  exists f f2, text_formatter 40 [] = TOk f /\
    run_ops [OpPush (Some 4); OpWords ($" - an item" ++ [c_lf] ++ $"	1. b"); OpNewline; OpWords ($"x")] f = TOk f2 /\
    shown f2 = $"     - an item" ++ [c_lf] ++ $"        1. b" ++ [c_lf] ++ $"    x".
Proof. exact C51_example_proof. Qed.

(** Two tabs at the start of a line leave an indentation behind. *)
Theorem C51_tabs_refuted : exists f f1, text_formatter 40 [] = TOk f /\
  run_ops [OpWords [c_tab; c_tab; "a"%char]; OpNewline; OpWords ($"b")] f = TOk f1 /\
  shown f1 = $"        a" ++ [c_lf] ++ $"    b".
Proof. exact C51_tabs_proof. Qed.
Print Assumptions C51_tabs_refuted.
