(** Properties of how text is put on lines: C78. The specification is in SWrap.v. *)
From Verif Require Import Base MStrings MText SStrings SText SFormat SWrap SplitProofs RuleProofs TextApi LayoutProofs2
  WrapProofs3 WrapProofs4 WrapExamples.
Open Scope nat_scope.

(** C78. A text that is written at the start of a line is put on lines as [put_text] says:
    every word goes on the current line if there is room for it; if not, it is broken at the
    last place that its rule allows, or it goes on the next line, where it is broken if it is
    too long; what follows on the same line of the text is aligned with its first word (after
    a list marker). [n] is the indentation. The texts written before it have no list markers. *)
Theorem C78_text : forall width rules f ops f1 n text ls, utf8_rules rules -> trimmed_rules rules ->
  text_formatter width rules = TOk f -> ~ ops_marker ops -> run_ops ops f = TOk f1 -> at_line_start (shown f1) ->
  n < width -> ls <> [] -> (forall l, In l ls -> good_line l) -> unix text = text_of ls ->
  exists f2 out, run_ops [OpPush (Some n); OpWords text] f1 = TOk f2 /\ shown f2 = shown f1 ++ out /\
    put_text rules width n ls out.
Proof. exact C78_text_proof. Qed.
Print Assumptions C78_text.

Example C78_text_example :
  (forall l, In l ex_lines -> good_line l) /\
  unix ($" - The format, of options" ++ [c_cr; c_lf] ++ $"abcdefghijklmnopq") = text_of ex_lines /\
  exists f f1 f2, text_formatter 14 [$"for mat"] = TOk f /\ run_ops [OpLines ($"x"); OpNewline] f = TOk f1 /\
    run_ops [OpPush (Some 2); OpWords ($" - The format, of options" ++ [c_cr; c_lf] ++ $"abcdefghijklmnopq")] f1 = TOk f2 /\
    lines_of (shown f2) = [$"x"; $"   - The for-"; $"     mat, of"; $"     options"; $"  abcdefghijk-"; $"  lmnopq"].
Proof. exact C78_text_example_proof. Qed.

(** The same for a text that is written on a line that is not empty, like the text beside the
    name of an option: [col] is the column in which the line ends, [n] the indentation, and
    [k] a number of spaces written in front of the text. *)
Theorem C78_beside : forall width rules f ops t c f1 start line col k n text ls, utf8_rules rules -> trimmed_rules rules ->
  text_formatter width rules = TOk f -> ~ ops_marker (ops ++ [OpWords t]) ->
  (forall o, In o (ops ++ [OpWords t]) -> op_utf8 o) -> last_char t = Some c -> is_white c = false ->
  run_ops (ops ++ [OpWords t]) f = TOk f1 -> shown f1 = start ++ line -> at_line_start start -> ~ In c_lf line ->
  utf8_text line col -> n < width -> good_beside ls -> unix text = text_of ls ->
  exists f2 out, run_ops (match k with O => [] | _ => [OpWords (blanks k)] end ++ [OpPush (Some n); OpWords text]) f1 = TOk f2 /\
    shown f2 = shown f1 ++ out /\ put_beside rules width n col (Nat.max col n + k - col) ls out.
Proof. exact C78_beside_proof. Qed.
Print Assumptions C78_beside.

Example C78_beside_example :
  good_beside ex_beside /\ unix ($"Some text" ++ [c_lf] ++ $"1. and more") = text_of ex_beside /\
  exists f f1 f2, text_formatter 16 [] = TOk f /\ run_ops ([OpPush (Some 2)] ++ [OpWords ($"-f")]) f = TOk f1 /\
    shown f1 = [] ++ $"  -f" /\ utf8_text ($"  -f") 4 /\
    run_ops ([] ++ [OpPush (Some 8); OpWords ($"Some text" ++ [c_lf] ++ $"1. and more")]) f1 = TOk f2 /\
    lines_of (shown f2) = [$"  -f    Some"; $"        text"; $"        1. and"; $"           more"].
Proof. exact C78_beside_example_proof. Qed.

(** There is only one such layout. *)
Theorem C78_determined : forall width rules f n ls out out', trimmed_rules rules -> text_formatter width rules = TOk f ->
  put_text rules width n ls out -> put_text rules width n ls out' -> out = out'.
Proof. exact C78_determined_proof. Qed.
Print Assumptions C78_determined.

Theorem C78_beside_determined : forall width rules f n col gap ls out out', trimmed_rules rules ->
  text_formatter width rules = TOk f ->
  put_beside rules width n col gap ls out -> put_beside rules width n col gap ls out' -> out = out'.
Proof. exact C78_beside_determined_proof. Qed.
Print Assumptions C78_beside_determined.

(** A paragraph of words that are not too long and without rules: as many words as possible on
    every line. *)
Theorem C78_paragraph : forall width rules f ops f1 n word k l, utf8_rules rules -> trimmed_rules rules ->
  text_formatter width rules = TOk f -> ~ ops_marker ops -> run_ops ops f = TOk f1 -> at_line_start (shown f1) ->
  n < width -> ~ is_marker word -> short_word rules (width - n) word k ->
  (forall g w m, In (g, w, m) l -> 0 < g /\ short_word rules (width - n) w m) ->
  exists f2, run_ops [OpPush (Some n); OpWords (paragraph word l)] f1 = TOk f2 /\
    shown f2 = shown f1 ++ blanks n ++ word ++ fill width n (n + k) l.
Proof. exact C78_paragraph_proof. Qed.
Print Assumptions C78_paragraph.

Example C78_paragraph_example :
  let l := [(1, $"words", 5); (2, $"of", 2); (1, $"text", 4); (1, $"here", 4)] in
  short_word [] 10 ($"Some") 4 /\ ~ is_marker ($"Some") /\
  (forall g w m, In (g, w, m) l -> 0 < g /\ short_word [] 10 w m) /\
  paragraph ($"Some") l = $"Some words  of text here" /\
  lines_of (blanks 2 ++ $"Some" ++ fill 12 2 6 l) = [$"  Some words"; $"  of text"; $"  here"].
Proof. exact C78_paragraph_example_proof. Qed.

(** CR LF, CR and LF are the same in a text. *)
Theorem C78_line_ends : forall text text' f, unix text = unix text' -> write_words text f = write_words text' f.
Proof. exact C78_line_ends_proof. Qed.
Print Assumptions C78_line_ends.

Example C78_line_ends_example : unix ($"a b" ++ [c_cr; c_lf; c_cr] ++ $"c") = unix ($"a b" ++ [c_lf; c_lf] ++ $"c").
Proof. reflexivity. Qed.

(** The layout is not the one above if a list marker stands alone at the end of an earlier
    text: lines are then aligned with the second word. *)
Theorem C78_marker_refuted : exists f f1 f2 out, text_formatter 10 [] = TOk f /\
  run_ops [OpWords ($"-"); OpNewline] f = TOk f1 /\ at_line_start (shown f1) /\
  run_ops [OpPush (Some 0); OpWords ($"foo bar baz")] f1 = TOk f2 /\
  put_text [] 10 0 [Line None None ($"foo") [(Spaces 1, $"bar"); (Spaces 1, $"baz")]] out /\
  shown f2 <> shown f1 ++ out /\ lines_of (shown f2) = [$"-"; $"foo bar"; $"    baz"].
Proof. exact C78_marker_proof. Qed.
Print Assumptions C78_marker_refuted.
