(** The lemmas behind PText.v that are put together from those of the other files. *)
From Verif Require Import Base BaseProofs MStrings MText SStrings SText SFormat StrProofs SplitProofs RuleProofs
  PlaceProofs TextProofs LayoutProofs LayoutProofs2 WidthProofs IndentProofs.
Open Scope nat_scope.

Lemma C47_parts_proof : forall rules m word start n k must, utf8_rules rules -> add_words [] rules = TOk m ->
  at_boundary word start -> columns (skipn start word) k -> n < k ->
  exists w h r, split m word start n must = TOk (w, h, r) /\
    ((w = [] /\ h = None /\ (must = false \/ n <= 2)) \/
     (w ++ r = skipn start word /\ w <> [] /\ r <> [] /\ fits w h n /\ (h = None \/ h = Some c_dash) /\
      forall c, utf8_text (skipn start word) c -> exists a b, utf8_text w a /\ utf8_text r b)).
Proof.
  intros rules m word start n k must HR HA HB HC Hn. apply columns_iff in HC. subst k.
  destruct (split_proof rules m word start n must HR HA HB Hn) as (w & h & r & E & H).
  exists w, h, r. split; [exact E|]. destruct H as [H|(H1 & H2 & H3 & H4 & H5 & H6)]; [left; exact H|right].
  do 3 (split; [assumption|]). split; [apply fits_iff; exact H4|auto].
Qed.

Lemma ascii_utf8 : forall s, forallb (fun c => nat_of_ascii c <=? 127) s = true -> utf8_text s (length s).
Proof.
  induction s as [|c s IH]; intros H; [apply utf8_nil|]. simpl in H. apply andb_true_iff in H. destruct H as (H1 & H2).
  change (c :: s) with ([c] ++ s). change (length ([c] ++ s)) with (1 + length s). apply utf8_app; [|apply IH; exact H2].
  apply utf8_one. apply Nat.leb_le in H1. unfold byte_between. lia.
Qed.

Lemma C47_parts_example_proof :
  utf8_rules [$"long long-word"] /\
  (exists m, add_words [] [$"long long-word"] = TOk m /\
    split m ($"longlong-word,") 0 8 false = TOk ($"long", Some c_dash, $"long-word,")) /\
  at_boundary ($"longlong-word,") 0 /\ columns (skipn 0 ($"longlong-word,")) 14.
Proof.
  split. { intros r [<-|[]]. eexists. apply ascii_utf8. reflexivity. }
  split. { eexists. split; [reflexivity|vm_compute; reflexivity]. }
  split. { split; [simpl; lia|]. intros n _. exists 0. apply utf8_nil. }
  apply columns_iff. vm_compute. reflexivity.
Qed.

Lemma first_rule_unique : forall rules word r1 r2, first_rule rules word r1 -> first_rule rules word r2 -> r1 = r2.
Proof.
  intros rules word r1 r2 (a1 & b1 & E1 & R1 & N1) (a2 & b2 & E2 & R2 & N2). subst rules.
  revert a2 E2 N2. induction a1 as [|x a1 IH]; intros [|y a2] E2 N2; simpl in E2; injection E2.
  - auto.
  - intros _ <-. exfalso. apply (N2 r1 (or_introl eq_refl) R1).
  - intros _ <-. exfalso. apply (N1 x (or_introl eq_refl) R2).
  - intros E _. apply (IH (fun r H => N1 r (or_intror H)) a2 E). intros r H. apply N2. right. exact H.
Qed.

Lemma C47_rule_proof : forall rules m word rule start n must w h r, utf8_rules rules -> add_words [] rules = TOk m ->
  at_boundary word start -> first_rule rules word rule -> last_char rule <> Some c_space ->
  (exists j h', rule_break rule j h' /\ start + 1 < j /\ fits (between word start j) h' n) ->
  split m word start n must = TOk (w, h, r) ->
  exists i, rule_break rule i h /\ start + 1 < i /\ w = between word start i /\ r = skipn i word /\
    fits w h n /\
    forall j h', rule_break rule j h' -> i < j -> ~ fits (between word start j) h' n.
Proof.
  intros rules m word rule start n must w h r HR HA HB HF Hl (j & h' & Hb & Hj & Hf) E.
  destruct (split_cases rules m word start n must HR HA HB)
    as [(rule' & i & h0 & HF' & Hb' & Hi & Bs & Bi & Hfit & Hmax & E')|(Hno & _)].
  - rewrite (first_rule_unique _ _ _ _ HF' HF) in *. rewrite E' in E. injection E as <- <- <-.
    exists i. split; [exact Hb'|]. split; [lia|]. split; [reflexivity|]. split; [reflexivity|].
    split; [exact Hfit|]. apply Hmax. exact Hl.
  - exfalso. apply (Hno rule HF Hl j h' Hb Hj Hf).
Qed.

Lemma C47_rule_example_proof :
  first_rule [$"long long-word"; $"longl ong-word"] ($"LongLong-word!") ($"long long-word") /\
  rule_break ($"long long-word") 4 (Some c_dash) /\
  fits (between ($"LongLong-word!") 0 4) (Some c_dash) 8.
Proof.
  split; [|split].
  - exists [], [$"longl ong-word"]. split; [reflexivity|]. split; [|intros r []].
    exists ($"LongLong-word"). split; [|reflexivity].
    change ($"LongLong-word") with (remove_punctuation ($"LongLong-word!")). apply bare_remove.
  - left. exists ($"long"), ($"long-word"). split; [reflexivity|]. split; reflexivity.
  - apply fits_iff. vm_compute. lia.
Qed.

Lemma C47_default_proof : forall rules m word start n k, utf8_rules rules -> add_words [] rules = TOk m ->
  at_boundary word start -> (forall r, In r rules -> ~ rule_for r word) ->
  utf8_text (skipn start word) k -> 2 < n < k ->
  split m word start n false = TOk ([], None, word) /\
  exists w h r i, split m word start n true = TOk (w, h, r) /\ w ++ r = skipn start word /\ utf8_text w i /\
    ((i = n - 1 /\ h = Some c_dash /\
      forall v u j h', v ++ u = skipn start word -> utf8_text v j -> n <= 3 * j -> j < n - 1 ->
        ~ good_place (skipn start word) (length v) h') \/
     (n <= 3 * i /\ i < n - 1 /\ good_place (skipn start word) (length w) h /\
      forall v u j h', v ++ u = skipn start word -> utf8_text v j -> i < j < n - 1 ->
        ~ good_place (skipn start word) (length v) h')).
Proof.
  intros rules m word start n k HR HA HB Hno U Hn.
  destruct (split_default rules m word start n HR HA HB Hno) as (E1 & E2). split; [exact E2|]. rewrite E1.
  apply (default_place_proof _ k n U Hn).
Qed.

Definition bad_utf8 : str := [ascii_of_nat 226; ascii_of_nat 130].

Lemma C47_malformed_proof : exists rules m word n w h r,
  add_words [] rules = TOk m /\ split m word 0 n true = TOk (w, h, r) /\ n < count_code_points word /\
  ~ fits w h n.
Proof.
  exists [bad_utf8 ++ $" bcdef"]. eexists. exists (bad_utf8 ++ $"bcdef"), 6. do 3 eexists.
  split; [vm_compute; reflexivity|]. split; [vm_compute; reflexivity|]. split; [vm_compute; lia|].
  rewrite fits_iff. vm_compute. lia.
Qed.

Lemma narrow_count : forall width line, narrow width line -> count_code_points line <= width.
Proof. intros width line (n & U & L). rewrite (count_text_proof _ _ U). exact L. Qed.

Lemma C48_squeezed_proof : exists f f1 line, text_formatter 5 [] = TOk f /\
  run_ops [OpPush (Some 3); OpWords ($"abcdef")] f = TOk f1 /\ In line (lines_of (shown f1)) /\
  ~ narrow 5 line.
Proof.
  do 2 eexists. exists ($"   abcdef"). split; [reflexivity|]. split; [vm_compute; reflexivity|].
  split; [left; vm_compute; reflexivity|]. intros N. apply narrow_count in N. vm_compute in N. lia.
Qed.

Lemma C52_outcomes_proof : forall width rules f ops, utf8_rules rules -> text_formatter width rules = TOk f ->
  (exists f1, run_ops ops f = TOk f1) \/
  (exists t, In (OpLines t) ops /\ last_char t = Some c_cr /\ run_ops ops f = TThrows TOutOfRange) \/
  (In OpPop ops /\ run_ops ops f = TThrows TNoIndentation).
Proof.
  intros width rules f ops HR E. destruct (new_finv True _ _ _ HR E) as (F & Es).
  destruct (run_outcome ops [] Gap f F) as [H|[(o & H1 & H2 & H3)|H]]; auto.
  - rewrite Es. apply no_align_none.
  - right. left. destruct o; try (destruct H2; fail). eauto.
Qed.

Lemma C52_no_exception_proof : forall width rules f ops, utf8_rules rules -> text_formatter width rules = TOk f ->
  balanced 0 ops -> (forall t, In (OpLines t) ops -> last_char t <> Some c_cr) ->
  exists f1, run_ops ops f = TOk f1.
Proof.
  intros width rules f ops HR E B C. destruct (new_finv True _ _ _ HR E) as (F & Es).
  apply (run_balanced ops [] Gap f 0 F); auto.
  - rewrite Es. apply no_align_none.
  - eapply new_depth. exact E.
  - intros o Ho X. destruct o; try (destruct X; fail). apply (C _ Ho). exact X.
Qed.

Lemma C52_formatter_proof : forall width rules,
  (exists f, text_formatter width rules = TOk f) <-> 2 < width /\ forall r, In r rules -> ~ bad_rule r.
Proof.
  intros width rules. unfold text_formatter, new_formatter. destruct (Nat.leb_spec width 2).
  - split; [intros (f & E); discriminate|lia].
  - cbn [tbind f_rules]. rewrite (add_words_proof rules []). split.
    + intros (f & E). split; [assumption|]. destruct (add_words [] rules); try discriminate. eauto.
    + intros (_ & m & ->). eexists. reflexivity.
Qed.

Lemma C52_cr_proof : forall width rules f t, utf8_rules rules ->
  text_formatter width rules = TOk f -> last_char t = Some c_cr ->
  run_ops [OpLines t] f = TThrows TOutOfRange.
Proof.
  intros width rules f t HR E H. destruct (new_finv True _ _ _ HR E) as (F & _).
  cbn [run_ops run_op]. unfold write_lines. rewrite (lines_throw (length t) t [] Gap f (le_n _) H F). reflexivity.
Qed.

Lemma C49_gap_proof :
  (exists f f1, text_formatter 3 [] = TOk f /\ run_ops [OpWords ($" - x")] f = TOk f1 /\ shown f1 = $" -x") /\
  (exists f f1, text_formatter 40 [] = TOk f /\
     run_ops [OpWords ($"- "); OpWords ($"x")] f = TOk f1 /\ shown f1 = $"-x").
Proof. split; do 2 eexists; (split; [reflexivity|]; split; vm_compute; reflexivity). Qed.

Lemma reflowed_length : forall t o, reflowed t o -> length t <= length o.
Proof. induction 1; simpl; lia. Qed.

Lemma C49_malformed_proof : exists width rules f text f1, text_formatter width rules = TOk f /\
  run_ops [OpWords text] f = TOk f1 /\ ~ reflowed (visible text) (shown f1).
Proof.
  exists 6, [bad_utf8 ++ $" bcdef"]. eexists. exists (bad_utf8 ++ $"bcdef"). eexists.
  split; [vm_compute; reflexivity|]. split; [vm_compute; reflexivity|].
  intros R. apply reflowed_length in R. vm_compute in R. lia.
Qed.

(** The line width does not change. *)
Lemma set_indentation_width : forall n w, w_line_width (set_indentation n w) = w_line_width w.
Proof. intros n w. unfold set_indentation. destruct (_ <=? _); reflexivity. Qed.

Lemma write_width : forall s b w, w_line_width (snd (write s b w)) = w_line_width w.
Proof. intros s b w. unfold write. destruct (_ && _); reflexivity. Qed.

Lemma append_loop_width : forall fuel word r f f1, append_loop fuel word r f = TOk f1 ->
  w_line_width (f_writer f1) = w_line_width (f_writer f).
Proof.
  induction fuel as [|fuel IH]; intros word r f f1 E; [discriminate|]. cbn [append_loop] in E.
  pose proof (write_width r false (f_writer f)) as W.
  destruct (write r false (f_writer f)) as ([|] & w1); [injection E as <-; exact W|].
  destruct (split _ _ _ _ _) as [((w & s) & r')| | |]; try discriminate. cbn [tbind] in E.
  destruct (negb (is_empty w)).
  - apply IH in E. rewrite E. destruct s; cbn; rewrite ?write_width; reflexivity.
  - destruct (is_line_empty (f_writer f)); [destruct (negb _)|].
    + apply IH in E. exact E.
    + injection E as <-. reflexivity.
    + apply IH in E. exact E.
Qed.

Lemma push_width : forall n f, w_line_width (f_writer (push_indentation n f)) = w_line_width (f_writer f).
Proof. intros [n|] f; cbn; rewrite set_indentation_width; reflexivity. Qed.

Lemma pop_width : forall f f1, pop_indentation f = TOk f1 -> w_line_width (f_writer f1) = w_line_width (f_writer f).
Proof.
  intros f f1 E. unfold pop_indentation in E. destruct (f_indents f) as [|? [|? ?]]; try discriminate.
  injection E as <-. cbn. apply set_indentation_width.
Qed.

Lemma begin_width : forall f f1, begin_alignment f = TOk f1 -> w_line_width (f_writer f1) = w_line_width (f_writer f).
Proof.
  intros f f1 E. unfold begin_alignment in E. destruct (_ || _); [injection E as <-; apply (push_width None f)|].
  destruct (f_state f); try (injection E as <-; reflexivity).
  destruct (pop_indentation f) as [f2| | |] eqn:Ep; try discriminate. cbn [tbind] in E. injection E as <-.
  rewrite <- (pop_width _ _ Ep). apply (push_width None f2).
Qed.

Lemma end_width : forall f f1, end_alignment f = TOk f1 -> w_line_width (f_writer f1) = w_line_width (f_writer f).
Proof.
  intros f f1 E. unfold end_alignment in E. destruct (f_state f); try (injection E as <-; reflexivity);
  (destruct (pop_indentation f) as [f2| | |] eqn:Ep; try discriminate; cbn [tbind] in E; injection E as <-; apply (pop_width _ _ Ep)).
Qed.

Lemma words_width : forall fuel text f f1, words_loop fuel text f = TOk f1 ->
  w_line_width (f_writer f1) = w_line_width (f_writer f).
Proof.
  induction fuel as [|fuel IH]; intros text f f1 E.
  - destruct text; [apply end_width; exact E|discriminate].
  - destruct text as [|c text]; [apply end_width; exact E|].
    change (words_loop (S fuel) (c :: text) f) with (let '(k, token, rest) := next_token (c :: text) in
      tbind (write_token k token f) (words_loop fuel rest)) in E.
    destruct (next_token (c :: text)) as ((k & token) & rest).
    destruct (write_token k token f) as [f2| | |] eqn:Ew; try discriminate. cbn [tbind] in E.
    apply IH in E. rewrite E. destruct k; cbn [write_token] in Ew.
    + injection Ew as <-. reflexivity.
    + apply begin_width in Ew. exact Ew.
    + destruct (end_alignment f) as [f3| | |] eqn:Ee; try discriminate. cbn [tbind] in Ew. injection Ew as <-.
      apply end_width in Ee. exact Ee.
    + apply begin_width in Ew. exact Ew.
    + apply append_loop_width in Ew. rewrite Ew. unfold update_alignment. destruct (_ && _); reflexivity.
Qed.

Lemma lines_width : forall fuel text f f1, lines_loop fuel text f = TOk f1 ->
  w_line_width (f_writer f1) = w_line_width (f_writer f).
Proof.
  induction fuel as [|fuel IH]; intros text f f1 E.
  - destruct text; [injection E as <-; reflexivity|discriminate].
  - destruct text as [|c text]; [injection E as <-; reflexivity|]. cbn [lines_loop] in E.
    destruct (next_line (c :: text)) as [(line & rem)| | |]; try discriminate. cbn [tbind] in E.
    destruct (negb (is_empty line)).
    + destruct (append_word line f) as [f2| | |] eqn:Ea; try discriminate. cbn [tbind] in E.
      apply append_loop_width in Ea. apply IH in E. rewrite E, <- Ea. destruct (negb (is_empty rem)); reflexivity.
    + cbn [tbind] in E. apply IH in E. rewrite E. destruct (negb (is_empty rem)); reflexivity.
Qed.

Lemma op_width : forall o f f1, run_op o f = TOk f1 -> w_line_width (f_writer f1) = w_line_width (f_writer f).
Proof.
  intros [s|s| |n|] f f1 E; cbn [run_op] in E.
  - eapply words_width. exact E.
  - unfold write_lines in E. destruct (lines_loop (length s) s f) as [f2| | |] eqn:El; try discriminate.
    cbn [tbind] in E. apply lines_width in El. rewrite <- El.
    destruct (last_char s) as [c|]; [destruct (_ || _)|]; injection E as <-; reflexivity.
  - injection E as <-. reflexivity.
  - injection E as <-. apply push_width.
  - apply pop_width. exact E.
Qed.

Lemma ops_width : forall ops f f1, run_ops ops f = TOk f1 -> w_line_width (f_writer f1) = w_line_width (f_writer f).
Proof.
  induction ops as [|o ops IH]; intros f f1 E; [injection E as <-; reflexivity|]. cbn [run_ops] in E.
  destruct (run_op o f) as [f2| | |] eqn:Eo; try discriminate. cbn [tbind] in E.
  rewrite (IH _ _ E). apply op_width in Eo. exact Eo.
Qed.

Lemma run_width_proof : forall width rules f ops f1, text_formatter width rules = TOk f -> run_ops ops f = TOk f1 ->
  w_line_width (f_writer f1) = width.
Proof.
  intros width rules f ops f1 E Er. rewrite (ops_width _ _ _ Er). unfold text_formatter, new_formatter in E.
  destruct (_ <=? _); [discriminate|]. cbn [tbind f_rules] in E. destruct (add_words [] rules); try discriminate.
  injection E as <-. reflexivity.
Qed.

Lemma C51_restored_proof : forall width rules f ops f1 text f2, utf8_rules rules -> text_formatter width rules = TOk f ->
  run_ops ops f = TOk f1 -> simple_indents text -> write_words text f1 = TOk f2 ->
  f_indents f2 = f_indents f1 /\
  forall n l, f_indents f1 = n :: l -> n < width -> w_indent (f_writer f1) = n /\ w_indent (f_writer f2) = n.
Proof.
  intros width rules f ops f1 text f2 HR E Er Hs Ew. destruct (new_finv True _ _ _ HR E) as (F & Es).
  destruct (run_layout True ops [] Gap f f1 F) as (p1 & F1 & N1); [rewrite Es; apply no_align_none|auto|exact Er|].
  destruct (run_layout True (ops ++ [OpWords text]) [] Gap f f2 F) as (p2 & F2 & N2); [rewrite Es; apply no_align_none|auto| |].
  { clear - Er Ew. revert f Er. induction ops as [|o ops IH]; intros f Er.
    - injection Er as ->. cbn [app run_ops run_op]. rewrite Ew. reflexivity.
    - cbn [app run_ops] in *. destruct (run_op o f); try discriminate. cbn [tbind] in *. auto. }
  assert (I : f_indents f2 = f_indents f1) by (eapply words_indents_proof; eassumption).
  split; [exact I|]. intros n l Hi Hn.
  assert (W : w_line_width (f_writer f1) = width /\ w_line_width (f_writer f2) = width).
  { split; [eapply run_width_proof; eassumption|]. eapply run_width_proof with (ops := ops ++ [OpWords text]); [exact E|].
    clear - Er Ew. revert f Er. induction ops as [|o ops IH]; intros f Er.
    - injection Er as ->. cbn [app run_ops run_op]. rewrite Ew. reflexivity.
    - cbn [app run_ops] in *. destruct (run_op o f); try discriminate. cbn [tbind] in *. auto. }
  destruct W as (W1 & W2). split.
  - eapply (fi_top _ _ _ _ F1); [exact Hi|]. rewrite W1. exact Hn.
  - eapply (fi_top _ _ _ _ F2); [rewrite I; exact Hi|]. rewrite W2. exact Hn.
Qed.

Lemma C51_tabs_proof : exists f f1, text_formatter 40 [] = TOk f /\
  run_ops [OpWords [c_tab; c_tab; "a"%char]; OpNewline; OpWords ($"b")] f = TOk f1 /\
  shown f1 = $"        a" ++ [c_lf] ++ $"    b".
Proof. do 2 eexists. split; [reflexivity|]. split; vm_compute; reflexivity. Qed.

(** A check for [simple_indents]. *)
Definition is_blank (c : ascii) : bool := Ascii.eqb c c_space || Ascii.eqb c c_tab.
Fixpoint lead (s : str) : str :=
  match s with c :: s' => if is_blank c then c :: lead s' else [] | [] => [] end.
Definition lead_simple (l : str) : bool :=
  str_eqb l [c_tab] || forallb (fun c => Ascii.eqb c c_space) l.
Fixpoint check_indents (start : bool) (s : str) : bool :=
  (negb start || lead_simple (lead s)) &&
  match s with c :: s' => check_indents (Ascii.eqb c c_lf || Ascii.eqb c c_cr) s' | [] => true end.

Lemma lead_prefix : forall l b, (forall c, In c l -> c = c_space \/ c = c_tab) -> exists l', lead (l ++ b) = l ++ l'.
Proof.
  induction l as [|c l IH]; intros b H; [eexists; reflexivity|]. simpl.
  assert (B : is_blank c = true) by (destruct (H c (or_introl eq_refl)) as [->| ->]; reflexivity). rewrite B.
  destruct (IH b (fun x Hx => H x (or_intror Hx))) as (l' & ->). eexists. reflexivity.
Qed.

Lemma check_suffix : forall a start r, check_indents start (a ++ r) = true ->
  (a = [] /\ start = true) \/ (exists a' c, a = a' ++ [c] /\ (c = c_lf \/ c = c_cr)) ->
  lead_simple (lead r) = true.
Proof.
  induction a as [|c a IH]; intros start r H Ha.
  - destruct Ha as [(_ & ->)|(a' & c & X & _)]; [|destruct a'; discriminate].
    destruct r as [|x r]; [reflexivity|]. cbn [app check_indents negb orb] in H. apply andb_true_iff in H. tauto.
  - simpl in H. apply andb_true_iff in H. destruct H as (_ & H). apply (IH _ _ H).
    destruct Ha as [(X & _)|(a' & d & X & Hd)]; [discriminate|].
    destruct a' as [|e a']; injection X as -> ->.
    + left. split; [reflexivity|]. destruct Hd as [->| ->]; reflexivity.
    + right. eauto.
Qed.

Lemma check_indents_sound : forall s, check_indents true s = true -> simple_indents s.
Proof.
  intros s H a l b -> Ha Hl.
  assert (L : lead_simple (lead (l ++ b)) = true).
  { apply (check_suffix a true (l ++ b) H). destruct Ha as [->|Ha]; auto. }
  destruct (lead_prefix l b Hl) as (l' & E). rewrite E in L. unfold lead_simple in L. apply orb_true_iff in L.
  destruct L as [L|L].
  - apply str_eqb_eq in L. destruct l as [|x l]; [right; intros c []|]. injection L as -> L.
    apply app_eq_nil in L. destruct L as (-> & _). left. reflexivity.
  - right. intros c Hc. rewrite forallb_forall in L. apply Ascii.eqb_eq. apply L. apply in_or_app. auto.
Qed.

Lemma C51_example_proof :
  simple_indents ($" - an item" ++ [c_lf] ++ $"	1. b") /\
  exists f f2, text_formatter 40 [] = TOk f /\
    run_ops [OpPush (Some 4); OpWords ($" - an item" ++ [c_lf] ++ $"	1. b"); OpNewline; OpWords ($"x")] f = TOk f2 /\
    shown f2 = $"     - an item" ++ [c_lf] ++ $"        1. b" ++ [c_lf] ++ $"    x".
Proof.
  split; [apply check_indents_sound; vm_compute; reflexivity|].
  do 2 eexists. split; [reflexivity|]. split; vm_compute; reflexivity.
Qed.
