(** Proofs about texts in sequences of calls (C78). *)
From Verif Require Import Base BaseProofs MStrings MText SStrings SText SFormat SWrap StrProofs SplitProofs
  RuleProofs PlaceProofs TextProofs LayoutProofs LayoutProofs2 WidthProofs IndentProofs TextApi WrapProofs WrapProofs2.
Open Scope nat_scope.

(** ** Ends of lines *)

Lemma blanks_none : forall n, find_first_not_of [c_space] (blanks n) = None.
Proof.
  induction n as [|n IH]; [reflexivity|]. change (blanks (S n)) with (c_space :: blanks n). cbn [find_first_not_of].
  change (existsb (Ascii.eqb c_space) [c_space]) with true. cbn iota. rewrite IH. reflexivity.
Qed.

Lemma token_spaces2 : forall n rest, 0 < n -> (forall r, rest <> c_space :: r) ->
  next_token (blanks n ++ rest) = (TkSpace, blanks n, rest).
Proof.
  intros n rest Hn Hr. destruct rest as [|c y]; [|apply token_spaces; [exact Hn|exact Hr|discriminate]].
  rewrite app_nil_r. destruct n as [|n]; [lia|]. pose proof (blanks_none (S n)) as E.
  change (blanks (S n)) with (c_space :: blanks n) in *. unfold next_token.
  change (Ascii.eqb c_space c_tab) with false. change (Ascii.eqb c_space c_cr) with false.
  change (Ascii.eqb c_space c_lf) with false. change (Ascii.eqb c_space c_space) with true. cbn iota.
  rewrite E. reflexivity.
Qed.

Lemma unix_white : forall s, starts_white s -> starts_white (unix s).
Proof.
  intros s [->|(c & s' & -> & Hc)]; [left; reflexivity|]. right. cbn [unix].
  destruct (Ascii.eqb c c_cr) eqn:E.
  - eexists _, _. split; [reflexivity|reflexivity].
  - exists c, (unix s'). auto.
Qed.

Lemma unix_space : forall s, (forall r, s <> c_space :: r) -> forall r, unix s <> c_space :: r.
Proof.
  intros [|c s] H r X; [discriminate|]. cbn [unix] in X. destruct (Ascii.eqb c c_cr); [discriminate|].
  injection X as -> _. eapply H. reflexivity.
Qed.

Lemma unix_proof : forall text f, write_words (unix text) f = write_words text f.
Proof.
  intros text. induction text as [text IH] using (induction_ltof1 _ (@length ascii)). unfold ltof in IH. intros f.
  destruct text as [|c t]; [reflexivity|].
  assert (Nt : c :: t <> []) by discriminate.
  destruct (next_token (c :: t)) as [[k token] rest] eqn:E.
  destruct (next_token_spec _ _ _ _ Nt E) as (E1 & Ne & _ & Hk).
  assert (Lr : length rest < length (c :: t)) by (rewrite E1, app_length; destruct token; [congruence|simpl; lia]).
  rewrite (words_step _ _ _ _ f Nt E).
  assert (Use : forall tok', next_token (unix (c :: t)) = (k, tok', unix rest) -> unix (c :: t) <> [] ->
    write_token k tok' f = write_token k token f ->
    write_words (unix (c :: t)) f = tbind (write_token k token f) (write_words rest)).
  { intros tok' X Y Z. rewrite (words_step _ _ _ _ f Y X), Z. destruct (write_token k token f) as [f1| | |]; [|reflexivity..].
    cbn [tbind]. apply IH. exact Lr. }
  destruct k.
  - destruct Hk.
  - assert (Et : token = [c_tab]) by (eapply tab_token; exact E). rewrite Et in E1. cbn [app] in E1. injection E1 as -> ->.
    apply (Use [c_tab]); [reflexivity|discriminate|rewrite Et; reflexivity].
  - apply (Use [c_lf]); [|cbn [unix]; destruct (Ascii.eqb c c_cr); discriminate|reflexivity].
    unfold next_token in E. destruct (Ascii.eqb c c_tab) eqn:Q1; [discriminate|].
    cbn [unix]. destruct (Ascii.eqb_spec c c_cr) as [->|N2].
    + destruct t as [|d t]; [injection E as _ <-; reflexivity|].
      destruct (Ascii.eqb d c_lf); injection E as _ <-; reflexivity.
    + destruct (Ascii.eqb_spec c c_lf) as [->|N3]; [injection E as _ <-; reflexivity|].
      destruct (Ascii.eqb c c_space); [destruct (find_first_not_of _ _); discriminate|destruct (find_first_of _ _); discriminate].
  - destruct (space_token _ _ _ E) as (Hs & Hr). rewrite E1.
    assert (Et : token = blanks (length token)) by (apply all_spaces; intros d Hd; left; symmetry; apply Hs; exact Hd).
    assert (Ncr : ~ In c_cr token) by (intros X; specialize (Hs _ X); discriminate).
    rewrite E1 in Use. rewrite unix_app in * by exact Ncr.
    apply (Use token); [|destruct token; [congruence|discriminate]|reflexivity].
    rewrite Et at 1 2. apply token_spaces2; [destruct token; [congruence|simpl; lia]|]. apply unix_space. exact Hr.
  - destruct Hk as (Hw & Hr). rewrite E1.
    assert (Ncr : ~ In c_cr token) by (intros X; apply Hw in X; discriminate).
    rewrite E1 in Use. rewrite unix_app in * by exact Ncr.
    apply (Use token); [|destruct token; [congruence|discriminate]|reflexivity].
    apply token_word; [exact Ne|exact Hw|apply unix_white; exact Hr].
Qed.

(** ** What holds after any calls *)

(** The rules do not change, and there are no spaces at the start of a line. *)
Definition kept (m : splitter) (f : formatter) : Prop :=
  f_rules f = m /\ (w_line (f_writer f) = [] -> w_spaces (f_writer f) = 0).

Lemma kept_append : forall m word f f1, good_rules m -> word <> [] -> kept m f -> append_word word f = TOk f1 ->
  kept m f1 /\ w_line (f_writer f1) <> [] /\ w_spaces (f_writer f1) = 0.
Proof.
  intros m word f f1 HG Nw (H1 & H2) E.
  destruct (append_word_proof word (fun c w => (w_line w = [] -> w_spaces w = 0) /\
    (c = word -> w_line w <> []) /\ (c <> [] -> w_spaces w = 0))) with (f := f) as (w' & E' & (A & B & C)).
  - intros c x r w (P1 & P2 & P3) Ex Nx _ _.
    assert (Nl : w_line (written x w) <> []).
    { simpl. intros X. apply app_eq_nil in X. destruct X as (_ & X). apply app_eq_nil in X. destruct X; auto. }
    split; [reflexivity|]. split; [intros _; exact Nl|reflexivity].
  - intros c r h w (P1 & P2 & P3) Ew Nc Nr _ _ _ _. split; [reflexivity|]. split; [|reflexivity].
    intros X. exfalso. apply Nr. rewrite X in Ew. rewrite <- (app_nil_r word) in Ew at 1.
    apply app_inv_head in Ew. auto.
  - intros w _ _ N0. split; [reflexivity|]. split; [congruence|reflexivity].
  - intros c w (P1 & P2 & P3) El. split; [reflexivity|]. split; [|reflexivity]. exact P2.
  - intros c r w (P1 & P2 & P3) Ew Nr _ El Es _ _.
    assert (Nl : w_line (written r w) <> []).
    { simpl. intros X. apply app_eq_nil in X. destruct X as (_ & X). apply app_eq_nil in X. destruct X; auto. }
    split; [reflexivity|]. split; [intros _; exact Nl|reflexivity].
  - rewrite H1. exact HG.
  - exact Nw.
  - split; [exact H2|]. split; congruence.
  - rewrite E in E'. injection E' as ->. split; [split; [exact H1|exact A]|]. split; [apply B; reflexivity|].
    apply C. exact Nw.
Qed.

Lemma indent_keeps : forall n w, w_line (set_indentation n w) = w_line w /\ w_spaces (set_indentation n w) = w_spaces w.
Proof. intros n w. unfold set_indentation. destruct (_ <=? _); auto. Qed.

Lemma kept_push : forall m n f, kept m f -> kept m (push_indentation n f).
Proof.
  intros m [n|] f (H1 & H2); (split; [exact H1|]); cbn;
    [destruct (indent_keeps n (f_writer f)) as (-> & ->); exact H2|].
  destruct (indent_keeps (current_width (f_writer f)) (set_spaces 0 (f_writer f))) as (-> & ->). reflexivity.
Qed.

Lemma kept_pop : forall m f f1, kept m f -> pop_indentation f = TOk f1 ->
  kept m f1 /\ w_line (f_writer f1) = w_line (f_writer f) /\ w_spaces (f_writer f1) = w_spaces (f_writer f).
Proof.
  intros m f f1 (H1 & H2) E. unfold pop_indentation in E. destruct (f_indents f) as [|a [|n l]]; try discriminate.
  injection E as <-. unfold kept. cbn. destruct (indent_keeps n (f_writer f)) as (-> & ->). auto.
Qed.

Lemma kept_end : forall m f f1, kept m f -> end_alignment f = TOk f1 ->
  kept m f1 /\ w_line (f_writer f1) = w_line (f_writer f) /\ w_spaces (f_writer f1) = w_spaces (f_writer f).
Proof.
  intros m f f1 H E. unfold end_alignment in E. destruct (f_state f); try (injection E as <-; auto);
    (destruct (pop_indentation f) as [f2| | |] eqn:Ep; try discriminate; cbn [tbind] in E; injection E as <-;
     exact (kept_pop _ _ _ H Ep)).
Qed.

(** Spaces on an empty line become an indentation. *)
Lemma kept_begin : forall m n f f1, kept m f -> begin_alignment (on_writer (set_spaces n) f) = TOk f1 -> kept m f1.
Proof.
  intros m n f f1 (H1 & H2) E. set (f0 := on_writer (set_spaces n) f) in E. unfold begin_alignment in E.
  destruct (is_line_empty (f_writer f0)) eqn:El.
  - cbn [orb] in E. injection E as <-. split; [exact H1|]. cbn.
    destruct (indent_keeps (current_width (f_writer f0)) (set_spaces 0 (f_writer f0))) as (X & Y). cbn in X, Y.
    rewrite Y. reflexivity.
  - assert (Nl : w_line (f_writer f) <> []) by (apply is_empty_false; exact El).
    cbn [orb] in E. destruct (f_state f0).
    + injection E as <-. split; [exact H1|]. cbn. congruence.
    + injection E as <-. split; [exact H1|]. cbn. congruence.
    + injection E as <-. split; [exact H1|]. cbn.
      destruct (indent_keeps (current_width (f_writer f0)) (set_spaces 0 (f_writer f0))) as (X & Y). cbn in X, Y.
      rewrite Y. reflexivity.
    + destruct (pop_indentation f0) as [f2| | |] eqn:Ep; try discriminate. cbn [tbind] in E. injection E as <-.
      assert (K0 : kept m f0) by (split; [exact H1|cbn; congruence]).
      destruct (kept_pop _ _ _ K0 Ep) as ((K1 & _) & _). split; [exact K1|]. cbn.
      destruct (indent_keeps (current_width (f_writer f2)) (set_spaces 0 (f_writer f2))) as (X & Y). cbn in X, Y.
      rewrite Y. reflexivity.
Qed.

Lemma kept_words : forall m text f f1, good_rules m -> kept m f -> write_words text f = TOk f1 ->
  kept m f1 /\ (forall c, last_char text = Some c -> is_white c = false ->
    w_line (f_writer f1) <> [] /\ w_spaces (f_writer f1) = 0).
Proof.
  intros m text. induction text as [text IH] using (induction_ltof1 _ (@length ascii)). unfold ltof in IH.
  intros f f1 HG HK E. destruct text as [|c0 t].
  - destruct (kept_end _ _ _ HK E) as (K & _). split; [exact K|discriminate].
  - assert (Nt : c0 :: t <> []) by discriminate.
    destruct (next_token (c0 :: t)) as [[k token] rest] eqn:En.
    destruct (next_token_spec _ _ _ _ Nt En) as (E1 & Ne & _ & Hk).
    assert (Lr : length rest < length (c0 :: t)) by (rewrite E1, app_length; destruct token; [congruence|simpl; lia]).
    rewrite (words_step _ _ _ _ f Nt En) in E. rewrite E1.
    destruct (write_token k token f) as [f0| | |] eqn:Ew; try discriminate. cbn [tbind] in E.
    assert (K0 : kept m f0 /\ (k = TkWord -> w_line (f_writer f0) <> [] /\ w_spaces (f_writer f0) = 0)).
    { destruct k; cbn [write_token] in Ew.
      - injection Ew as <-. split; [exact HK|discriminate].
      - split; [|discriminate]. eapply kept_begin; [exact HK|exact Ew].
      - split; [|discriminate]. destruct (end_alignment f) as [f2| | |] eqn:Ee; try discriminate.
        cbn [tbind] in Ew. injection Ew as <-. destruct (kept_end _ _ _ HK Ee) as ((K & _) & _).
        split; [exact K|reflexivity].
      - split; [|discriminate]. eapply kept_begin; [exact HK|exact Ew].
      - assert (K : kept m (update_alignment token f)) by (unfold update_alignment; destruct (_ && _); exact HK).
        destruct (kept_append _ _ _ _ HG Ne K Ew) as (A & B & C). split; [exact A|auto]. }
    destruct K0 as (K0 & KW). destruct (IH rest Lr f0 f1 HG K0 E) as (K1 & L1). split; [exact K1|].
    intros c Lc Wc. destruct rest as [|d rest].
    + rewrite app_nil_r in Lc. destruct k.
      * destruct Hk.
      * destruct Hk as (x & c' & Ex & Wx). rewrite Ex, last_char_app in Lc. injection Lc as <-. congruence.
      * destruct Hk as (x & c' & Ex & Wx). rewrite Ex, last_char_app in Lc. injection Lc as <-. congruence.
      * destruct Hk as (x & c' & Ex & Wx). rewrite Ex, last_char_app in Lc. injection Lc as <-. congruence.
      * destruct (KW eq_refl) as (X & Y). change (write_words [] f0) with (end_alignment f0) in E.
        destruct (kept_end _ _ _ K0 E) as (_ & -> & ->). auto.
    + apply (L1 c); [|exact Wc]. rewrite last_char_app2 in Lc by discriminate. exact Lc.
Qed.

Lemma kept_lines : forall m fuel text f f1, good_rules m -> kept m f -> lines_loop fuel text f = TOk f1 -> kept m f1.
Proof.
  intros m. induction fuel as [|fuel IH]; intros text f f1 HG HK E; destruct text as [|c t]; cbn [lines_loop] in E;
    try discriminate; try (injection E as <-; exact HK).
  destruct (next_line (c :: t)) as [[line rem]| | |]; try discriminate. cbn [tbind] in E.
  destruct (if negb (is_empty line) then append_word line f else TOk f) as [f0| | |] eqn:Ea; try discriminate.
  cbn [tbind] in E. apply IH in E; [exact E|exact HG|].
  assert (K0 : kept m f0).
  { destruct (is_empty line) eqn:El; cbn [negb] in Ea; [injection Ea as <-; exact HK|].
    apply is_empty_false in El. apply (kept_append _ _ _ _ HG El HK Ea). }
  destruct (negb (is_empty rem)); [|exact K0]. destruct K0 as (A & _). split; [exact A|reflexivity].
Qed.

Lemma kept_op : forall m o f f1, good_rules m -> kept m f -> run_op o f = TOk f1 -> kept m f1.
Proof.
  intros m o f f1 HG HK E. destruct o as [t|t| |n|]; cbn [run_op] in E.
  - apply (kept_words _ _ _ _ HG HK E).
  - unfold write_lines in E. destruct (lines_loop (length t) t f) as [f0| | |] eqn:El; try discriminate. cbn [tbind] in E.
    pose proof (kept_lines _ _ _ _ _ HG HK El) as K.
    destruct (last_char t) as [c|]; [destruct (_ || _)|]; injection E as <-; try exact K.
    destruct K as (A & _). split; [exact A|reflexivity].
  - injection E as <-. destruct HK as (A & _). split; [exact A|reflexivity].
  - injection E as <-. apply kept_push. exact HK.
  - apply (kept_pop _ _ _ HK E).
Qed.

Lemma kept_ops : forall m ops f f1, good_rules m -> kept m f -> run_ops ops f = TOk f1 -> kept m f1.
Proof.
  intros m. induction ops as [|o ops IH]; intros f f1 HG HK E; cbn [run_ops] in E; [injection E as <-; exact HK|].
  destruct (run_op o f) as [f0| | |] eqn:Eo; try discriminate. cbn [tbind] in E.
  eapply IH; [exact HG| |exact E]. eapply kept_op; eassumption.
Qed.

Lemma run_app : forall a b f, run_ops (a ++ b) f = tbind (run_ops a f) (run_ops b).
Proof.
  induction a as [|o a IH]; intros b f; [reflexivity|]. cbn [app run_ops].
  destruct (run_op o f) as [f0| | |]; [|reflexivity..]. cbn [tbind]. apply IH.
Qed.

Lemma text_formatter_rules : forall width rules f, text_formatter width rules = TOk f ->
  add_words [] rules = TOk (f_rules f) /\ w_line (f_writer f) = [] /\ w_spaces (f_writer f) = 0.
Proof.
  intros width rules f E. unfold text_formatter, new_formatter in E. destruct (width <=? 2); [discriminate|].
  cbn [tbind f_rules] in E. destruct (add_words [] rules) as [m| | |]; try discriminate. cbn [tbind] in E.
  injection E as <-. auto.
Qed.

(** ** A text at the start of a line *)

Lemma run_facts : forall width rules f ops f1, utf8_rules rules -> text_formatter width rules = TOk f ->
  ~ ops_marker ops -> run_ops ops f = TOk f1 ->
  add_words [] rules = TOk (f_rules f1) /\ f_state f1 = NO_ALIGNMENT /\ w_line_width (f_writer f1) = width /\
  kept (f_rules f) f1 /\ (exists t p, winv False t p (f_writer f1)) /\ f_indents f1 <> [] /\ good_rules (f_rules f).
Proof.
  intros width rules f ops f1 HU EF NM ER.
  destruct (text_formatter_rules _ _ _ EF) as (T1 & T2 & T3).
  assert (HG : good_rules (f_rules f)) by (exists rules; auto).
  assert (K : kept (f_rules f) f1).
  { eapply kept_ops; [exact HG| |exact ER]. split; [reflexivity|intros _; exact T3]. }
  destruct (new_finv False _ _ _ HU EF) as (F & Es).
  destruct (run_layout False ops [] Gap f f1 F) as (p1 & F1 & N1); auto.
  { rewrite Es. apply no_align_none. }
  split; [rewrite (proj1 K); exact T1|]. split.
  { destruct (f_state f1) eqn:Q; [reflexivity| | |].
    - exfalso. apply N1. left. reflexivity.
    - exfalso. apply (fi_marker _ _ _ _ F1). left. exact Q.
    - exfalso. apply (fi_marker _ _ _ _ F1). right. exact Q. }
  split; [exact (run_width_proof _ _ _ _ _ EF ER)|]. split; [exact K|].
  split; [|split; [exact (fi_indents _ _ _ _ F1)|exact HG]].
  eexists _, _. exact (fi_writer _ _ _ _ F1).
Qed.

Lemma start_proof : forall width rules f ops f1 n, utf8_rules rules -> text_formatter width rules = TOk f ->
  ~ ops_marker ops -> run_ops ops f = TOk f1 -> at_line_start (shown f1) -> n < width ->
  at_start rules width n (f_indents f1) (push_indentation (Some n) f1).
Proof.
  intros width rules f ops f1 n HU EF NM ER LS Ln.
  destruct (run_facts _ _ _ _ _ HU EF NM ER) as (R1 & R2 & R3 & (K1 & K2) & (t & p & W) & _ & _).
  assert (El : w_line (f_writer f1) = []).
  { destruct (w_line (f_writer f1)) as [|c l] eqn:Q; [reflexivity|]. exfalso.
    apply (not_line_start (f_writer f1)); [rewrite Q; discriminate|exact (wi_line _ _ _ _ W)|exact LS]. }
  constructor; [exact R1|exact R2|reflexivity|].
  cbn. unfold set_indentation. rewrite R3. destruct (Nat.leb_spec width n) as [X|_]; [lia|].
  constructor; cbn.
  - reflexivity.
  - reflexivity.
  - exact (wi_empty _ _ _ _ W El).
  - unfold current_width. cbn. rewrite (wi_empty _ _ _ _ W El), (K2 El). lia.
  - rewrite El, (K2 El). auto.
  - discriminate.
Qed.

Lemma C78_text_proof : forall width rules f ops f1 n text ls, utf8_rules rules -> trimmed_rules rules ->
  text_formatter width rules = TOk f -> ~ ops_marker ops -> run_ops ops f = TOk f1 -> at_line_start (shown f1) ->
  n < width -> ls <> [] -> (forall l, In l ls -> good_line l) -> unix text = text_of ls ->
  exists f2 out, run_ops [OpPush (Some n); OpWords text] f1 = TOk f2 /\ shown f2 = shown f1 ++ out /\
    put_text rules width n ls out.
Proof.
  intros width rules f ops f1 n text ls HU HT EF NM ER LS Ln Nl HG Et.
  pose proof (start_proof _ _ _ _ _ n HU EF NM ER LS Ln) as AS.
  destruct (text_put rules width n (f_indents f1) HU HT Ln ls _ AS Nl HG) as (f2 & out & E2 & P & Sh & _).
  exists f2, out. split; [|split; [|exact P]].
  - cbn [run_ops run_op tbind]. rewrite <- unix_proof, Et, E2. reflexivity.
  - unfold fshown, wshown in Sh. unfold shown. rewrite Sh. f_equal. cbn. unfold set_indentation.
    destruct (_ <=? _); reflexivity.
Qed.

(** ** A text beside another *)

Lemma more_lines : forall rules width base stack ls f, utf8_rules rules -> trimmed_rules rules -> base < width ->
  at_end rules width base stack f -> ls <> [] -> (forall l, In l ls -> good_line l) ->
  exists f' out, write_words (c_lf :: text_of ls) f = TOk f' /\ put_text rules width base ls out /\
    fshown f' = fshown f ++ c_lf :: out.
Proof.
  intros rules width base stack ls f HU HT HB AE Nl HG.
  destruct (newline_put rules width base stack HB (text_of ls) f AE) as (f1 & -> & AS & Sh).
  destruct (text_put rules width base stack HU HT HB ls f1 AS Nl HG) as (f2 & out & E2 & P & Sh2 & _).
  exists f2, out. split; [exact E2|]. split; [exact P|]. rewrite Sh2, Sh, <- app_assoc. reflexivity.
Qed.

Lemma beside_text : forall rules width base stack ls f col gap0, utf8_rules rules -> trimmed_rules rules ->
  base < width -> add_words [] rules = TOk (f_rules f) -> f_state f = NO_ALIGNMENT -> f_indents f = base :: stack ->
  ready width base false col gap0 (f_writer f) -> good_beside ls ->
  exists f' out, write_words (text_of ls) f = TOk f' /\ put_beside rules width base col gap0 ls out /\
    fshown f' = fshown f ++ out.
Proof.
  intros rules width base stack ls f col gap0 HU HT HB HR HS HI RD HG.
  destruct ls as [|[|[g|] [m|] word more] l]; try (destruct HG; fail). cbn [good_beside] in HG.
  destruct HG as (Gw & Gm & Gl).
  assert (St : (f_state f = NO_ALIGNMENT /\ f_indents f = base :: stack /\ base = base) \/
    (f_state f = ALIGNMENT /\ exists x, f_indents f = x :: base :: stack)) by (left; auto).
  destruct l as [|x l].
  - change (text_of [Line None None word more]) with (word ++ more_text more).
    assert (MW : starts_white (more_text more)).
    { rewrite <- (app_nil_r (more_text more)). apply (more_white more [] Gm). left. reflexivity. }
    destruct (beside_put rules width base stack HU HT base col gap0 word (more_text more) f HR St RD Gw MW)
      as (f3 & out & e & -> & P3 & Sh3 & A3).
    rewrite <- (app_nil_r (more_text more)).
    destruct (more_put rules width base stack HU HT HB more base e f3 [] A3 Gm (or_introl eq_refl)) as (f4 & out' & e' & -> & P4 & Sh4 & A4).
    destruct (end_put rules width base stack HB f4 (after_end _ _ _ _ _ _ _ A4)) as (f5 & E5 & Sh5 & _).
    exists f5, (out ++ out'). split; [exact E5|]. split; [econstructor; eassumption|].
    rewrite Sh5, Sh4, Sh3, <- app_assoc. reflexivity.
  - change (text_of (Line None None word more :: x :: l)) with ((word ++ more_text more) ++ c_lf :: text_of (x :: l)).
    rewrite <- app_assoc.
    assert (SL : starts_white (c_lf :: text_of (x :: l))) by (right; eexists _, _; split; reflexivity).
    destruct (beside_put rules width base stack HU HT base col gap0 word (more_text more ++ c_lf :: text_of (x :: l)) f HR St RD Gw
      (more_white more _ Gm SL)) as (f3 & out & e & -> & P3 & Sh3 & A3).
    destruct (more_put rules width base stack HU HT HB more base e f3 _ A3 Gm SL) as (f4 & out' & e' & -> & P4 & Sh4 & A4).
    destruct (more_lines rules width base stack (x :: l) f4 HU HT HB (after_end _ _ _ _ _ _ _ A4)) as (f5 & rest & -> & P5 & Sh5);
      [discriminate|exact Gl|].
    exists f5, (out ++ out' ++ c_lf :: rest). split; [reflexivity|]. split; [econstructor; eassumption|].
    rewrite Sh5, Sh4, Sh3, <- !app_assoc. reflexivity.
Qed.

Lemma lines_unique : forall (a b x y : str), at_line_start a -> at_line_start x -> ~ In c_lf b -> ~ In c_lf y ->
  a ++ b = x ++ y -> a = x /\ b = y.
Proof.
  assert (K : forall a b x y, length x <= length a -> at_line_start a -> ~ In c_lf y -> a ++ b = x ++ y -> a = x /\ b = y).
  { intros a b x y L Ha Hy E. assert (X : exists m, a = x ++ m).
    { exists (skipn (length x) a). assert (F := f_equal (firstn (length x)) E).
      rewrite !firstn_app, firstn_all, Nat.sub_diag in F. replace (length x - length a) with 0 in F by lia.
      simpl in F. rewrite !app_nil_r in F. rewrite <- F at 1. symmetry. apply firstn_skipn. }
    destruct X as (m & ->). rewrite <- app_assoc in E. apply app_inv_head in E. subst y.
    destruct m as [|c m]; [rewrite app_nil_r; auto|]. exfalso. destruct Ha as [Ha|Ha].
    - apply app_eq_nil in Ha. destruct Ha; discriminate.
    - rewrite last_char_app2 in Ha by discriminate. apply last_in in Ha. apply Hy. apply in_or_app. left. exact Ha. }
  intros a b x y Ha Hx Hb Hy E. destruct (Nat.le_ge_cases (length x) (length a)) as [L|L].
  - apply K; assumption.
  - destruct (K x y a b L Hx Hb (eq_sym E)) as (-> & ->). auto.
Qed.

Definition gap_ops (k : nat) : list text_op := match k with O => [] | _ => [OpWords (blanks k)] end.

Lemma C78_beside_proof : forall width rules f ops t c f1 start line col k n text ls, utf8_rules rules -> trimmed_rules rules ->
  text_formatter width rules = TOk f -> ~ ops_marker (ops ++ [OpWords t]) ->
  (forall o, In o (ops ++ [OpWords t]) -> op_utf8 o) -> last_char t = Some c -> is_white c = false ->
  run_ops (ops ++ [OpWords t]) f = TOk f1 -> shown f1 = start ++ line -> at_line_start start -> ~ In c_lf line ->
  utf8_text line col -> n < width -> good_beside ls -> unix text = text_of ls ->
  exists f2 out, run_ops (gap_ops k ++ [OpPush (Some n); OpWords text]) f1 = TOk f2 /\ shown f2 = shown f1 ++ out /\
    put_beside rules width n col (Nat.max col n + k - col) ls out.
Proof.
  intros width rules f ops t c f1 start line col k n text ls HU HT EF NM HO Lt Wc ER Sh LS NL UL Ln HG Et.
  destruct (run_facts _ _ _ _ _ HU EF NM ER) as (R1 & R2 & R3 & (K1 & K2) & (t0 & p & W) & _ & HGR).
  (* no spaces are pending *)
  assert (SP : w_line (f_writer f1) <> [] /\ w_spaces (f_writer f1) = 0).
  { rewrite run_app in ER. destruct (run_ops ops f) as [f0| | |] eqn:E0; try discriminate. cbn [tbind run_ops run_op] in ER.
    destruct (write_words t f0) as [f01| | |] eqn:E1; try discriminate. cbn [tbind] in ER. injection ER as ->.
    destruct (text_formatter_rules _ _ _ EF) as (_ & _ & T3).
    assert (K0 : kept (f_rules f) f0).
    { eapply kept_ops; [exact HGR| |exact E0]. split; [reflexivity|intros _; exact T3]. }
    destruct (kept_words _ _ _ _ HGR K0 E1) as (_ & Q). exact (Q c Lt Wc). }
  destruct SP as (Nl & S0).
  (* the column *)
  assert (CO : w_current (f_writer f1) = col /\ w_line (f_writer f1) = line).
  { assert (FK : fok width f1).
    { eapply fok_run; [|exact HO|exact ER]. unfold text_formatter, new_formatter in EF.
      destruct (Nat.leb_spec width 2); [discriminate|]. cbn [tbind f_rules] in EF.
      destruct (add_words [] rules) as [m| | |] eqn:Em; try discriminate. cbn [tbind] in EF. injection EF as <-.
      split; [|exists rules; auto]. constructor; cbn; auto.
      - exists []. split; [reflexivity|intros l []].
      - apply utf8_nil.
      - left. lia.
      - lia. }
    destruct FK as (WK & _). unfold shown in Sh.
    destruct (lines_unique _ _ _ _ (wi_out _ _ _ _ W) LS (wo_lf _ _ WK) NL Sh) as (_ & EL).
    split; [|exact EL]. pose proof (wo_utf8 _ _ WK) as U. rewrite EL in U.
    rewrite <- (utf8_count _ _ U). exact (utf8_count _ _ UL). }
  destruct CO as (Cc & Cl).
  (* the gap *)
  assert (GO : run_ops (gap_ops k) f1 = TOk (on_writer (set_spaces k) f1)).
  { destruct k as [|k].
    - cbn. unfold on_writer, set_spaces. rewrite <- S0. destruct f1 as [[] ? ? ?]. reflexivity.
    - cbn [gap_ops run_ops run_op]. rewrite <- (app_nil_r (blanks (S k))).
      rewrite (words_step _ TkSpace (blanks (S k)) []); [|discriminate|apply token_spaces2; [lia|discriminate]].
      cbn [write_token]. assert (L : length (blanks (S k)) = S k) by apply repeat_length. rewrite L.
      unfold begin_alignment. assert (E : is_line_empty (f_writer (on_writer (set_spaces (S k)) f1)) = false) by (apply is_empty_false; exact Nl).
      rewrite E. cbn [orb]. change (f_state (on_writer (set_spaces (S k)) f1)) with (f_state f1). rewrite R2. cbn [tbind].
      change (write_words [] (on_writer (set_spaces (S k)) f1)) with (end_alignment (on_writer (set_spaces (S k)) f1)).
      unfold end_alignment. change (f_state (on_writer (set_spaces (S k)) f1)) with (f_state f1). rewrite R2. reflexivity. }
  set (f2 := push_indentation (Some n) (on_writer (set_spaces k) f1)).
  assert (RD : ready width n false col (Nat.max col n + k - col) (f_writer f2)).
  { unfold f2. cbn. unfold set_indentation. cbn. rewrite R3. destruct (Nat.leb_spec width n) as [X|_]; [lia|].
    constructor; cbn; try assumption; try reflexivity; try discriminate.
    - unfold current_width. cbn. rewrite Cc. lia.
    - intros _. exact Nl. }
  destruct (beside_text rules width n (f_indents f1) ls f2 col _ HU HT Ln R1 R2 eq_refl RD HG) as (f3 & out & E3 & P3 & Sh3).
  exists f3, out. rewrite run_app, GO. cbn [tbind run_ops run_op]. fold f2. rewrite <- unix_proof, Et, E3. cbn [tbind].
  split; [reflexivity|]. split; [|exact P3]. unfold fshown, wshown in Sh3. unfold shown. rewrite Sh3. f_equal.
  unfold f2. cbn. unfold set_indentation. destruct (_ <=? _); reflexivity.
Qed.
