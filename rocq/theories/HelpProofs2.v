(** Proofs about help texts (C53, C54): steps of the writer of help texts. *)
From Verif Require Import Base BaseProofs MStrings MData MText MHelp SStrings SText SFormat SHelp StrProofs
  SplitProofs RuleProofs TextProofs LayoutProofs LayoutProofs2 WidthProofs IndentProofs TextApi HelpProofs.
Open Scope nat_scope.

Lemma pinv_true : forall g t p f, pinv g t p f -> finv True t p f.
Proof.
  intros g t p f [H1 H2 H3 H4 H5 H6]. constructor; try assumption; auto.
  - eapply winv_mono; [exact H1|auto].
  - intros E. auto.
Qed.

(** ** Spaces at the beginning of a line *)

Definition no_lead (f : formatter) : Prop := w_line (f_writer f) = [] -> w_spaces (f_writer f) = 0.

Lemma set_indentation_same : forall n w, w_out (set_indentation n w) = w_out w /\ w_line (set_indentation n w) = w_line w /\
  w_spaces (set_indentation n w) = w_spaces w /\ w_current (set_indentation n w) = w_current w /\
  w_line_width (set_indentation n w) = w_line_width w.
Proof. intros n w. unfold set_indentation. destruct (_ <=? _); repeat split; reflexivity. Qed.

Lemma push_same : forall n f, w_out (f_writer (push_indentation n f)) = w_out (f_writer f) /\
  w_line (f_writer (push_indentation n f)) = w_line (f_writer f) /\
  w_spaces (f_writer (push_indentation n f)) <= w_spaces (f_writer f) /\
  w_line_width (f_writer (push_indentation n f)) = w_line_width (f_writer f).
Proof.
  intros [n|] f; cbn [push_indentation f_writer set_indents on_writer].
  - destruct (set_indentation_same n (f_writer f)) as (E1 & E2 & E3 & E4 & E5). rewrite E1, E2, E3, E5. auto.
  - match goal with |- context [set_indentation ?n ?w] => destruct (set_indentation_same n w) as (E1 & E2 & E3 & E4 & E5) end.
    rewrite E1, E2, E3, E5. cbn [set_spaces w_out w_line w_spaces w_line_width]. repeat split; lia.
Qed.

Lemma push_none_spaces : forall f, w_spaces (f_writer (push_indentation None f)) = 0.
Proof.
  intros f. cbn [push_indentation f_writer set_indents on_writer].
  match goal with |- context [set_indentation ?n ?w] => destruct (set_indentation_same n w) as (_ & _ & E & _ & _) end.
  rewrite E. reflexivity.
Qed.

Lemma pop_same : forall f f1, pop_indentation f = TOk f1 -> w_out (f_writer f1) = w_out (f_writer f) /\
  w_line (f_writer f1) = w_line (f_writer f) /\ w_spaces (f_writer f1) = w_spaces (f_writer f) /\
  w_line_width (f_writer f1) = w_line_width (f_writer f).
Proof.
  intros f f1 E. unfold pop_indentation in E. destruct (f_indents f) as [|m [|n l]]; try discriminate.
  injection E as <-. cbn [f_writer set_indents on_writer].
  destruct (set_indentation_same n (f_writer f)) as (E1 & E2 & E3 & E4 & E5). auto.
Qed.

Lemma TOk_inj : forall {A} (a b : A), TOk a = TOk b -> a = b.
Proof. intros A a b E. injection E as E. exact E. Qed.
Lemma set_state_writer : forall s f, f_writer (set_state s f) = f_writer f.
Proof. reflexivity. Qed.

Lemma begin_same : forall f f1, begin_alignment f = TOk f1 -> w_out (f_writer f1) = w_out (f_writer f) /\
  w_line (f_writer f1) = w_line (f_writer f) /\ no_lead f1 /\ w_line_width (f_writer f1) = w_line_width (f_writer f).
Proof.
  intros f f1 E. unfold begin_alignment in E. destruct (is_line_empty (f_writer f)) eqn:El.
  - cbn [orb] in E. apply TOk_inj in E; subst f1. destruct (push_same None f) as (E1 & E2 & _ & E3).
    rewrite set_state_writer,  E1, E2, E3. repeat split. intros _. rewrite set_state_writer. apply (push_none_spaces f).
  - assert (Nl : w_line (f_writer f) <> []) by (intros X; unfold is_line_empty in El; rewrite X in El; discriminate).
    cbn [orb] in E. destruct (f_state f).
    + apply TOk_inj in E; subst f1. repeat split. intros X. contradiction.
    + apply TOk_inj in E; subst f1. repeat split. intros X. contradiction.
    + apply TOk_inj in E; subst f1. destruct (push_same None f) as (E1 & E2 & _ & E3).
      rewrite set_state_writer,  E1, E2, E3. repeat split. intros _. rewrite set_state_writer. apply (push_none_spaces f).
    + destruct (pop_indentation f) as [f2| | |] eqn:Ep; try discriminate. cbn [tbind] in E. apply TOk_inj in E; subst f1.
      destruct (pop_same _ _ Ep) as (P1 & P2 & _ & P3). destruct (push_same None f2) as (E1 & E2 & _ & E3).
      rewrite set_state_writer,  E1, E2, E3, P1, P2, P3. repeat split. intros _. rewrite set_state_writer. apply (push_none_spaces f2).
Qed.

Lemma end_same : forall f f1, end_alignment f = TOk f1 -> w_out (f_writer f1) = w_out (f_writer f) /\
  w_line (f_writer f1) = w_line (f_writer f) /\ w_spaces (f_writer f1) = w_spaces (f_writer f) /\
  w_line_width (f_writer f1) = w_line_width (f_writer f).
Proof.
  intros f f1 E. unfold end_alignment in E.
  destruct (f_state f); try (injection E as <-; auto);
    (destruct (pop_indentation f) as [f2| | |] eqn:Ep; try discriminate; cbn [tbind] in E; injection E as <-;
     apply (pop_same _ _ Ep)).
Qed.

Lemma words_loop_lead : forall fuel text t p f f1, finv True t p f -> no_lead f -> words_loop fuel text f = TOk f1 -> no_lead f1.
Proof.
  induction fuel as [|fuel IH]; intros text t p f f1 F H E.
  - destruct text; [|discriminate E]. destruct (end_same _ _ E) as (_ & E2 & E3 & _). unfold no_lead. rewrite E2, E3. exact H.
  - destruct text as [|c text]; [destruct (end_same _ _ E) as (_ & E2 & E3 & _); unfold no_lead; rewrite E2, E3; exact H|].
    remember (c :: text) as s eqn:Es. assert (Ns : s <> []) by (subst; discriminate).
    assert (E' : words_loop (S fuel) s f = let '(k, token, rest) := next_token s in
      tbind (write_token k token f) (words_loop fuel rest)) by (rewrite Es; reflexivity).
    rewrite E' in E. clear E'. destruct (next_token s) as ((k & token) & rest) eqn:En.
    destruct (next_token_spec _ _ _ _ Ns En) as (E1 & Nt & E2 & Hk).
    assert (Hok : match k with
      | TkEnd => False
      | TkWord => token <> [] /\ ~ In c_lf token /\ (is_list_marker token = true -> True)
      | TkSpace => token <> []
      | _ => True end).
    { destruct k; auto. destruct Hk as (Hw & Hr). split; [exact Nt|]. split; [intros X; apply Hw in X; discriminate|auto]. }
    destruct (token_ok True t p f k token F Hok) as (f2 & p2 & Ew & F2). rewrite Ew in E. cbn [tbind] in E.
    apply (IH rest _ _ _ _ F2) in E; [exact E|].
    destruct k; cbn [write_token] in Ew; try contradiction.
    + apply (begin_same _ _ Ew).
    + destruct (end_alignment f) as [f3| | |]; try discriminate. cbn [tbind] in Ew. injection Ew as <-. intros _. reflexivity.
    + apply (begin_same _ _ Ew).
    + destruct Hok as (N1 & N2 & _).
      destruct (word_ok True t p _ token (update_ok True t p f token F (fun _ => I)) N1 N2) as (f3 & E3 & F3 & _).
      rewrite E3 in Ew. injection Ew as <-. destruct F3 as [[_ _ _ _ (X & _)] _ _ _ _ _ _]. intros Y. contradiction.
Qed.

(** A blank changes nothing that has been written. *)
Lemma blank_same : forall n f f1, write_words (repeat c_space (S n)) f = TOk f1 ->
  w_out (f_writer f1) = w_out (f_writer f) /\ w_line (f_writer f1) = w_line (f_writer f) /\
  w_line_width (f_writer f1) = w_line_width (f_writer f).
Proof.
  intros n f f1 E. unfold write_words in E. cbn [repeat length words_loop] in E.
  assert (En : next_token (c_space :: repeat c_space n) = (TkSpace, c_space :: repeat c_space n, [])).
  { assert (X : forall m, find_first_not_of [c_space] (repeat c_space m) = None).
    { induction m as [|m IHm]; [reflexivity|]. simpl. rewrite IHm. reflexivity. }
    specialize (X (S n)). cbn [repeat] in X.
    assert (Y : forall s, next_token (c_space :: s) = match find_first_not_of [c_space] (c_space :: s) with
        | Some n => (TkSpace, firstn n (c_space :: s), skipn n (c_space :: s)) | None => (TkSpace, c_space :: s, []) end)
      by reflexivity.
    rewrite Y, X. reflexivity. }
  rewrite En in E. cbn [write_token] in E.
  destruct (begin_alignment _) as [f2| | |] eqn:Eb; try discriminate. cbn [tbind] in E.
  assert (E' : end_alignment f2 = TOk f1) by (destruct (length (repeat c_space n)); exact E).
  destruct (begin_same _ _ Eb) as (B1 & B2 & _ & B3). destruct (end_same _ _ E') as (C1 & C2 & _ & C3).
  cbn in B1, B2, B3. rewrite C1, C2, C3, B1, B2, B3. auto.
Qed.

(** ** Invariants *)

Section Steps.
Variable glue : Prop.
Variable W : nat.

(** Within a line. [b] indentations can be removed. *)
Record hinv (b : nat) (t : list item) (f : formatter) : Prop := mk_hinv {
  hi_inv : exists p, pinv glue t p f;
  hi_aligned : ~ is_aligned (f_state f);
  hi_depth : b < length (f_indents f);
  hi_width : w_line_width (f_writer f) = W;
  hi_lead : no_lead f
}.

(** At the beginning of a line. *)
Definition sinv (b : nat) (t : list item) (f : formatter) : Prop := hinv b t f /\ w_line (f_writer f) = [].

(** At the end of a line. *)
Record ninv (b : nat) (t : list item) (f : formatter) : Prop := mk_ninv {
  ni_layout : exists p, layout glue t (w_out (f_writer f) ++ w_line (f_writer f)) p;
  ni_rules : good_rules (f_rules f);
  ni_top : forall n l, f_indents f = n :: l -> n < w_line_width (f_writer f) -> w_indent (f_writer f) = n;
  ni_marker : f_state f = UNALIGNED_MARKER \/ f_state f = ALIGNED_MARKER -> glue;
  ni_aligned : ~ is_aligned (f_state f);
  ni_depth : b < length (f_indents f);
  ni_width : w_line_width (f_writer f) = W
}.

Lemma hinv_ninv : forall b t f, hinv b t f -> ninv b t f.
Proof.
  intros b t f [(p & [[H1 H2 H3 H4 H5] G2 G3 G4 G5 G6]) Na Hd Hw Hl]. constructor; try assumption. exists p. exact H1.
Qed.

Lemma ninv_newline : forall b t f, ninv b t f -> exists f1, new_line f = TOk f1 /\ sinv b (t ++ [Break]) f1 /\
  f_indents f1 = f_indents f.
Proof.
  intros b t f [(p & H1) H2 H3 H4 H5 H6 H7]. eexists. split; [reflexivity|]. split; [|reflexivity]. split; [|reflexivity].
  constructor; try assumption.
  - exists Gap. constructor; try assumption.
    + constructor.
      * cbn. rewrite app_nil_r, app_assoc. apply lay_break with (p := p). exact H1.
      * reflexivity.
      * cbn. rewrite app_assoc. apply at_line_start_lf.
      * discriminate.
      * left. reflexivity.
    + cbn. destruct (f_indents f); [simpl in H6; lia|discriminate].
    + intros X. contradiction.
  - intros _. reflexivity.
Qed.

Lemma pop_tail : forall f m l, f_indents f = m :: l -> l <> [] -> exists f1, pop_indentation f = TOk f1 /\ f_indents f1 = l /\
  (forall n l', f_indents f1 = n :: l' -> n < w_line_width (f_writer f1) -> w_indent (f_writer f1) = n) /\
  f_rules f1 = f_rules f /\ f_state f1 = f_state f.
Proof.
  intros f m l E Nl. destruct l as [|n l]; [congruence|]. unfold pop_indentation. rewrite E. eexists. split; [reflexivity|].
  split; [reflexivity|]. split; [|split; reflexivity].
  intros k l' X. injection X as <- _. cbn [f_writer set_indents on_writer]. unfold set_indentation.
  destruct (Nat.leb_spec (w_line_width (f_writer f)) n); cbn [w_line_width w_indent]; intros; [lia|reflexivity].
Qed.

Lemma ninv_pop : forall b t f, ninv (S b) t f -> exists f1, pop_indentation f = TOk f1 /\ ninv b t f1 /\
  f_indents f = hd 0 (f_indents f) :: f_indents f1.
Proof.
  intros b t f [(p & H1) H2 H3 H4 H5 H6 H7].
  destruct (f_indents f) as [|m l] eqn:El; [simpl in H6; lia|]. simpl in H6.
  assert (Nl : l <> []) by (destruct l; [simpl in H6; lia|discriminate]).
  destruct (pop_tail f m l El Nl) as (f1 & E & E1 & E2 & E3 & E4). exists f1. split; [exact E|].
  destruct (pop_same _ _ E) as (P1 & P2 & P3 & P4).
  split; [|simpl; rewrite E1; reflexivity]. constructor; try assumption.
  - exists p. rewrite P1, P2. exact H1.
  - rewrite E3. exact H2.
  - rewrite E4. exact H4.
  - rewrite E4. exact H5.
  - rewrite E1. lia.
  - rewrite P4. exact H7.
Qed.

Lemma sinv_ninv : forall b t f, sinv b t f -> ninv b t f.
Proof. intros b t f (H & _). apply hinv_ninv, H. Qed.

(** Indentations at the beginning of a line. *)
Lemma sinv_indent : forall b b' t f n s, sinv b t f -> b' < length (f_indents s) ->
  f_writer s = set_indentation n (f_writer f) -> f_rules s = f_rules f -> f_state s = f_state f ->
  (forall m l, f_indents s = m :: l -> m < w_line_width (f_writer s) -> w_indent (f_writer s) = m) ->
  sinv b' t s.
Proof.
  intros b b' t f n s ([(p & [[H1 H2 H3 H4 H5] G2 G3 G4 G5 G6]) Na Hd Hw Hl] & E) L Es Er Et Ht.
  destruct (set_indentation_same n (f_writer f)) as (E1 & E2 & E3 & E4 & E5). rewrite <- Es in E1, E2, E3, E4, E5.
  split; [|rewrite E2; exact E]. constructor.
  - exists p. constructor.
    + constructor.
      * rewrite E1, E2. exact H1.
      * rewrite E2, E4. exact H2.
      * rewrite E1. exact H3.
      * rewrite E2. exact H4.
      * destruct p; simpl in *.
        -- destruct H5 as (X & _). congruence.
        -- left. rewrite E2. exact E.
        -- rewrite E2. exact E.
        -- exact I.
    + rewrite Er. exact G2.
    + destruct (f_indents s); [simpl in L; lia|discriminate].
    + exact Ht.
    + rewrite Et. intros X. contradiction.
    + rewrite Et. exact G6.
  - rewrite Et. exact Na.
  - lia.
  - rewrite E5. exact Hw.
  - intros _. rewrite E3. apply Hl. exact E.
Qed.

Lemma sinv_push : forall b t f n, sinv b t f -> exists f1, push (Some n) f = TOk f1 /\ sinv (S b) t f1 /\
  f_indents f1 = n :: f_indents f.
Proof.
  intros b t f n H. eexists. split; [reflexivity|]. split; [|reflexivity].
  apply (sinv_indent b (S b) t f n); auto.
  - destruct H as ([_ _ Hd _ _] & _). simpl. lia.
  - intros m l X. injection X as <- _. cbn [push_indentation f_writer set_indents on_writer].
    unfold set_indentation. destruct (Nat.leb_spec (w_line_width (f_writer f)) n); cbn [w_line_width w_indent]; intros; [lia|reflexivity].
Qed.

Lemma sinv_pop : forall b t f, sinv (S b) t f -> exists f1, pop_indentation f = TOk f1 /\ sinv b t f1 /\
  f_indents f = hd 0 (f_indents f) :: f_indents f1.
Proof.
  intros b t f H. destruct (f_indents f) as [|m l] eqn:El; [destruct H as ([_ _ Hd _ _] & _); rewrite El in Hd; simpl in Hd; lia|].
  assert (L : b < length l) by (destruct H as ([_ _ Hd _ _] & _); rewrite El in Hd; simpl in Hd; lia).
  destruct l as [|n l]; [simpl in L; lia|].
  destruct (pop_tail f m (n :: l) El ltac:(discriminate)) as (f1 & E & E1 & E2 & E3 & E4). exists f1. split; [exact E|].
  split; [|simpl; rewrite E1; reflexivity].
  apply (sinv_indent (S b) b t f n); auto.
  - rewrite E1. exact L.
  - unfold pop_indentation in E. rewrite El in E. apply TOk_inj in E. subst f1. reflexivity.
Qed.

(** ** Texts *)

Lemma hinv_words : forall s b t f, hinv b t f -> (has_marker s -> glue) -> exists f1, write_words s f = TOk f1 /\
  hinv b (t ++ map word_item (unix s)) f1 /\ line_open f1 = open_items (line_open f) (map word_item (unix s)) /\
  (~ In c_tab s -> f_indents f1 = f_indents f).
Proof.
  intros s b t f [(p & H) Na Hd Hw Hl] Hm. pose proof (pinv_true _ _ _ _ H) as F.
  destruct s as [|c s].
  - exists f. assert (E : write_words [] f = TOk f).
    { unfold write_words, words_loop, end_alignment. cbn. destruct (f_state f) eqn:Es; auto; exfalso; apply Na; rewrite ?Es; [left|right]; reflexivity. }
    split; [exact E|]. cbn [unix map]. rewrite app_nil_r. split; [|auto]. constructor; try assumption. exists p. exact H.
  - remember (c :: s) as x eqn:Ex. assert (Nx : x <> []) by (subst; discriminate). clear Ex.
    destruct (words_pre glue x t p f Nx H Na Hm) as (f1 & p1 & E & F1 & N1). exists f1. split; [exact E|].
    split; [|split; [eapply words_open; eassumption|intros Ht; eapply words_indents_proof; try eassumption; apply no_tab_simple, Ht]].
    constructor.
    + exists p1. apply finv_pre, F1.
    + exact N1.
    + assert (D : depth_ok b f) by (unfold depth_ok; destruct (f_state f); try lia; exfalso; apply Na; [left|right]; reflexivity).
      destruct (depth_words _ b _ _ _ _ _ F D E) as (D1 & _). unfold depth_ok in D1. lia.
    + rewrite <- Hw. eapply words_width; eassumption.
    + eapply words_loop_lead; eassumption.
Qed.

Lemma lines_loop_pre : forall fuel text t p f, length text <= fuel -> last_char text <> Some c_cr ->
  pinv glue t p f -> no_lead f ->
  exists f1 p1 X, lines_loop fuel text f = TOk f1 /\ pinv glue (t ++ X) p1 f1 /\ f_state f1 = f_state f /\
    f_indents f1 = f_indents f /\ no_lead f1 /\
    map line_item (unix text) = X ++ (if ends_newline text then [Break] else []).
Proof.
  induction fuel as [|fuel IH]; intros text t p f L Nc H Hl.
  - destruct text; [|simpl in L; lia]. exists f, p, []. rewrite app_nil_r. auto 10.
  - destruct text as [|c text]; [exists f, p, []; rewrite app_nil_r; auto 10|].
    remember (c :: text) as s eqn:Es. assert (Ns : s <> []) by (subst; discriminate).
    destruct (next_line_spec s Ns Nc) as (line & rem & En & N1 & N2 & Nr & Lr & Hs).
    assert (Hw : exists f1 p1, (if negb (is_empty line) then append_word line f else TOk f) = TOk f1 /\
      pinv glue (t ++ map Solid line) p1 f1 /\ f_state f1 = f_state f /\ f_indents f1 = f_indents f /\ no_lead f1).
    { destruct line as [|x line]; cbn [is_empty negb].
      - exists f, p. simpl. rewrite app_nil_r. auto.
      - destruct H as [H1 G2 G3 G4 G5 G6].
        destruct (append_layout glue (x :: line) t p f ltac:(discriminate) N1 G2 H1) as (w' & -> & Wi & E1 & E2).
        eexists. exists Inside. split; [reflexivity|].
        split; [|split; [reflexivity|split; [reflexivity|]]].
        + constructor; cbn [on_writer f_writer f_indents f_rules f_state]; try assumption; rewrite E1, E2; assumption.
        + destruct Wi as [_ _ _ _ (X & _)]. intros Y. contradiction. }
    destruct Hw as (f1 & p1 & E1 & F1 & S1 & I1 & L1).
    assert (Eq : lines_loop (S fuel) s f = lines_loop fuel rem (if negb (is_empty rem) then newline f1 else f1)).
    { rewrite Es. cbn [lines_loop]. rewrite <- Es, En. cbn [tbind]. rewrite E1. reflexivity. }
    rewrite Eq. destruct Hs as [(-> & ->)|(Ei & He1 & He2)].
    + exists f1, p1, (map Solid line). split; [destruct fuel; reflexivity|]. split; [exact F1|]. split; [exact S1|].
      split; [exact I1|]. split; [exact L1|].
      assert (Ee : ends_newline line = false).
      { unfold ends_newline. destruct (last_char line) as [z|] eqn:Ez; [|reflexivity]. apply last_in in Ez.
        destruct (Ascii.eqb_spec z c_lf) as [->|_]; [contradiction|].
        destruct (Ascii.eqb_spec z c_cr) as [->|_]; [contradiction|reflexivity]. }
      rewrite Ee, app_nil_r. rewrite <- (app_nil_r line) at 1. rewrite unix_app by exact N2. rewrite app_nil_r.
      apply map_ext_in. intros z Hz. unfold line_item. destruct (Ascii.eqb_spec z c_lf) as [->|_]; [contradiction|reflexivity].
    + destruct rem as [|x rem].
      * exists f1, p1, (map Solid line). split; [destruct fuel; reflexivity|]. split; [exact F1|]. split; [exact S1|].
        split; [exact I1|]. split; [exact L1|].
        rewrite Ei, (He1 eq_refl). reflexivity.
      * cbn [is_empty negb].
        destruct (IH (x :: rem) ((t ++ map Solid line) ++ [Break]) Gap (newline f1) ltac:(lia) Nr
          (finv_pre _ _ _ _ (newline_pre glue _ _ _ F1)) (fun _ => eq_refl))
          as (f2 & p2 & X & E2 & F2 & S2 & I2 & L2 & EX).
        exists f2, p2, (map Solid line ++ Break :: X). split; [exact E2|]. split.
        { rewrite <- !app_assoc in F2. exact F2. }
        split; [rewrite S2; exact S1|]. split; [rewrite I2; exact I1|]. split; [exact L2|].
        rewrite Ei, (He2 ltac:(discriminate)), EX, <- app_assoc. reflexivity.
Qed.

Lemma hinv_lines : forall s b t f, hinv b t f -> last_char s <> Some c_cr -> exists f1, write_lines s f = TOk f1 /\
  hinv b (t ++ map line_item (unix s)) f1 /\ f_indents f1 = f_indents f.
Proof.
  intros s b t f [(p & H) Na Hd Hw Hl] Nc. unfold write_lines.
  destruct (lines_loop_pre (length s) s t p f (le_n _) Nc H Hl) as (f1 & p1 & X & E & F1 & S1 & I1 & L1 & ->).
  pose proof (lines_width _ _ _ _ E) as E5. rewrite E. cbn [tbind]. unfold ends_newline.
  assert (G : hinv b (t ++ X) f1) by (constructor; [exists p1; exact F1|rewrite S1; exact Na|rewrite I1; exact Hd|congruence|exact L1]).
  destruct (last_char s) as [c|].
  - destruct (Ascii.eqb c c_lf || Ascii.eqb c c_cr).
    + exists (newline f1). split; [reflexivity|]. rewrite app_assoc.
      destruct (ninv_newline _ _ _ (hinv_ninv _ _ _ G)) as (f2 & E2 & (G2 & _) & I2). apply TOk_inj in E2. subst f2.
      split; [exact G2|]. congruence.
    + exists f1. rewrite app_nil_r. auto.
  - exists f1. rewrite app_nil_r. auto.
Qed.
End Steps.
