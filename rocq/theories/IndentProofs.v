(** Proofs about indentation (C51) and about exceptions of the formatter (C52). *)
From Verif Require Import Base BaseProofs MStrings MText SStrings SText SFormat StrProofs SplitProofs
  RuleProofs TextProofs LayoutProofs LayoutProofs2.
Open Scope nat_scope.

(** ** The stack of indentations *)

Definition stack_ok (base : list nat) (f : formatter) : Prop :=
  match f_state f with
  | ALIGNMENT | ALIGNED_MARKER => exists x, f_indents f = x :: base
  | _ => f_indents f = base
  end.

Lemma pop_stack : forall f f1, pop_indentation f = TOk f1 ->
  (exists x, f_indents f = x :: f_indents f1) /\ w_line (f_writer f1) = w_line (f_writer f).
Proof.
  intros f f1 E. unfold pop_indentation in E. destruct (f_indents f) as [|m [|n l]] eqn:El; try discriminate.
  injection E as <-. split; [exists m; reflexivity|]. cbn. unfold set_indentation. destruct (_ <=? _); reflexivity.
Qed.

Lemma push_line : forall n f, w_line (f_writer (push_indentation n f)) = w_line (f_writer f).
Proof. intros [n|] f; cbn; unfold set_indentation; destruct (_ <=? _); reflexivity. Qed.

Lemma begin_stack : forall base f f1, begin_alignment f = TOk f1 -> stack_ok base f ->
  (w_line (f_writer f) = [] -> ~ is_aligned (f_state f)) ->
  stack_ok base f1 /\ w_line (f_writer f1) = w_line (f_writer f) /\
  (w_line (f_writer f) = [] -> f_state f1 = ALIGNMENT) /\ f_state f1 <> ALIGNED_MARKER.
Proof.
  intros base f f1 E H Na. unfold begin_alignment in E. destruct (is_line_empty (f_writer f)) eqn:El.
  - apply is_empty_true in El. cbn [orb] in E. injection E as <-. specialize (Na El).
    split; [|split; [apply (push_line None f)|split; [reflexivity|discriminate]]].
    unfold stack_ok in *. cbn [f_state set_state].
    assert (X : f_indents f = base) by (destruct (f_state f); auto; exfalso; apply Na; [left|right]; reflexivity).
    rewrite <- X. eexists. reflexivity.
  - assert (Nl : w_line (f_writer f) <> []) by (apply is_empty_false; exact El). cbn [orb] in E.
    destruct (f_state f) eqn:Es.
    + injection E as <-. split; [exact H|]. split; [reflexivity|]. split; [congruence|]. rewrite Es. discriminate.
    + injection E as <-. split; [exact H|]. split; [reflexivity|]. split; [congruence|]. rewrite Es. discriminate.
    + injection E as <-. split; [|split; [apply (push_line None f)|split; [reflexivity|discriminate]]].
      unfold stack_ok in *. rewrite Es in H. cbn [f_state set_state]. rewrite <- H. eexists. reflexivity.
    + destruct (pop_indentation f) as [f2| | |] eqn:Ep; try discriminate. cbn [tbind] in E. injection E as <-.
      destruct (pop_stack _ _ Ep) as ((x & Ex) & L2).
      split; [|split; [|split; [reflexivity|discriminate]]].
      * unfold stack_ok in *. rewrite Es in H. destruct H as (y & Hy). rewrite Hy in Ex. injection Ex as _ Ex.
        cbn [f_state set_state]. rewrite Ex. eexists. reflexivity.
      * cbn [set_state f_writer]. rewrite <- L2. apply (push_line None f2).
Qed.

Lemma end_stack : forall base f f1, end_alignment f = TOk f1 -> stack_ok base f ->
  f_indents f1 = base /\ ~ is_aligned (f_state f1).
Proof.
  intros base f f1 E H. unfold end_alignment in E. unfold stack_ok in H.
  destruct (f_state f) eqn:Es.
  - injection E as <-. rewrite Es. split; [exact H|apply no_align_none].
  - destruct (pop_indentation f) as [f2| | |] eqn:Ep; try discriminate. cbn [tbind] in E. injection E as <-.
    destruct (pop_stack _ _ Ep) as ((x & Ex) & _). destruct H as (y & Hy). rewrite Hy in Ex. injection Ex as _ Ex.
    split; [symmetry; exact Ex|apply no_align_none].
  - injection E as <-. rewrite Es. split; [exact H|apply no_align_unmarked].
  - destruct (pop_indentation f) as [f2| | |] eqn:Ep; try discriminate. cbn [tbind] in E. injection E as <-.
    destruct (pop_stack _ _ Ep) as ((x & Ex) & _). destruct H as (y & Hy). rewrite Hy in Ex. injection Ex as _ Ex.
    split; [symmetry; exact Ex|apply no_align_none].
Qed.

(** The kinds of blank tokens. *)
Lemma tab_token : forall text token rest, next_token text = (TkTab, token, rest) -> token = [c_tab].
Proof.
  intros text token rest E. unfold next_token in E. destruct text as [|c t]; [discriminate|].
  destruct (Ascii.eqb_spec c c_tab) as [->|]; [injection E as <- _; reflexivity|].
  destruct (Ascii.eqb c c_cr); [destruct t as [|d t]; [discriminate|destruct (Ascii.eqb d c_lf); discriminate]|].
  destruct (Ascii.eqb c c_lf); [discriminate|]. destruct (Ascii.eqb c c_space).
  - destruct (find_first_not_of _ _); discriminate.
  - destruct (find_first_of _ _); discriminate.
Qed.

Lemma space_token : forall text token rest, next_token text = (TkSpace, token, rest) ->
  (forall c, In c token -> c = c_space) /\ (forall r, rest <> c_space :: r).
Proof.
  intros text token rest E. unfold next_token in E. destruct text as [|c t]; [discriminate|].
  destruct (Ascii.eqb_spec c c_tab) as [->|]; [discriminate|].
  destruct (Ascii.eqb c c_cr); [destruct t as [|d t]; [discriminate|destruct (Ascii.eqb d c_lf); discriminate]|].
  destruct (Ascii.eqb c c_lf); [discriminate|]. destruct (Ascii.eqb c c_space).
  - destruct (find_first_not_of [c_space] (c :: t)) as [m|] eqn:F; injection E as <- <-.
    + destruct (find_first_not_of_spec _ _ _ F) as (x & d & y & Ex & <- & Nd & Hx).
      rewrite Ex, firstn_app, firstn_all, Nat.sub_diag, app_nil_r, skipn_app, skipn_all, Nat.sub_diag. simpl.
      split; [intros z Hz; destruct (Hx z Hz) as [X|[]]; auto|]. intros r X. injection X as -> _. apply Nd. left. reflexivity.
    + split; [|discriminate]. intros z Hz. destruct (find_first_not_of_none _ _ F z Hz) as [X|[]]; auto.
  - destruct (find_first_of _ _); discriminate.
Qed.

Lemma newline_token : forall text token rest, next_token text = (TkNewline, token, rest) ->
  exists x c, token = x ++ [c] /\ (c = c_lf \/ c = c_cr).
Proof.
  intros text token rest E. unfold next_token in E. destruct text as [|c t]; [discriminate|].
  destruct (Ascii.eqb_spec c c_tab) as [->|]; [discriminate|].
  destruct (Ascii.eqb_spec c c_cr) as [->|].
  - destruct t as [|d t]; [injection E as <- _; exists [], c_cr; auto|].
    destruct (Ascii.eqb_spec d c_lf) as [->|]; injection E as <- _; [exists [c_cr], c_lf; auto|exists [], c_cr; auto].
  - destruct (Ascii.eqb_spec c c_lf) as [->|]; [injection E as <- _; exists [], c_lf; auto|].
    destruct (Ascii.eqb c c_space); [destruct (find_first_not_of _ _)|destruct (find_first_of _ _)]; discriminate.
Qed.

Definition line_begin (a : str) : Prop := a = [] \/ exists a' c, a = a' ++ [c] /\ (c = c_lf \/ c = c_cr).

(** What has been read of the line, if nothing has been written on it. *)
Definition lead_ok (a text : str) (f : formatter) : Prop :=
  (f_state f = ALIGNED_MARKER -> w_line (f_writer f) <> []) /\
  (w_line (f_writer f) = [] -> exists a0 l, a = a0 ++ l /\ line_begin a0 /\
     (forall c, In c l -> c = c_space \/ c = c_tab) /\
     (f_state f = ALIGNMENT -> l <> [] /\ ((forall r, text <> c_space :: r) \/ last_char l = Some c_tab))).

Lemma words_stack : forall fuel base a text t p f f1, finv True t p f -> stack_ok base f -> lead_ok a text f ->
  simple_indents (a ++ text) -> words_loop fuel text f = TOk f1 ->
  f_indents f1 = base /\ ~ is_aligned (f_state f1).
Proof.
  induction fuel as [|fuel IH]; intros base a text t p f f1 F H Hl Hs E.
  - destruct text; [|discriminate E]. eapply end_stack; eassumption.
  - destruct text as [|c text]; [eapply end_stack; eassumption|].
    remember (c :: text) as s eqn:Es. assert (Ns : s <> []) by (subst; discriminate).
    assert (E' : words_loop (S fuel) s f = let '(k, token, rest) := next_token s in
      tbind (write_token k token f) (words_loop fuel rest)) by (rewrite Es; reflexivity).
    rewrite E' in E. clear E'. destruct (next_token s) as ((k & token) & rest) eqn:Et.
    destruct (next_token_spec _ _ _ _ Ns Et) as (E1 & Nt & _ & Hk).
    assert (Hok : match k with
      | TkEnd => False
      | TkWord => token <> [] /\ ~ In c_lf token /\ (is_list_marker token = true -> True)
      | TkSpace => token <> []
      | _ => True end).
    { destruct k; auto. destruct Hk as (Hw & _). split; [exact Nt|]. split; [|auto]. intros X. apply Hw in X. discriminate. }
    destruct (token_ok True t p f k token F Hok) as (f2 & p2 & Ew & F2). rewrite Ew in E. cbn [tbind] in E.
    assert (Hs' : simple_indents ((a ++ token) ++ rest)) by (rewrite <- app_assoc, <- E1; exact Hs).
    destruct Hl as (L1 & L2).
    assert (Step : stack_ok base f2 /\ lead_ok (a ++ token) rest f2).
    { destruct k; cbn [write_token] in Ew.
      - destruct Hk.
      - pose proof (tab_token _ _ _ Et) as ->.
        assert (Na : w_line (f_writer f) = [] -> ~ is_aligned (f_state f)).
        { intros El [X|X]; [|apply L1 in X; auto]. destruct (L2 El) as (a0 & l & -> & Ha & Hb & Hc).
          destruct (Hc X) as (Nl & _).
          destruct (Hs a0 (l ++ [c_tab]) rest) as [Y|Y].
          - rewrite E1, <- !app_assoc. reflexivity.
          - exact Ha.
          - intros z Hz. apply in_app_or in Hz. destruct Hz as [Hz|[<-|[]]]; auto.
          - destruct l as [|z l]; [congruence|]. injection Y as _ Y. destruct l; discriminate.
          - specialize (Y c_tab). rewrite in_app_iff in Y. discriminate Y. right. left. reflexivity. }
        destruct (begin_stack base (on_writer tab f) f2 Ew H Na) as (B1 & B2 & B3 & B4).
        change (w_line (f_writer (on_writer tab f))) with (w_line (f_writer f)) in B2, B3.
        split; [exact B1|]. split; [intros X; congruence|]. rewrite B2. intros El.
        destruct (L2 El) as (a0 & l & -> & Ha & Hb & _). exists a0, (l ++ [c_tab]). rewrite app_assoc.
        split; [reflexivity|]. split; [exact Ha|]. split.
        + intros z Hz. apply in_app_or in Hz. destruct Hz as [Hz|[<-|[]]]; auto.
        + intros _. split; [destruct l; discriminate|right; apply last_char_app].
      - destruct (end_alignment f) as [f3| | |] eqn:Ee; try discriminate. cbn [tbind] in Ew. injection Ew as <-.
        destruct (end_stack _ _ _ Ee H) as (B1 & B2). split.
        + unfold stack_ok. cbn [on_writer f_state f_indents]. destruct (f_state f3) eqn:S3; auto; exfalso; apply B2; [left|right]; reflexivity.
        + split.
          * cbn [on_writer f_state]. intros X. exfalso. apply B2. right. exact X.
          * intros _. exists (a ++ token), []. rewrite app_nil_r. split; [reflexivity|]. split.
            -- destruct (newline_token _ _ _ Et) as (x & d & -> & Hd). right. exists (a ++ x), d. rewrite app_assoc. auto.
            -- split; [intros z []|]. cbn [on_writer f_state]. intros X. exfalso. apply B2. left. exact X.
      - destruct (space_token _ _ _ Et) as (Hsp & Hr).
        assert (Na : w_line (f_writer f) = [] -> ~ is_aligned (f_state f)).
        { intros El [X|X]; [|apply L1 in X; auto]. destruct (L2 El) as (a0 & l & -> & Ha & Hb & Hc).
          destruct (Hc X) as (Nl & Hd).
          destruct (Hs a0 (l ++ token) rest) as [Y|Y].
          - rewrite E1, <- !app_assoc. reflexivity.
          - exact Ha.
          - intros z Hz. apply in_app_or in Hz. destruct Hz as [Hz|Hz]; auto.
          - destruct l as [|z l]; [congruence|]. injection Y as _ Y. destruct l; [|discriminate]. simpl in Y. congruence.
          - destruct Hd as [Hd|Hd].
            + destruct token as [|z token]; [congruence|]. rewrite (Hsp z (or_introl eq_refl)) in E1.
              apply (Hd _ E1).
            + apply last_in in Hd. specialize (Y c_tab). rewrite in_app_iff in Y. discriminate (Y (or_introl Hd)). }
        destruct (begin_stack base (on_writer (set_spaces (length token)) f) f2 Ew H Na) as (B1 & B2 & B3 & B4).
        change (w_line (f_writer (on_writer (set_spaces (length token)) f))) with (w_line (f_writer f)) in B2, B3.
        split; [exact B1|]. split; [intros X; congruence|]. rewrite B2. intros El.
        destruct (L2 El) as (a0 & l & -> & Ha & Hb & _). exists a0, (l ++ token). rewrite app_assoc.
        split; [reflexivity|]. split; [exact Ha|]. split.
        + intros z Hz. apply in_app_or in Hz. destruct Hz as [Hz|Hz]; auto.
        + intros _. split; [|left; exact Hr]. intros X. apply app_eq_nil in X. tauto.
      - destruct Hok as (_ & NL & _).
        pose proof (update_ok True t p f token F (fun _ => I)) as Fu.
        destruct (word_ok True t p _ token Fu Nt NL) as (f3 & Ea & F3 & S3). rewrite Ea in Ew. injection Ew as <-.
        destruct (append_layout True token t p (update_alignment token f) Nt NL (fi_rules _ _ _ _ Fu) (fi_writer _ _ _ _ Fu))
          as (w' & Ea' & W' & _ & _). rewrite Ea in Ea'. injection Ea' as ->.
        assert (Nl : w_line w' <> []) by (destruct W' as [_ _ _ _ W']; apply W').
        split.
        + unfold stack_ok in *. unfold update_alignment. cbn [on_writer f_state f_indents].
          destruct (is_line_empty (f_writer f) && is_list_marker token) eqn:B; [|exact H].
          apply andb_true_iff in B. destruct B as (B & _). apply is_empty_true in B.
          cbn [set_state f_state f_indents]. destruct (f_state f) eqn:Sf; auto. exfalso. apply (L1 eq_refl). exact B.
        + split; [intros _; exact Nl|]. intros X. exfalso. apply Nl. exact X. }
    destruct Step as (B1 & B2). eapply IH; eassumption.
Qed.

Lemma words_indents_proof : forall text t p f f1, finv True t p f -> ~ is_aligned (f_state f) ->
  simple_indents text -> write_words text f = TOk f1 -> f_indents f1 = f_indents f.
Proof.
  intros text t p f f1 F Na Hs E.
  apply (words_stack (length text) (f_indents f) [] text t p f f1 F); auto.
  - unfold stack_ok. destruct (f_state f); auto; exfalso; apply Na; [left|right]; reflexivity.
  - split.
    + intros X. exfalso. apply Na. right. exact X.
    + intros _. exists [], []. split; [reflexivity|]. split; [left; reflexivity|]. split; [intros c []|].
      intros X. exfalso. apply Na. left. exact X.
Qed.

(** ** Exceptions *)

(** The number of indentations that can be removed. *)
Definition depth_ok (base : nat) (f : formatter) : Prop :=
  base + (match f_state f with ALIGNMENT | ALIGNED_MARKER => 1 | _ => 0 end) < length (f_indents f).

Lemma depth_begin : forall base f f1, begin_alignment f = TOk f1 -> depth_ok base f -> depth_ok base f1.
Proof.
  intros base f f1 E H. unfold begin_alignment in E. destruct (_ || _).
  - injection E as <-. unfold depth_ok in *. cbn. destruct (f_state f); lia.
  - destruct (f_state f) eqn:Es; try (injection E as <-; exact H).
    destruct (pop_indentation f) as [f2| | |] eqn:Ep; try discriminate. cbn [tbind] in E. injection E as <-.
    destruct (pop_stack _ _ Ep) as ((x & Ex) & _). unfold depth_ok in *. rewrite Es, Ex in H. cbn in *. lia.
Qed.

Lemma depth_end : forall base f f1, end_alignment f = TOk f1 -> depth_ok base f ->
  depth_ok base f1 /\ ~ is_aligned (f_state f1).
Proof.
  intros base f f1 E H. unfold end_alignment in E. destruct (f_state f) eqn:Es.
  - injection E as <-. rewrite Es. split; [exact H|apply no_align_none].
  - destruct (pop_indentation f) as [f2| | |] eqn:Ep; try discriminate. cbn [tbind] in E. injection E as <-.
    destruct (pop_stack _ _ Ep) as ((x & Ex) & _). unfold depth_ok in *. rewrite Es, Ex in H. cbn in *.
    split; [lia|apply no_align_none].
  - injection E as <-. rewrite Es. split; [exact H|apply no_align_unmarked].
  - destruct (pop_indentation f) as [f2| | |] eqn:Ep; try discriminate. cbn [tbind] in E. injection E as <-.
    destruct (pop_stack _ _ Ep) as ((x & Ex) & _). unfold depth_ok in *. rewrite Es, Ex in H. cbn in *.
    split; [lia|apply no_align_none].
Qed.

Lemma depth_words : forall fuel base text t p f f1, finv True t p f -> depth_ok base f ->
  words_loop fuel text f = TOk f1 -> depth_ok base f1 /\ ~ is_aligned (f_state f1).
Proof.
  induction fuel as [|fuel IH]; intros base text t p f f1 F H E.
  - destruct text; [|discriminate E]. eapply depth_end; eassumption.
  - destruct text as [|c text]; [eapply depth_end; eassumption|].
    remember (c :: text) as s eqn:Es. assert (Ns : s <> []) by (subst; discriminate).
    assert (E' : words_loop (S fuel) s f = let '(k, token, rest) := next_token s in
      tbind (write_token k token f) (words_loop fuel rest)) by (rewrite Es; reflexivity).
    rewrite E' in E. clear E'. destruct (next_token s) as ((k & token) & rest) eqn:Et.
    destruct (next_token_spec _ _ _ _ Ns Et) as (E1 & Nt & _ & Hk).
    assert (Hok : match k with
      | TkEnd => False
      | TkWord => token <> [] /\ ~ In c_lf token /\ (is_list_marker token = true -> True)
      | TkSpace => token <> []
      | _ => True end).
    { destruct k; auto. destruct Hk as (Hw & _). split; [exact Nt|]. split; [|auto]. intros X. apply Hw in X. discriminate. }
    destruct (token_ok True t p f k token F Hok) as (f2 & p2 & Ew & F2). rewrite Ew in E. cbn [tbind] in E.
    apply (IH base rest _ p2 f2 f1 F2); [|exact E].
    destruct k; cbn [write_token] in Ew.
    + destruct Hk.
    + eapply depth_begin; [exact Ew|exact H].
    + destruct (end_alignment f) as [f3| | |] eqn:Ee; try discriminate. cbn [tbind] in Ew. injection Ew as <-.
      apply (depth_end _ _ _ Ee H).
    + eapply depth_begin; [exact Ew|exact H].
    + destruct Hok as (_ & NL & _).
      pose proof (update_ok True t p f token F (fun _ => I)) as Fu.
      destruct (append_layout True token t p (update_alignment token f) Nt NL (fi_rules _ _ _ _ Fu) (fi_writer _ _ _ _ Fu))
        as (w' & Ea' & W' & _ & _). rewrite Ea' in Ew. injection Ew as <-.
      unfold depth_ok in *. cbn [on_writer f_state f_indents]. unfold update_alignment.
      destruct (_ && _); [|exact H]. cbn [set_state f_state f_indents]. destruct (f_state f); lia.
Qed.

(** Text that ends with CR. *)
Lemma next_line_cr : forall text, last_char text = Some c_cr ->
  next_line text = TThrows TOutOfRange \/
  exists line rem, next_line text = TOk (line, rem) /\ last_char rem = Some c_cr /\
    length rem < length text /\ ~ In c_lf line.
Proof.
  intros s H. unfold next_line. destruct (find_first_of [c_lf; c_cr] s) as [pos|] eqn:F.
  2:{ pose proof (proj1 (find_first_of_none _ _) F) as Hx. apply last_in in H. exfalso. apply (Hx _ H). right. left. reflexivity. }
  destruct (find_first_of_spec _ _ _ F) as (x & d & y & Ey & <- & Hd & Hx). rewrite Ey in *. clear s Ey F.
  rewrite nth_error_app2, Nat.sub_diag by lia.
  rewrite (nth_error_app2 x (d :: y) (n := length x + 1)) by lia.
  replace (length x + 1 - length x) with 1 by lia. cbn [nth_error].
  assert (K1 : skipn (length x + 1) (x ++ d :: y) = y).
  { rewrite skipn_app, skipn_all2 by lia. replace (length x + 1 - length x) with 1 by lia. reflexivity. }
  assert (K2 : skipn (length x + 2) (x ++ d :: y) = skipn 1 y).
  { rewrite skipn_app, skipn_all2 by lia. replace (length x + 2 - length x) with 2 by lia. reflexivity. }
  rewrite K1, K2. rewrite !app_length. cbn [length].
  rewrite firstn_app, firstn_all, Nat.sub_diag, app_nil_r.
  assert (Nx : ~ In c_lf x) by (intros X; apply (Hx _ X); left; reflexivity).
  destruct y as [|e y].
  - left. rewrite last_char_app in H. injection H as ->. change (Ascii.eqb c_cr c_lf) with false. cbn [orb].
    cbn [length]. rewrite Nat.eqb_refl. cbn [negb andb].
    destruct (Nat.ltb_spec (length x + 1) (length x + 2)); [reflexivity|lia].
  - assert (El : last_char (x ++ d :: e :: y) = last_char (e :: y)).
    { rewrite last_char_app2 by discriminate. reflexivity. }
    rewrite El in H. cbn [nth_error length]. right.
    replace (length x + 1 =? length x + S (S (length y))) with false by (symmetry; apply Nat.eqb_neq; lia).
    cbn [negb andb]. destruct (Nat.ltb_spec (length x + S (S (length y))) (length x + 2)); [lia|].
    destruct (Ascii.eqb d c_lf || negb (Ascii.eqb e c_lf)) eqn:B.
    + exists x, (e :: y). split; [reflexivity|]. split; [exact H|]. split; [simpl; lia|exact Nx].
    + exists x, y. split; [reflexivity|]. apply orb_false_iff in B. destruct B as (_ & B).
      apply negb_false_iff, Ascii.eqb_eq in B. subst e.
      split; [|split; [simpl; lia|exact Nx]].
      destruct y as [|g y]; [discriminate H|]. exact H.
Qed.

Lemma lines_throw : forall fuel text t p f, length text <= fuel -> last_char text = Some c_cr -> finv True t p f ->
  lines_loop fuel text f = TThrows TOutOfRange.
Proof.
  induction fuel as [|fuel IH]; intros text t p f L H F.
  - destruct text; [discriminate|simpl in L; lia].
  - destruct text as [|c text]; [discriminate|]. remember (c :: text) as s eqn:Es.
    assert (E' : lines_loop (S fuel) s f = tbind (next_line s) (fun lr => let (line, rem) := lr in
      tbind (if negb (is_empty line) then append_word line f else TOk f) (fun f1 =>
              lines_loop fuel rem (if negb (is_empty rem) then newline f1 else f1))))
      by (rewrite Es; reflexivity).
    rewrite E'. clear E'. destruct (next_line_cr s H) as [->|(line & rem & -> & Hr & Lr & NL)]; [reflexivity|].
    cbn [tbind].
    assert (Nr : is_empty rem = false) by (apply is_empty_false; intros ->; discriminate).
    rewrite Nr. cbn [negb]. destruct line as [|x line]; cbn [is_empty negb].
    + cbn [tbind]. apply (IH rem (t ++ [Break]) Gap); [lia|exact Hr|]. apply newline_ok with (p := p). exact F.
    + destruct (word_ok True t p f (x :: line) F ltac:(discriminate) NL) as (f1 & -> & F1 & _). cbn [tbind].
      apply (IH rem ((t ++ map Solid (x :: line)) ++ [Break]) Gap); [lia|exact Hr|].
      apply newline_ok with (p := Inside). exact F1.
Qed.

Definition ends_cr (o : text_op) : Prop := match o with OpLines s => last_char s = Some c_cr | _ => False end.

(** One call. *)
Lemma op_outcome : forall o t p f, finv True t p f -> ~ is_aligned (f_state f) ->
  (exists f1 p1, run_op o f = TOk f1 /\ finv True (t ++ op_items o) p1 f1 /\ ~ is_aligned (f_state f1)) \/
  (ends_cr o /\ run_op o f = TThrows TOutOfRange) \/
  (o = OpPop /\ length (f_indents f) = 1 /\ run_op o f = TThrows TNoIndentation).
Proof.
  intros o t p f F Na.
  assert (X : forall f1, run_op o f = TOk f1 ->
    exists f1 p1, run_op o f = TOk f1 /\ finv True (t ++ op_items o) p1 f1 /\ ~ is_aligned (f_state f1)).
  { intros f1 E. destruct (run_layout True [o] t p f f1 F Na (fun _ => I)) as (p1 & F1 & N1).
    - cbn [run_ops]. rewrite E. reflexivity.
    - unfold ops_items in F1. simpl in F1. rewrite app_nil_r in F1. eauto. }
  destruct o as [s|s| |n|]; cbn [run_op] in *.
  - left. destruct (words_ok True (length s) [] s t p f (le_n _) F (fun _ => I) (or_introl eq_refl)) as (f1 & p1 & E & _).
    apply (X f1). exact E.
  - destruct (last_char s) as [c|] eqn:El.
    + destruct (Ascii.eqb_spec c c_cr) as [->|Nc].
      * right. left. split; [exact El|]. unfold write_lines.
        rewrite (lines_throw (length s) s t p f (le_n _) El F). reflexivity.
      * left. destruct (lines_ok True s t p f) as (f1 & p1 & E & _); [congruence|exact F|]. apply (X f1). exact E.
    + left. destruct (lines_ok True s t p f) as (f1 & p1 & E & _); [congruence|exact F|]. apply (X f1). exact E.
  - left. apply (X (newline f)). reflexivity.
  - left. apply (X (push_indentation n f)). reflexivity.
  - destruct (f_indents f) as [|m [|n l]] eqn:Ef.
    + exfalso. apply (fi_indents _ _ _ _ F). exact Ef.
    + right. right. split; [reflexivity|]. split; [reflexivity|]. unfold pop_indentation. rewrite Ef. reflexivity.
    + left. assert (E : exists f1, pop_indentation f = TOk f1) by (unfold pop_indentation; rewrite Ef; eauto).
      destruct E as (f1 & E). apply (X f1). exact E.
Qed.

Lemma run_outcome : forall ops t p f, finv True t p f -> ~ is_aligned (f_state f) ->
  (exists f1, run_ops ops f = TOk f1) \/
  (exists o, In o ops /\ ends_cr o /\ run_ops ops f = TThrows TOutOfRange) \/
  (In OpPop ops /\ run_ops ops f = TThrows TNoIndentation).
Proof.
  induction ops as [|o ops IH]; intros t p f F Na; [left; eexists; reflexivity|].
  cbn [run_ops]. destruct (op_outcome o t p f F Na) as [(f1 & p1 & E & F1 & N1)|[(Ec & E)|(-> & _ & E)]]; rewrite E; cbn [tbind].
  - destruct (IH _ p1 f1 F1 N1) as [H|[(x & Hx & Hc & H)|(Hp & H)]].
    + left. exact H.
    + right. left. exists x. split; [right; exact Hx|auto].
    + right. right. split; [right; exact Hp|exact H].
  - right. left. exists o. split; [left; reflexivity|auto].
  - right. right. split; [left; reflexivity|reflexivity].
Qed.

Lemma depth_op : forall o t p f f1 base, finv True t p f -> ~ is_aligned (f_state f) -> run_op o f = TOk f1 ->
  depth_ok base f ->
  match o with
  | OpPush _ => depth_ok (S base) f1
  | OpPop => forall b, base = S b -> depth_ok b f1
  | _ => depth_ok base f1
  end.
Proof.
  intros o t p f f1 base F Na E H. destruct o as [s|s| |n|]; cbn [run_op] in E.
  - apply (depth_words (length s) base s t p f f1 F H E).
  - pose proof (lines_cr_text _ _ _ E) as Nc.
    assert (Ei : f_indents f1 = f_indents f /\ f_state f1 = f_state f).
    { clear H Nc. unfold write_lines in E. destruct (lines_loop (length s) s f) as [f2| | |] eqn:El; try discriminate.
      cbn [tbind] in E.
      assert (X : forall fuel text g g1, lines_loop fuel text g = TOk g1 -> f_indents g1 = f_indents g /\ f_state g1 = f_state g).
      { clear. assert (A : forall fuel word r f f1, append_loop fuel word r f = TOk f1 -> f_indents f1 = f_indents f /\ f_state f1 = f_state f).
        { induction fuel as [|fuel IH]; intros word r f f1 E; [discriminate|]. cbn [append_loop] in E.
          destruct (write r false (f_writer f)) as ([|] & w1); [injection E as <-; auto|].
          destruct (split _ _ _ _ _) as [((w & s) & r')| | |]; try discriminate. cbn [tbind] in E.
          destruct (negb (is_empty w)).
          - apply IH in E. destruct s; exact E.
          - destruct (is_line_empty (f_writer f)); [destruct (negb _)|].
            + apply IH in E. exact E.
            + injection E as <-. auto.
            + apply IH in E. exact E. }
        induction fuel as [|fuel IH]; intros text g g1 E.
        - destruct text; [|discriminate]. injection E as <-. auto.
        - destruct text as [|c text]; [injection E as <-; auto|]. cbn [lines_loop] in E.
          destruct (next_line (c :: text)) as [(line & rem)| | |]; try discriminate. cbn [tbind] in E.
          destruct (negb (is_empty line)).
          + destruct (append_word line g) as [g2| | |] eqn:Ea; try discriminate. cbn [tbind] in E.
            apply A in Ea. apply IH in E. destruct (negb (is_empty rem)); cbn in E; destruct E, Ea; split; congruence.
          + cbn [tbind] in E. apply IH in E. destruct (negb (is_empty rem)); exact E. }
      apply X in El. destruct (last_char s) as [c|]; [destruct (_ || _)|]; injection E as <-; exact El. }
    unfold depth_ok in *. destruct Ei as (-> & ->). exact H.
  - injection E as <-. exact H.
  - injection E as <-. unfold depth_ok in *. destruct n as [n|]; cbn; destruct (f_state f); lia.
  - intros b ->. destruct (pop_stack _ _ E) as ((x & Ex) & _).
    assert (Es : f_state f1 = f_state f).
    { unfold pop_indentation in E. destruct (f_indents f) as [|? [|? ?]]; try discriminate. injection E as <-. reflexivity. }
    unfold depth_ok in *. rewrite Es. rewrite Ex in H. simpl in H. lia.
Qed.

Lemma run_balanced : forall ops t p f n, finv True t p f -> ~ is_aligned (f_state f) -> depth_ok n f ->
  balanced n ops -> (forall o, In o ops -> ~ ends_cr o) -> exists f1, run_ops ops f = TOk f1.
Proof.
  induction ops as [|o ops IH]; intros t p f n F Na D B C; [eexists; reflexivity|].
  cbn [run_ops]. destruct (op_outcome o t p f F Na) as [(f1 & p1 & E & F1 & N1)|[(Ec & E)|(-> & L & E)]].
  - rewrite E. cbn [tbind]. pose proof (depth_op o t p f f1 n F Na E D) as D1.
    assert (C1 : forall x, In x ops -> ~ ends_cr x) by (intros x Hx; apply C; right; exact Hx).
    destruct o; cbn [balanced] in B; try (eapply IH; eassumption).
    destruct n as [|n]; [destruct B|]. eapply IH; [exact F1|exact N1|apply D1; reflexivity|exact B|exact C1].
  - exfalso. apply (C o (or_introl eq_refl)). exact Ec.
  - exfalso. cbn [balanced] in B. destruct n; [destruct B|]. unfold depth_ok in D. rewrite L in D.
    destruct (f_state f); lia.
Qed.

Lemma new_depth : forall width rules f, text_formatter width rules = TOk f -> depth_ok 0 f.
Proof.
  intros width rules f E. unfold text_formatter, new_formatter in E. destruct (_ <=? _); [discriminate|].
  cbn [tbind f_rules] in E. destruct (add_words [] rules); try discriminate. cbn [tbind] in E. injection E as <-.
  unfold depth_ok. cbn. lia.
Qed.
