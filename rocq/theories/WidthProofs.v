(** Proofs about the width of formatted text (C48) and about indentation (C51, C52). *)
From Verif Require Import Base BaseProofs MStrings MText SStrings SText SFormat StrProofs SplitProofs
  RuleProofs TextProofs LayoutProofs LayoutProofs2.
Open Scope nat_scope.

(** ** Lines *)

Lemma lines_of_app : forall l s, ~ In c_lf l -> lines_of (l ++ c_lf :: s) = l :: lines_of s.
Proof.
  induction l as [|c l IH]; intros s H; [reflexivity|]. cbn [app lines_of].
  destruct (Ascii.eqb_spec c c_lf) as [->|_]; [exfalso; apply H; left; reflexivity|].
  rewrite IH; [reflexivity|]. intros X. apply H. right. exact X.
Qed.

Lemma lines_of_last : forall l, ~ In c_lf l -> lines_of l = [l].
Proof.
  induction l as [|c l IH]; intros H; [reflexivity|]. cbn [lines_of].
  destruct (Ascii.eqb_spec c c_lf) as [->|_]; [exfalso; apply H; left; reflexivity|].
  rewrite IH; [reflexivity|]. intros X. apply H. right. exact X.
Qed.

Definition full_lines (ls : list str) : str := concat (map (fun l => l ++ [c_lf]) ls).

Lemma lines_of_full : forall ls l, (forall x, In x ls -> ~ In c_lf x) -> ~ In c_lf l ->
  lines_of (full_lines ls ++ l) = ls ++ [l].
Proof.
  induction ls as [|x ls IH]; intros l H Hl.
  - apply lines_of_last. exact Hl.
  - unfold full_lines in *. simpl. rewrite <- !app_assoc. simpl. rewrite lines_of_app.
    + f_equal. apply IH; [|exact Hl]. intros y Hy. apply H. right. exact Hy.
    + apply H. left. reflexivity.
Qed.

(** ** The writer *)

Lemma utf8_blanks : forall n, utf8_text (blanks n) n.
Proof.
  induction n as [|n IH]; [apply utf8_nil|]. change (blanks (S n)) with ([c_space] ++ blanks n).
  change (S n) with (1 + n). apply utf8_app; [|exact IH]. apply utf8_one. unfold byte_between. vm_compute. lia.
Qed.

Section Width.
Variable lw : nat.

Definition ok_line (l : str) : Prop := narrow lw l \/ squeezed lw l.

Record wok (w : writer) : Prop := mk_wok {
  wo_width : w_line_width w = lw;
  wo_out : exists ls, w_out w = full_lines ls /\ forall l, In l ls -> ok_line l /\ ~ In c_lf l;
  wo_lf : ~ In c_lf (w_line w);
  wo_utf8 : utf8_text (w_line w) (w_current w);
  wo_line : w_current w <= lw \/ squeezed lw (w_line w);
  wo_indent : w_indent w < lw
}.

Lemma utf8_empty : forall n, utf8_text [] n -> n = 0.
Proof. intros n H. apply utf8_count in H. rewrite <- H. reflexivity. Qed.

Lemma blanks_lf : forall n, ~ In c_lf (blanks n).
Proof. intros n X. apply repeat_spec in X. discriminate. Qed.

Lemma wok_written : forall w x n, wok w -> utf8_text x n -> ~ In c_lf x -> n <> 0 ->
  count_code_points x <= remaining_width w -> wok (written x w).
Proof.
  intros w x n [H1 H2 H3 H4 H5 H6] U NL Nn L. rewrite (utf8_count _ _ U) in L.
  assert (Lc : current_width w + n <= lw) by (unfold remaining_width in L; rewrite H1 in L; lia).
  constructor; cbn [written w_out w_line w_line_width w_current w_indent]; try assumption.
  - intros X. apply in_app_or in X. destruct X as [X|X]; [auto|]. apply in_app_or in X.
    destruct X as [X|X]; [exact (blanks_lf _ X)|auto].
  - rewrite (utf8_count _ _ U). pose proof (current_le w) as Lcw.
    replace (current_width w + n) with (w_current w + (current_width w - w_current w + n)) by lia.
    apply utf8_app; [exact H4|]. apply utf8_app; [apply utf8_blanks|exact U].
  - left. rewrite (utf8_count _ _ U). exact Lc.
Qed.

Lemma wok_force : forall w x n, wok w -> utf8_text x n -> ~ In c_lf x -> w_line w = [] -> w_spaces w = 0 ->
  remaining_width w <= 2 -> wok (written x w).
Proof.
  intros w x n [H1 H2 H3 H4 H5 H6] U NL El Es L. rewrite El in H4. apply utf8_empty in H4.
  assert (Ec : current_width w = w_indent w) by (unfold current_width; lia).
  constructor; cbn [written w_out w_line w_line_width w_current w_indent]; try assumption.
  - rewrite El. intros X. simpl in X. apply in_app_or in X.
    destruct X as [X|X]; [exact (blanks_lf _ X)|auto].
  - rewrite (utf8_count _ _ U), El, H4, Nat.sub_0_r. simpl. apply utf8_app; [apply utf8_blanks|exact U].
  - right. exists (w_indent w), x. rewrite El, H4, Nat.sub_0_r, Ec. split; [reflexivity|].
    unfold remaining_width in L. rewrite H1, Ec in L. lia.
Qed.

Lemma wok_newline : forall w, wok w -> wok (writer_newline w).
Proof.
  intros w [H1 (ls & E & F) H3 H4 H5 H6]. constructor; cbn; try assumption.
  - exists (ls ++ [w_line w]). split.
    + unfold full_lines in *. rewrite map_app, concat_app. simpl. rewrite app_nil_r, E. reflexivity.
    + intros l Hl. apply in_app_or in Hl. destruct Hl as [Hl|[<-|[]]]; [auto|]. split; [|exact H3].
      destruct H5 as [H5|H5]; [left; exists (w_current w); auto|right; exact H5].
  - auto.
  - apply utf8_nil.
  - left. lia.
Qed.

Lemma wok_spaces : forall n w, wok w -> wok (set_spaces n w).
Proof. intros n w [H1 H2 H3 H4 H5 H6]. constructor; assumption. Qed.

Lemma wok_next : forall w, wok w -> wok (next w).
Proof. intros w H. apply wok_spaces, wok_newline, H. Qed.

Lemma wok_indent : forall n w, wok w -> wok (set_indentation n w).
Proof.
  intros n w [H1 H2 H3 H4 H5 H6]. unfold set_indentation. destruct (Nat.leb_spec (w_line_width w) n).
  - constructor; assumption.
  - constructor; cbn; try assumption. lia.
Qed.

Lemma append_width : forall word n f, word <> [] -> ~ In c_lf word -> utf8_text word n -> good_rules (f_rules f) ->
  wok (f_writer f) -> exists w', append_word word f = TOk (on_writer (fun _ => w') f) /\ wok w'.
Proof.
  intros word n f Nw NL U HG HW.
  assert (Sub : forall c x r, word = c ++ x ++ r -> ~ In c_lf x).
  { intros c x r E X. apply NL. rewrite E. apply in_or_app. right. apply in_or_app. auto. }
  assert (Nz : forall x k, x <> [] -> utf8_text x k -> k <> 0).
  { intros x k Nx Ux ->. apply utf8_count in Ux. apply count_zero in Ux. auto. }
  apply (append_word_proof word (fun _ w => wok w)).
  - intros c x r w W E Nx V L. destruct (V n U) as (k & Ux).
    apply (wok_written w x k W Ux (Sub _ _ _ E) (Nz _ _ Nx Ux) L).
  - intros c r h w W _ _ _ _ Hh L _. apply wok_next. destruct Hh as [->| ->]; [exact W|].
    assert (Ud : utf8_text [c_dash] 1) by (apply utf8_one; unfold byte_between; vm_compute; lia).
    apply (wok_written w [c_dash] 1 W Ud); [intros [X|[]]; discriminate|lia|].
    rewrite (utf8_count _ _ Ud). exact L.
  - intros w W _ _. apply wok_next. exact W.
  - intros c w W _. apply wok_spaces. exact W.
  - intros c r w W E Nr V El Es L _. destruct (V n U) as (k & Ur).
    apply (wok_force w r k W Ur); try assumption. apply (Sub c r []). rewrite app_nil_r. exact E.
  - exact HG.
  - exact Nw.
  - exact HW.
Qed.

(** ** The formatter *)

Definition fok (f : formatter) : Prop := wok (f_writer f) /\ good_rules (f_rules f).

Lemma fok_push : forall n f, fok f -> fok (push_indentation n f).
Proof.
  intros [n|] f (H1 & H2); (split; [|exact H2]); cbn.
  - apply wok_indent. exact H1.
  - apply wok_indent, wok_spaces. exact H1.
Qed.

Lemma fok_pop : forall f f1, fok f -> pop_indentation f = TOk f1 -> fok f1.
Proof.
  intros f f1 (H1 & H2) E. unfold pop_indentation in E. destruct (f_indents f) as [|m [|n l]]; try discriminate.
  injection E as <-. split; [apply wok_indent; exact H1|exact H2].
Qed.

Lemma fok_state : forall s f, fok f -> fok (set_state s f).
Proof. intros s f H. exact H. Qed.

Lemma fok_begin : forall f f1, fok f -> begin_alignment f = TOk f1 -> fok f1.
Proof.
  intros f f1 H E. unfold begin_alignment in E. destruct (_ || _).
  - injection E as <-. exact (fok_state ALIGNMENT _ (fok_push None f H)).
  - destruct (f_state f); try (injection E as <-; exact H).
    destruct (pop_indentation f) as [f2| | |] eqn:Ep; try discriminate. cbn [tbind] in E. injection E as <-.
    exact (fok_state ALIGNMENT _ (fok_push None f2 (fok_pop f f2 H Ep))).
Qed.

Lemma fok_end : forall f f1, fok f -> end_alignment f = TOk f1 -> fok f1.
Proof.
  intros f f1 H E. unfold end_alignment in E. destruct (f_state f); try (injection E as <-; exact H);
    (destruct (pop_indentation f) as [f2| | |] eqn:Ep; try discriminate; cbn [tbind] in E; injection E as <-;
     apply fok_state; eapply fok_pop; eassumption).
Qed.

Lemma fok_token : forall k token f f1 n, fok f -> token <> [] -> (k = TkWord -> ~ In c_lf token) -> utf8_text token n ->
  write_token k token f = TOk f1 -> fok f1.
Proof.
  intros k token f f1 n H Nt NL U E. destruct k; cbn [write_token] in E.
  - injection E as <-. exact H.
  - eapply fok_begin; [|exact E]. destruct H as (A & B). split; [apply wok_spaces; exact A|exact B].
  - destruct (end_alignment f) as [f2| | |] eqn:Ee; try discriminate. cbn [tbind] in E. injection E as <-.
    destruct (fok_end _ _ H Ee) as (A & B). split; [apply wok_spaces, wok_newline; exact A|exact B].
  - eapply fok_begin; [|exact E]. destruct H as (A & B). split; [apply wok_spaces; exact A|exact B].
  - assert (H' : fok (update_alignment token f)) by (unfold update_alignment; destruct (_ && _); exact H).
    destruct H' as (A & B). destruct (append_width token n (update_alignment token f) Nt (NL eq_refl) U B A) as (w' & E' & W').
    rewrite E' in E. injection E as <-. split; [exact W'|exact B].
Qed.

Lemma token_utf8 : forall text k token rest n, text <> [] -> utf8_text text n -> next_token text = (k, token, rest) ->
  (exists a, utf8_text token a) /\ (exists b, utf8_text rest b).
Proof.
  intros text k token rest n Nt U E. destruct (next_token_spec _ _ _ _ Nt E) as (E1 & Ne & E2 & Hk).
  assert (Wa : forall c, is_white c = true -> byte_between 0 127 c).
  { intros c W. apply white_set in W. unfold byte_between. destruct W as [<-|[<-|[<-|[<-|[]]]]]; vm_compute; lia. }
  destruct k.
  - destruct Hk.
  - assert (A : token = [c_tab]).
    { unfold next_token in E. destruct text as [|c t]; [congruence|].
      destruct (Ascii.eqb_spec c c_tab) as [->|]; [injection E as <- _; reflexivity|].
      destruct (Ascii.eqb c c_cr); [destruct t as [|d t]; [discriminate|destruct (Ascii.eqb d c_lf); discriminate]|].
      destruct (Ascii.eqb c c_lf); [discriminate|]. destruct (Ascii.eqb c c_space).
      - destruct (find_first_not_of _ _); discriminate.
      - destruct (find_first_of _ _); discriminate. }
    rewrite E1, A in U. assert (U1 : utf8_text [c_tab] 1) by (apply utf8_one, Wa; reflexivity).
    destruct (utf8_rest _ _ _ _ U U1) as (m & Um & _). rewrite A. eauto.
  - assert (A : exists k, utf8_text token k).
    { unfold next_token in E. destruct text as [|c t]; [congruence|].
      destruct (Ascii.eqb_spec c c_tab) as [->|]; [discriminate|].
      destruct (Ascii.eqb_spec c c_cr) as [->|].
      - destruct t as [|d t]; [injection E as <- _; exists 1; apply utf8_one, Wa; reflexivity|].
        destruct (Ascii.eqb_spec d c_lf) as [->|]; injection E as <- _.
        + exists (1 + 1). apply (utf8_app [c_cr] [c_lf]); apply utf8_one, Wa; reflexivity.
        + exists 1. apply utf8_one, Wa. reflexivity.
      - destruct (Ascii.eqb_spec c c_lf) as [->|]; [injection E as <- _; exists 1; apply utf8_one, Wa; reflexivity|].
        destruct (Ascii.eqb c c_space).
        + destruct (find_first_not_of _ _); discriminate.
        + destruct (find_first_of _ _); discriminate. }
    destruct A as (k & A). rewrite E1 in U. destruct (utf8_rest _ _ _ _ U A) as (m & Um & _). eauto.
  - assert (A : token = blanks (length token)).
    { unfold next_token in E. destruct text as [|c t]; [congruence|].
      destruct (Ascii.eqb_spec c c_tab) as [->|]; [discriminate|].
      destruct (Ascii.eqb c c_cr); [destruct t as [|d t]; [discriminate|destruct (Ascii.eqb d c_lf); discriminate]|].
      destruct (Ascii.eqb c c_lf); [discriminate|]. destruct (Ascii.eqb c c_space).
      - destruct (find_first_not_of [c_space] (c :: t)) as [m|] eqn:F; injection E as <- _.
        + destruct (find_first_not_of_spec _ _ _ F) as (x & d & y & Ex & <- & Nd & Hx).
          rewrite Ex, firstn_app, firstn_all, Nat.sub_diag, app_nil_r. apply all_spaces. exact Hx.
        + apply all_spaces. apply find_first_not_of_none. exact F.
      - destruct (find_first_of _ _); discriminate. }
    assert (A2 : utf8_text token (length token)) by (rewrite A at 1; apply utf8_blanks).
    rewrite E1 in U. destruct (utf8_rest _ _ _ _ U A2) as (m & Um & _). eauto.
  - destruct Hk as (_ & [->|(c & s' & -> & W)]).
    + rewrite app_nil_r in E1. subst token. split; [eauto|]. exists 0. apply utf8_nil.
    + rewrite E1 in U. destruct (utf8_ascii_split _ _ _ _ (Wa c W) U) as (a & b & Ua & Ub).
      split; [eauto|]. exists (1 + b). apply (utf8_app [c] s'); [apply utf8_one, Wa, W|exact Ub].
Qed.

Lemma fok_words : forall fuel text n f f1, fok f -> utf8_text text n -> words_loop fuel text f = TOk f1 -> fok f1.
Proof.
  induction fuel as [|fuel IH]; intros text n f f1 H U E.
  - destruct text; [|discriminate E]. eapply fok_end; eassumption.
  - destruct text as [|c text]; [eapply fok_end; eassumption|].
    remember (c :: text) as s eqn:Es. assert (Ns : s <> []) by (subst; discriminate).
    assert (E' : words_loop (S fuel) s f = let '(k, token, rest) := next_token s in
      tbind (write_token k token f) (words_loop fuel rest)) by (rewrite Es; reflexivity).
    rewrite E' in E. clear E'. destruct (next_token s) as ((k & token) & rest) eqn:Et.
    destruct (next_token_spec _ _ _ _ Ns Et) as (E1 & Nt & _ & Hk).
    destruct (token_utf8 _ _ _ _ _ Ns U Et) as ((a & Ua) & (b & Ub)).
    destruct (write_token k token f) as [f2| | |] eqn:Ew; try discriminate. cbn [tbind] in E.
    eapply IH; [|exact Ub|exact E]. eapply fok_token; [exact H|exact Nt| |exact Ua|exact Ew].
    intros -> X. destruct Hk as (Hw & _). apply Hw in X. discriminate.
Qed.

Lemma next_line_utf8 : forall text line rem n, utf8_text text n -> next_line text = TOk (line, rem) ->
  (exists a, utf8_text line a) /\ (exists b, utf8_text rem b) /\ ~ In c_lf line.
Proof.
  intros text line rem n U E. unfold next_line in E.
  assert (Wa : forall c, In c [c_lf; c_cr] -> byte_between 0 127 c).
  { intros c W. unfold byte_between. destruct W as [<-|[<-|[]]]; vm_compute; lia. }
  destruct (find_first_of [c_lf; c_cr] text) as [pos|] eqn:F.
  2:{ injection E as <- <-. split; [eauto|]. split; [exists 0; apply utf8_nil|].
      intros X. apply (proj1 (find_first_of_none _ _) F _ X). left. reflexivity. }
  destruct (find_first_of_spec _ _ _ F) as (x & d & y & -> & <- & Hd & Hx).
  destruct (utf8_ascii_split _ _ _ _ (Wa d Hd) U) as (a & b & Ua & Ub).
  rewrite firstn_app, firstn_all, Nat.sub_diag, app_nil_r in E.
  assert (K1 : skipn (length x + 1) (x ++ d :: y) = y).
  { rewrite skipn_app, skipn_all2 by lia. replace (length x + 1 - length x) with 1 by lia. reflexivity. }
  assert (K2 : skipn (length x + 2) (x ++ d :: y) = skipn 1 y).
  { rewrite skipn_app, skipn_all2 by lia. replace (length x + 2 - length x) with 2 by lia. reflexivity. }
  rewrite K1, K2 in E.
  rewrite nth_error_app2, Nat.sub_diag in E by lia. rewrite (nth_error_app2 x (d :: y) (n := length x + 1)) in E by lia.
  replace (length x + 1 - length x) with 1 in E by lia. cbn [nth_error] in E.
  assert (Nx : ~ In c_lf x) by (intros X; apply (Hx _ X); left; reflexivity).
  destruct (_ || _) eqn:B.
  - injection E as <- <-. eauto.
  - destruct (_ <? _); [discriminate|]. injection E as <- <-. split; [eauto|]. split; [|exact Nx].
    destruct y as [|e y]; [exists 0; apply utf8_nil|]. cbn [skipn].
    apply orb_false_iff in B. destruct B as (_ & B). cbn [nth_error] in B.
    rewrite app_length in B. cbn [length] in B.
    replace (length x + 1 =? length x + S (S (length y))) with false in B by (symmetry; apply Nat.eqb_neq; lia).
    cbn [negb andb] in B. apply negb_false_iff, Ascii.eqb_eq in B. subst e.
    destruct (utf8_ascii_split [] _ _ _ (Wa c_lf (or_introl eq_refl)) Ub) as (_ & k & _ & Uk). eauto.
Qed.

Lemma fok_lines : forall fuel text n f f1, fok f -> utf8_text text n -> lines_loop fuel text f = TOk f1 -> fok f1.
Proof.
  induction fuel as [|fuel IH]; intros text n f f1 H U E.
  - destruct text; [|discriminate E]. injection E as <-. exact H.
  - destruct text as [|c text]; [injection E as <-; exact H|].
    remember (c :: text) as s eqn:Es.
    assert (E' : lines_loop (S fuel) s f = tbind (next_line s) (fun lr => let (line, rem) := lr in
      tbind (if negb (is_empty line) then append_word line f else TOk f) (fun f1 =>
              lines_loop fuel rem (if negb (is_empty rem) then newline f1 else f1))))
      by (rewrite Es; reflexivity).
    rewrite E' in E. clear E'. destruct (next_line s) as [(line & rem)| | |] eqn:En; try discriminate.
    destruct (next_line_utf8 _ _ _ _ U En) as ((a & Ua) & (b & Ub) & NL). cbn [tbind] in E.
    destruct (if negb (is_empty line) then append_word line f else TOk f) as [f2| | |] eqn:Ea; try discriminate.
    cbn [tbind] in E.
    assert (H2 : fok f2).
    { destruct line as [|x line]; cbn [is_empty negb] in Ea; [injection Ea as <-; exact H|].
      destruct H as (A & B). destruct (append_width (x :: line) a f ltac:(discriminate) NL Ua B A) as (w' & E' & W').
      rewrite E' in Ea. injection Ea as <-. split; [exact W'|exact B]. }
    eapply IH; [|exact Ub|exact E]. destruct (is_empty rem); cbn [negb]; [exact H2|]. destruct H2 as (A & B).
    split; [apply wok_next; exact A|exact B].
Qed.

Lemma fok_run : forall ops f f1, fok f -> (forall o, In o ops -> op_utf8 o) -> run_ops ops f = TOk f1 -> fok f1.
Proof.
  induction ops as [|o ops IH]; intros f f1 H HU E; [injection E as <-; exact H|].
  cbn [run_ops] in E. destruct (run_op o f) as [f2| | |] eqn:Eo; try discriminate. cbn [tbind] in E.
  apply (IH f2 f1); [|intros x Hx; apply HU; right; exact Hx|exact E].
  destruct (HU o (or_introl eq_refl)) as (n & U).
  destruct o as [s|s| |k|]; cbn [run_op op_text] in *.
  - eapply fok_words; eassumption.
  - unfold write_lines in Eo. destruct (lines_loop (length s) s f) as [f3| | |] eqn:El; try discriminate.
    cbn [tbind] in Eo. pose proof (fok_lines _ _ _ _ _ H U El) as (A & B).
    destruct (last_char s) as [c|]; [|injection Eo as <-; split; assumption].
    destruct (_ || _); injection Eo as <-; [|split; assumption]. split; [apply wok_next; exact A|exact B].
  - injection Eo as <-. destruct H as (A & B). split; [apply wok_next; exact A|exact B].
  - injection Eo as <-. apply fok_push. exact H.
  - eapply fok_pop; eassumption.
Qed.
End Width.

Lemma width_proof : forall width rules f ops f1 line, utf8_rules rules -> text_formatter width rules = TOk f ->
  (forall o, In o ops -> op_utf8 o) -> run_ops ops f = TOk f1 -> In line (lines_of (shown f1)) ->
  narrow width line \/ squeezed width line.
Proof.
  intros width rules f ops f1 line HR Ef HU Er Hl.
  assert (F0 : fok width f).
  { unfold text_formatter, new_formatter in Ef. destruct (Nat.leb_spec width 2); [discriminate|]. cbn [tbind f_rules] in Ef.
    destruct (add_words [] rules) as [m| | |] eqn:Em; try discriminate. cbn [tbind] in Ef. injection Ef as <-.
    split; [|exists rules; auto]. constructor; cbn; try reflexivity; try lia; auto.
    - exists []. split; [reflexivity|intros l []].
    - apply utf8_nil. }
  destruct (fok_run width ops f f1 F0 HU Er) as ([H1 (ls & E & F) H3 H4 H5 H6] & _).
  unfold shown in Hl. rewrite E, lines_of_full in Hl; [|intros x Hx; apply F; exact Hx|exact H3].
  apply in_app_or in Hl. destruct Hl as [Hl|[<-|[]]]; [apply F; exact Hl|].
  destruct H5 as [H5|H5]; [left; exists (w_current (f_writer f1)); auto|right; exact H5].
Qed.
