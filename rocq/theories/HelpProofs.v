(** Proofs about help texts (C53, C54): the formatter. *)
From Verif Require Import Base BaseProofs MStrings MData MText MHelp SStrings SText SFormat SHelp StrProofs
  SplitProofs RuleProofs TextProofs LayoutProofs LayoutProofs2 WidthProofs IndentProofs TextApi.
Open Scope nat_scope.

(** ** Layouts *)

Lemma layout_mono : forall (g1 g2 : Prop) t o p, layout g1 t o p -> (g1 -> g2) -> layout g2 t o p.
Proof.
  intros g1 g2 t o p H G. induction H.
  - apply lay_nil.
  - apply lay_solid with (p := p); [exact IHlayout|assumption|]. intros E. destruct (H1 E) as [X|[X|X]]; auto.
  - apply lay_blank with (p := p). assumption.
  - apply lay_break with (p := p). assumption.
  - apply lay_maybe with (p := p). assumption.
  - apply lay_line; assumption.
  - apply lay_wrap; assumption.
Qed.

Lemma winv_mono : forall (g1 g2 : Prop) t p w, winv g1 t p w -> (g1 -> g2) -> winv g2 t p w.
Proof.
  intros g1 g2 t p w [H1 H2 H3 H4 H5] G. constructor; try assumption.
  - eapply layout_mono; eassumption.
  - destruct p; simpl in *; try assumption. destruct H5 as [X|[X|X]]; auto.
Qed.

Lemma finv_true : forall g t p f, finv g t p f -> finv True t p f.
Proof.
  intros g t p f [H1 H2 H3 H4 H5 H6 H7]. constructor; try assumption; auto.
  - eapply winv_mono; [exact H1|auto].
  - intros E. destruct (H7 E) as [X|[X|X]]; auto.
Qed.

Lemma last_item : forall (t1 t2 : list item) a b, t1 ++ [a] = t2 ++ [b] -> t1 = t2 /\ a = b.
Proof. intros. apply app_inj_tail. assumption. Qed.

Lemma blank_place : forall g t o p, layout g (t ++ [Blank]) o p -> p = Gap.
Proof.
  intros g t o p H. remember (t ++ [Blank]) as t' eqn:E. revert t E.
  induction H; intros t0 E; auto.
  - apply last_item in E. destruct E as (_ & X). discriminate X.
  - apply last_item in E. destruct E as (_ & X). discriminate X.
  - eapply IHlayout. exact E.
  - specialize (IHlayout _ E). discriminate IHlayout.
Qed.

Lemma blank_twice : forall g t o p, layout g (t ++ [Blank; Blank]) o p -> layout g (t ++ [Blank]) o p.
Proof.
  intros g t o p H. change [Blank; Blank] with ([Blank] ++ [Blank]) in H. rewrite app_assoc in H.
  remember ((t ++ [Blank]) ++ [Blank]) as t' eqn:E. revert E.
  induction H; intros E.
  - destruct t; discriminate E.
  - apply last_item in E. destruct E as (_ & X). discriminate X.
  - apply last_item in E. destruct E as (-> & _). pose proof (blank_place _ _ _ _ H). subst p. exact H.
  - apply last_item in E. destruct E as (_ & X). discriminate X.
  - apply last_item in E. destruct E as (_ & X). discriminate X.
  - apply lay_line; auto.
  - apply lay_wrap; auto.
Qed.

(** ** The first token after an indentation has been set *)

Lemma token_pre : forall glue t p f k token, pinv glue t p f -> ~ is_aligned (f_state f) ->
  match k with
  | TkEnd => False
  | TkWord => token <> [] /\ ~ In c_lf token /\ (is_list_marker token = true -> glue)
  | TkSpace => token <> []
  | _ => True
  end ->
  exists f1 p1, write_token k token f = TOk f1 /\ finv glue (t ++ token_items k token) p1 f1.
Proof.
  intros glue t p f k token H Na Hk. destruct k; cbn [write_token token_items].
  - contradiction.
  - destruct (begin_ok glue (t ++ [Blank]) (on_writer tab f)) as (f1 & E & F1).
    + unfold tab. apply (spaces_pre glue t p f _ 1 H); [|lia].
      pose proof (Nat.mod_upper_bound (current_width (f_writer f)) 4). lia.
    + exists f1, Gap. auto.
  - assert (E : end_alignment f = TOk f).
    { unfold end_alignment. destruct (f_state f) eqn:Es; auto; exfalso; apply Na; [left|right]; reflexivity. }
    rewrite E. cbn [tbind]. eexists. exists Gap. split; [reflexivity|]. apply (newline_pre glue t p f H).
  - assert (L : 0 < length token) by (destruct token; [congruence|simpl; lia]).
    destruct (begin_ok _ _ _ (spaces_pre glue t p f _ _ H L L)) as (f1 & E & F1). exists f1, Gap. auto.
  - destruct Hk as (N1 & N2 & N3).
    destruct (word_pre glue t p _ token (update_pre glue t p f token H N3) N1 N2) as (f1 & E & F1 & _). exists f1, Inside. auto.
Qed.

Lemma words_pre : forall glue text t p f, text <> [] -> pinv glue t p f -> ~ is_aligned (f_state f) ->
  (has_marker text -> glue) ->
  exists f1 p1, write_words text f = TOk f1 /\ finv glue (t ++ map word_item (unix text)) p1 f1 /\
    ~ is_aligned (f_state f1).
Proof.
  intros glue s t p f Ns H Na Hm. unfold write_words.
  destruct (next_token s) as ((k & token) & rest) eqn:E.
  destruct (next_token_spec _ _ _ _ Ns E) as (E1 & Nt & E2 & Hk).
  assert (Hok : match k with
    | TkEnd => False
    | TkWord => token <> [] /\ ~ In c_lf token /\ (is_list_marker token = true -> glue)
    | TkSpace => token <> []
    | _ => True end).
  { destruct k; auto. destruct Hk as (Hw & Hr). split; [exact Nt|]. split; [intros X; apply Hw in X; discriminate|].
    intros Hmk. apply Hm. exists [], token, rest. rewrite E1. split; [reflexivity|].
    split; [apply marker_ok; exact Hmk|]. split; [left; reflexivity|exact Hr]. }
  destruct (token_pre glue t p f k token H Na Hok) as (f1 & p1 & Ew & F1).
  destruct s as [|c s]; [congruence|]. cbn [length words_loop]. rewrite E, Ew. cbn [tbind].
  assert (Lr : length rest <= length s).
  { assert (X : length (c :: s) = length (token ++ rest)) by (rewrite E1; reflexivity).
    rewrite app_length in X. destruct token; [congruence|]. simpl in X. lia. }
  destruct (words_ok glue (length s) token rest (t ++ token_items k token) p1 f1 Lr F1) as (f2 & p2 & El & F2 & Nf).
  - rewrite <- E1. exact Hm.
  - right. destruct k.
    + destruct Hk.
    + destruct Hk as (x & d & -> & W). left. exists x, d. auto.
    + destruct Hk as (x & d & -> & W). left. exists x, d. auto.
    + destruct Hk as (x & d & -> & W). left. exists x, d. auto.
    + right. apply Hk.
  - exists f2, p2. split; [exact El|]. split; [|exact Nf]. rewrite E2, app_assoc. exact F2.
Qed.

(** ** Whether the current line is empty *)

Definition open_items (b : bool) (t : list item) : bool :=
  fold_left (fun b i => match i with Solid _ => true | Break => false | _ => b end) t b.

Definition line_open (f : formatter) : bool := negb (is_line_empty (f_writer f)).

Lemma open_app : forall t1 t2 b, open_items b (t1 ++ t2) = open_items (open_items b t1) t2.
Proof. intros. unfold open_items. apply fold_left_app. Qed.

Lemma open_solid : forall w b, w <> [] -> open_items b (map Solid w) = true.
Proof.
  induction w as [|c w IH]; intros b H; [congruence|]. cbn. destruct w as [|d w]; [reflexivity|].
  apply IH. discriminate.
Qed.

Lemma line_open_ext : forall f f1, w_line (f_writer f1) = w_line (f_writer f) -> line_open f1 = line_open f.
Proof. intros f f1 E. unfold line_open, is_line_empty. rewrite E. reflexivity. Qed.

Lemma begin_line : forall f f1, begin_alignment f = TOk f1 -> w_line (f_writer f1) = w_line (f_writer f).
Proof.
  intros f f1 E. unfold begin_alignment in E. destruct (_ || _).
  - injection E as <-. apply (push_line None f).
  - destruct (f_state f); try (injection E as <-; reflexivity).
    destruct (pop_indentation f) as [f2| | |] eqn:Ep; try discriminate. cbn [tbind] in E. injection E as <-.
    transitivity (w_line (f_writer f2)); [apply (push_line None f2)|apply (pop_stack _ _ Ep)].
Qed.

Lemma end_line_same : forall f f1, end_alignment f = TOk f1 -> w_line (f_writer f1) = w_line (f_writer f).
Proof.
  intros f f1 E. unfold end_alignment in E.
  destruct (f_state f); try (injection E as <-; reflexivity);
    (destruct (pop_indentation f) as [f2| | |] eqn:Ep; try discriminate; cbn [tbind] in E; injection E as <-;
     apply (pop_stack _ _ Ep)).
Qed.

Lemma inside_open : forall g t f, finv g t Inside f -> line_open f = true.
Proof.
  intros g t f [[_ _ _ _ (H & _)] _ _ _ _ _ _]. unfold line_open, is_line_empty.
  destruct (w_line (f_writer f)); [congruence|reflexivity].
Qed.

Lemma repeat_open : forall n b, open_items b (repeat Blank n) = b.
Proof. induction n as [|n IH]; intros b; [reflexivity|]. apply IH. Qed.

Lemma token_open : forall t p f k token f1, finv True t p f ->
  match k with TkEnd => False | TkWord => token <> [] /\ ~ In c_lf token | _ => True end ->
  write_token k token f = TOk f1 -> line_open f1 = open_items (line_open f) (token_items k token).
Proof.
  intros t p f k token f1 F Hk E. destruct k; cbn [write_token token_items] in *.
  - contradiction.
  - apply begin_line in E. apply line_open_ext in E. exact E.
  - destruct (end_alignment f) as [f2| | |] eqn:Ee; try discriminate. cbn [tbind] in E. injection E as <-. reflexivity.
  - apply begin_line in E. apply line_open_ext in E. rewrite repeat_open. exact E.
  - destruct Hk as (N1 & N2). rewrite open_solid by exact N1.
    destruct (word_ok True t p _ token (update_ok True t p f token F (fun _ => I)) N1 N2) as (f2 & E2 & F2 & _).
    rewrite E2 in E. injection E as <-. eapply inside_open. exact F2.
Qed.

Lemma words_loop_open : forall fuel text t p f f1, finv True t p f -> words_loop fuel text f = TOk f1 ->
  line_open f1 = open_items (line_open f) (map word_item (unix text)).
Proof.
  induction fuel as [|fuel IH]; intros text t p f f1 F E.
  - destruct text; [|discriminate E]. apply end_line_same in E. apply line_open_ext in E. exact E.
  - destruct text as [|c text]; [apply end_line_same in E; apply line_open_ext in E; exact E|].
    remember (c :: text) as s eqn:Es. assert (Ns : s <> []) by (subst; discriminate).
    assert (E' : words_loop (S fuel) s f = let '(k, token, rest) := next_token s in
      tbind (write_token k token f) (words_loop fuel rest)) by (rewrite Es; reflexivity).
    rewrite E' in E. clear E'. destruct (next_token s) as ((k & token) & rest) eqn:En.
    destruct (next_token_spec _ _ _ _ Ns En) as (E1 & Nt & E2 & Hk).
    assert (Hok : match k with
      | TkEnd => False
      | TkWord => token <> [] /\ ~ In c_lf token /\ (is_list_marker token = true -> True)
      | TkSpace => token <> []
      | _ => True end).
    { destruct k; auto. destruct Hk as (Hw & Hr). split; [exact Nt|]. split; [intros X; apply Hw in X; discriminate|auto]. }
    destruct (token_ok True t p f k token F Hok) as (f2 & p2 & Ew & F2). rewrite Ew in E. cbn [tbind] in E.
    rewrite (IH rest _ _ _ _ F2 E). rewrite E2, open_app. f_equal.
    eapply token_open; [exact F| |exact Ew]. destruct k; auto. tauto.
Qed.

Lemma words_open : forall text t p f f1, finv True t p f -> write_words text f = TOk f1 ->
  line_open f1 = open_items (line_open f) (map word_item (unix text)).
Proof. intros text t p f f1 F E. eapply words_loop_open; eassumption. Qed.

Lemma unix_no_cr : forall s, ~ In c_cr (unix s).
Proof.
  assert (G : forall n s, length s <= n -> ~ In c_cr (unix s)).
  { induction n as [|n IH]; intros s L; [destruct s; [intros []|simpl in L; lia]|].
    destruct s as [|c s]; [intros []|]. simpl in L. cbn [unix]. destruct (Ascii.eqb_spec c c_cr) as [->|N1].
    - intros [X|X]; [discriminate X|]. destruct s as [|d s]; [destruct X|].
      destruct (Ascii.eqb d c_lf); revert X; apply IH; simpl in *; lia.
    - intros [X|X]; [congruence|]. revert X. apply IH. lia. }
  intros s. apply (G (length s)). lia.
Qed.

Lemma lines_of_nonempty : forall s, lines_of s <> [].
Proof.
  induction s as [|c s IH]; [discriminate|]. cbn [lines_of]. destruct (Ascii.eqb c c_lf); [discriminate|].
  destruct (lines_of s); [congruence|discriminate].
Qed.

(** The last line of a text. *)
Lemma open_text_items : forall s, open_items false (map word_item (unix s)) = open_text s.
Proof.
  intros s. unfold open_text. generalize (unix_no_cr s). set (u := unix s). clearbody u. intros Hc.
  assert (G : forall b, open_items b (map word_item u) =
    match lines_of u with
    | [l] => b || existsb (fun c => negb (is_white c)) l
    | ls => existsb (fun c => negb (is_white c)) (last ls [])
    end).
  { induction u as [|c u IH]; intros b; [cbn; rewrite orb_false_r; reflexivity|].
    assert (Hu : ~ In c_cr u) by (intros X; apply Hc; right; exact X). specialize (IH Hu).
    cbn [map]. change (open_items b (word_item c :: map word_item u)) with
      (open_items (match word_item c with Solid _ => true | Break => false | _ => b end) (map word_item u)).
    rewrite IH. cbn [lines_of]. unfold word_item. pose proof (lines_of_nonempty u) as Nu.
    destruct (Ascii.eqb_spec c c_lf) as [->|Nl].
    - destruct (lines_of u) as [|l [|l2 ls]]; [congruence| |]; reflexivity.
    - assert (W : is_white c = Ascii.eqb c c_space || Ascii.eqb c c_tab).
      { unfold is_white. destruct (Ascii.eqb_spec c c_cr) as [->|_]; [exfalso; apply Hc; left; reflexivity|].
        destruct (Ascii.eqb_spec c c_lf); [congruence|]. rewrite !orb_false_r. reflexivity. }
      destruct (Ascii.eqb c c_space || Ascii.eqb c c_tab) eqn:Eb.
      + destruct (lines_of u) as [|l [|l2 ls]]; [congruence| |reflexivity].
        cbn [existsb]. rewrite W. reflexivity.
      + destruct (lines_of u) as [|l [|l2 ls]]; [congruence| |reflexivity].
        cbn [existsb]. rewrite W. cbn [negb]. rewrite orb_true_r. reflexivity. }
  rewrite G. destruct (lines_of u) as [|l [|l2 ls]]; reflexivity.
Qed.

(** ** The column after a text *)

Lemma append_column : forall word f f1, word <> [] -> good_rules (f_rules f) -> append_word word f = TOk f1 ->
  current_width (f_writer f1) <= current_width (f_writer f) + length word /\
  w_indent (f_writer f1) = w_indent (f_writer f).
Proof.
  intros word f f1 Nw HG E.
  destruct (append_word_proof word (fun c w => current_width w <= current_width (f_writer f) + length c /\
    w_indent w = w_indent (f_writer f))) with (f := f) as (w' & E' & W).
  - intros c x r w (H1 & H2) _ _ _ _. split; [|exact H2]. rewrite app_length.
    pose proof (count_le_length_proof x). unfold current_width at 1. cbn [written w_current w_indent w_spaces].
    assert (w_indent w <= current_width w) by (unfold current_width; lia). lia.
  - intros c r h w (H1 & H2) _ _ _ _ _ _ _.
    assert (Ei : w_indent (match h with Some x => written [x] w | None => w end) = w_indent w) by (destruct h; reflexivity).
    split; [|cbn [next set_spaces writer_newline flush_writer w_indent]; congruence].
    unfold current_width at 1. cbn [next set_spaces writer_newline flush_writer w_current w_indent w_spaces].
    rewrite Ei. assert (w_indent w <= current_width w) by (unfold current_width; lia). lia.
  - intros w (H1 & H2) _ _. split; [|exact H2].
    unfold current_width at 1. cbn [next set_spaces writer_newline flush_writer w_current w_indent w_spaces].
    assert (w_indent w <= current_width w) by (unfold current_width; lia). lia.
  - intros c w (H1 & H2) _. split; [|exact H2]. unfold current_width in *. cbn [set_spaces w_current w_indent w_spaces]. lia.
  - intros c r w (H1 & H2) Ew _ _ _ _ _ _. split; [|exact H2].
    pose proof (count_le_length_proof r) as L. unfold current_width at 1. cbn [written w_current w_indent w_spaces].
    assert (w_indent w <= current_width w) by (unfold current_width; lia).
    rewrite Ew, app_length. lia.
  - exact HG.
  - exact Nw.
  - split; [simpl; lia|reflexivity].
  - rewrite E' in E. injection E as <-. exact W.
Qed.

Lemma set_indentation_column : forall n w, n <= w_indent w ->
  current_width (set_indentation n w) <= current_width w.
Proof.
  intros n w H. unfold set_indentation. destruct (_ <=? _); [lia|]. unfold current_width in *.
  cbn [w_current w_indent w_spaces] in *. lia.
Qed.

Lemma push_column : forall f, current_width (f_writer (push_indentation None f)) <= current_width (f_writer f).
Proof.
  intros f. cbn [push_indentation f_writer set_indents on_writer]. unfold set_indentation. destruct (_ <=? _).
  - unfold current_width. cbn [set_spaces w_current w_indent w_spaces]. lia.
  - unfold current_width. cbn [set_spaces w_current w_indent w_spaces]. lia.
Qed.

Lemma pop_column : forall g t p f f1, finv g t p f -> is_aligned (f_state f) -> pop_indentation f = TOk f1 ->
  current_width (f_writer f1) <= current_width (f_writer f).
Proof.
  intros g t p f f1 [_ _ _ _ H _ _] Ha E. destruct (H Ha) as (m & n & l & El & Hn).
  unfold pop_indentation in E. rewrite El in E. injection E as <-. cbn [f_writer set_indents on_writer].
  destruct Hn as [Hn|Hn].
  - unfold set_indentation. destruct (Nat.leb_spec (w_line_width (f_writer f)) n); [lia|lia].
  - apply set_indentation_column. exact Hn.
Qed.

Lemma begin_column : forall g t p f f1, finv g t p f -> begin_alignment f = TOk f1 ->
  current_width (f_writer f1) <= current_width (f_writer f).
Proof.
  intros g t p f f1 F E. unfold begin_alignment in E. destruct (_ || _).
  - injection E as <-. apply (push_column f).
  - destruct (f_state f) eqn:Es; try (injection E as <-; lia).
    destruct (pop_indentation f) as [f2| | |] eqn:Ep; try discriminate. cbn [tbind] in E. injection E as <-.
    etransitivity; [apply (push_column f2)|]. eapply pop_column; [exact F|right; exact Es|exact Ep].
Qed.

Lemma end_column : forall g t p f f1, finv g t p f -> end_alignment f = TOk f1 ->
  current_width (f_writer f1) <= current_width (f_writer f).
Proof.
  intros g t p f f1 F E. unfold end_alignment in E.
  destruct (f_state f) eqn:Es; try (injection E as <-; lia);
    (destruct (pop_indentation f) as [f2| | |] eqn:Ep; try discriminate; cbn [tbind] in E; injection E as <-).
  - eapply (pop_column g t p f f2); [exact F|left; exact Es|exact Ep].
  - eapply (pop_column g t p f f2); [exact F|right; exact Es|exact Ep].
Qed.

Lemma token_column : forall g t p f k token f1, finv g t p f ->
  match k with TkEnd | TkTab => False | TkWord => token <> [] | _ => True end ->
  write_token k token f = TOk f1 -> current_width (f_writer f1) <= current_width (f_writer f) + length token.
Proof.
  intros g t p f k token f1 F Hk E. destruct k; cbn [write_token] in E; try contradiction.
  - destruct (end_alignment f) as [f2| | |] eqn:Ee; try discriminate. cbn [tbind] in E. injection E as <-.
    apply (end_column _ _ _ _ _ F) in Ee. unfold current_width at 1.
    cbn [on_writer f_writer set_spaces writer_newline flush_writer w_current w_indent w_spaces].
    assert (w_indent (f_writer f2) <= current_width (f_writer f2)) by (unfold current_width; lia). lia.
  - destruct token as [|c token].
    + assert (E0 : on_writer (set_spaces (length (@nil ascii))) f = on_writer (set_spaces 0) f) by reflexivity.
      rewrite E0 in E. unfold begin_alignment in E. destruct (_ || _).
      * injection E as <-. etransitivity; [apply (push_column (on_writer (set_spaces 0) f))|].
        unfold current_width. cbn. lia.
      * cbn [on_writer f_state] in E. destruct (f_state f) eqn:Es; try (injection E as <-; unfold current_width; cbn; lia).
        destruct (pop_indentation (on_writer (set_spaces 0) f)) as [f2| | |] eqn:Ep; try discriminate. cbn [tbind] in E. injection E as <-.
        etransitivity; [apply (push_column f2)|].
        destruct F as [_ _ _ _ H _ _]. destruct (H (or_intror Es)) as (m & n & l & El & Hn).
        unfold pop_indentation in Ep. cbn [on_writer f_indents] in Ep. rewrite El in Ep. injection Ep as <-.
        cbn [f_writer set_indents on_writer].
        unfold set_indentation, current_width in *. cbn [set_spaces w_line_width] in *.
        destruct (Nat.leb_spec (w_line_width (f_writer f)) n); cbn [set_spaces w_current w_indent w_spaces]; lia.
    + assert (L : 0 < length (c :: token)) by (simpl; lia).
      pose proof (spaces_ok g t p f _ _ F L L) as F1. apply (begin_column _ _ _ _ _ F1) in E.
      etransitivity; [exact E|]. unfold current_width. cbn [on_writer f_writer set_spaces w_current w_indent w_spaces]. lia.
  - assert (Eu : f_writer (update_alignment token f) = f_writer f /\ f_rules (update_alignment token f) = f_rules f).
    { unfold update_alignment. destruct (_ && _); split; reflexivity. }
    destruct Eu as (Eu1 & Eu2). rewrite <- Eu1. apply (append_column token); [exact Hk| |exact E].
    rewrite Eu2. apply F.
Qed.

Lemma words_loop_column : forall fuel text t p f f1, finv True t p f -> ~ In c_tab text -> words_loop fuel text f = TOk f1 ->
  current_width (f_writer f1) <= current_width (f_writer f) + length text.
Proof.
  induction fuel as [|fuel IH]; intros text t p f f1 F Ht E.
  - destruct text; [|discriminate E]. apply (end_column _ _ _ _ _ F) in E. simpl. lia.
  - destruct text as [|c text]; [apply (end_column _ _ _ _ _ F) in E; simpl; lia|].
    remember (c :: text) as s eqn:Es. assert (Ns : s <> []) by (subst; discriminate).
    assert (E' : words_loop (S fuel) s f = let '(k, token, rest) := next_token s in
      tbind (write_token k token f) (words_loop fuel rest)) by (rewrite Es; reflexivity).
    rewrite E' in E. clear E'. destruct (next_token s) as ((k & token) & rest) eqn:En.
    destruct (next_token_spec _ _ _ _ Ns En) as (E1 & Nt & E2 & Hk).
    assert (Hok : match k with
      | TkEnd => False
      | TkWord => token <> [] /\ ~ In c_lf token /\ (is_list_marker token = true -> True)
      | TkSpace => token <> []
      | _ => True end).
    { destruct k; auto. destruct Hk as (Hw & Hr). split; [exact Nt|]. split; [intros X; apply Hw in X; discriminate|auto]. }
    destruct (token_ok True t p f k token F Hok) as (f2 & p2 & Ew & F2). rewrite Ew in E. cbn [tbind] in E.
    apply (IH rest _ _ _ _ F2) in E; [|intros X; apply Ht; rewrite E1; apply in_or_app; auto].
    rewrite E1, app_length. etransitivity; [exact E|].
    enough (current_width (f_writer f2) <= current_width (f_writer f) + length token) by lia.
    eapply token_column; [exact F| |exact Ew]. destruct k; auto.
    apply tab_token in En. subst token. apply Ht. rewrite E1. left. reflexivity.
Qed.

Lemma words_column : forall text t p f f1, finv True t p f -> ~ In c_tab text -> write_words text f = TOk f1 ->
  current_width (f_writer f1) <= current_width (f_writer f) + length text.
Proof. intros text t p f f1 F Ht E. eapply words_loop_column; eassumption. Qed.

(** A text without tabs leaves the indentations alone. *)
Lemma no_tab_simple : forall s, ~ In c_tab s -> simple_indents s.
Proof.
  intros s H a l b E _ Hl. right. intros c Hc. destruct (Hl c Hc) as [->| ->]; [reflexivity|].
  exfalso. apply H. rewrite E. apply in_or_app. right. apply in_or_app. auto.
Qed.
