(** Proofs about the layout of formatted text (C49). *)
From Verif Require Import Base BaseProofs MStrings MText SStrings SText SFormat StrProofs SplitProofs
  RuleProofs TextProofs.
Open Scope nat_scope.

Lemma lay_inside : forall glue x t o, layout glue t o Inside ->
  layout glue (t ++ map Solid x) (o ++ x) Inside.
Proof.
  induction x as [|c x IH]; intros t o H; simpl.
  - rewrite !app_nil_r. exact H.
  - replace (t ++ Solid c :: map Solid x) with ((t ++ [Solid c]) ++ map Solid x) by (rewrite <- app_assoc; reflexivity).
    replace (o ++ c :: x) with ((o ++ blanks 0 ++ [c]) ++ x) by (rewrite <- app_assoc; reflexivity).
    apply IH. apply lay_solid with (p := Inside); [exact H|auto|discriminate].
Qed.

Lemma lay_piece : forall glue x t o p k, layout glue t o p -> x <> [] ->
  (p = Inside -> k = 0) -> (p = Gap -> at_line_start o \/ 0 < k \/ glue) ->
  layout glue (t ++ map Solid x) (o ++ blanks k ++ x) Inside.
Proof.
  intros glue x t o p k H Nx H1 H2. destruct x as [|c x]; [congruence|]. simpl.
  replace (t ++ Solid c :: map Solid x) with ((t ++ [Solid c]) ++ map Solid x) by (rewrite <- app_assoc; reflexivity).
  replace (o ++ blanks k ++ c :: x) with ((o ++ blanks k ++ [c]) ++ x) by (rewrite <- !app_assoc; reflexivity).
  apply lay_inside. apply lay_solid with (p := p); assumption.
Qed.

(** ** The writer *)

Section Layout.
Variable glue : Prop.

Definition place_inv (p : place) (w : writer) : Prop :=
  match p with
  | Inside => w_line w <> [] /\ w_spaces w = 0 /\ w_indent w <= w_current w
  | Gap => w_line w = [] \/ w_current w < current_width w \/ glue
  | Wrapped => w_line w = []
  | Either => True
  end.

Record winv (t : list item) (p : place) (w : writer) : Prop := mk_winv {
  wi_layout : layout glue t (w_out w ++ w_line w) p;
  wi_empty : w_line w = [] -> w_current w = 0;
  wi_out : at_line_start (w_out w);
  wi_line : last_char (w_line w) <> Some c_lf;
  wi_place : place_inv p w
}.

Lemma last_char_app2 : forall a b, b <> [] -> last_char (a ++ b) = last_char b.
Proof.
  intros a b H. destruct (exists_last H) as (b' & c & ->). rewrite app_assoc, !last_char_app. reflexivity.
Qed.

Lemma line_start_cases : forall w, at_line_start (w_out w) -> w_line w = [] ->
  at_line_start (w_out w ++ w_line w).
Proof. intros w H ->. rewrite app_nil_r. exact H. Qed.

Lemma not_line_start : forall w, w_line w <> [] -> last_char (w_line w) <> Some c_lf ->
  ~ at_line_start (w_out w ++ w_line w).
Proof.
  intros w H1 H2 [X|X].
  - apply app_eq_nil in X. tauto.
  - rewrite last_char_app2 in X by exact H1. congruence.
Qed.

Lemma last_in : forall s c, last_char s = Some c -> In c s.
Proof.
  intros s c H. rewrite (last_char_some _ _ H). apply in_or_app. right. left. reflexivity.
Qed.

Lemma winv_written : forall t p w x, winv t p w -> x <> [] -> ~ In c_lf x ->
  winv (t ++ map Solid x) Inside (written x w).
Proof.
  intros t p w x [H1 H2 H3 H4 H5] Nx NL. constructor; cbn [written w_out w_line w_current w_indent w_spaces].
  - rewrite app_assoc. apply lay_piece with (p := p); [exact H1|exact Nx| |].
    + intros ->. destruct H5 as (_ & A & B). unfold current_width. lia.
    + intros ->. destruct H5 as [A|[A|A]]; [left; apply line_start_cases; assumption| |auto].
      right. left. lia.
  - intros X. apply app_eq_nil in X. destruct X as (_ & X). apply app_eq_nil in X. tauto.
  - exact H3.
  - rewrite app_assoc, last_char_app2 by exact Nx. intros X. apply last_in in X. auto.
  - split; [|split; [reflexivity|cbn [written w_indent w_current]; unfold current_width; lia]].
    intros X. apply app_eq_nil in X. destruct X as (_ & X). apply app_eq_nil in X. tauto.
Qed.

Lemma at_line_start_lf : forall o, at_line_start (o ++ [c_lf]).
Proof. intros o. right. apply last_char_app. Qed.

Lemma winv_hyphen : forall t w h, winv t Inside w -> h = None \/ h = Some c_dash ->
  winv t Wrapped (next (match h with Some x => written [x] w | None => w end)).
Proof.
  intros t w h [H1 H2 H3 H4 (A & B & C)] Hh.
  assert (E : w_out (next (match h with Some x => written [x] w | None => w end)) =
    (w_out w ++ w_line w) ++ hyphen_text h ++ [c_lf]).
  { destruct h as [x|]; cbn [next set_spaces writer_newline flush_writer written w_out w_line hyphen_text].
    - replace (current_width w - w_current w) with 0 by (unfold current_width; lia).
      simpl. rewrite <- !app_assoc. reflexivity.
    - simpl. rewrite <- !app_assoc. reflexivity. }
  constructor.
  - rewrite E. change (w_line (next _)) with (@nil ascii). rewrite app_nil_r. apply lay_wrap; [exact H1|].
    destruct Hh as [->| ->]; auto.
  - reflexivity.
  - rewrite E, app_assoc. apply at_line_start_lf.
  - discriminate.
  - reflexivity.
Qed.

Lemma winv_next : forall t p w, winv t p w -> w_line w <> [] ->
  exists p', winv t p' (next w) /\ (p' = p \/ p' = Wrapped) /\ p' <> Inside.
Proof.
  intros t p w H Nl. destruct p.
  - exists Wrapped. split; [apply (winv_hyphen t w None H); auto|]. split; [auto|discriminate].
  - exists Gap. destruct H as [H1 H2 H3 H4 H5].
    split; [|split; [auto|discriminate]]. constructor.
    + cbn. rewrite app_nil_r, app_assoc. apply lay_line; [exact H1|auto|apply not_line_start; assumption].
    + reflexivity.
    + cbn. rewrite app_assoc. apply at_line_start_lf.
    + discriminate.
    + left. reflexivity.
  - destruct H as [_ _ _ _ H]. simpl in H. congruence.
  - exists Either. destruct H as [H1 H2 H3 H4 H5].
    split; [|split; [auto|discriminate]]. constructor.
    + cbn. rewrite app_nil_r, app_assoc. apply lay_line; [exact H1|auto|apply not_line_start; assumption].
    + reflexivity.
    + cbn. rewrite app_assoc. apply at_line_start_lf.
    + discriminate.
    + exact I.
Qed.

Lemma winv_spaces : forall t p w n, winv t p w -> w_line w = [] -> winv t p (set_spaces n w).
Proof.
  intros t p w n [H1 H2 H3 H4 H5] El. constructor; try assumption.
  destruct p; simpl in *; tauto.
Qed.

Lemma append_layout : forall word t p f, word <> [] -> ~ In c_lf word -> good_rules (f_rules f) ->
  winv t p (f_writer f) ->
  exists w', append_word word f = TOk (on_writer (fun _ => w') f) /\
    winv (t ++ map Solid word) Inside w' /\ w_indent w' = w_indent (f_writer f) /\
    w_line_width w' = w_line_width (f_writer f).
Proof.
  intros word t p f Nw NL HG HW.
  destruct (append_word_proof word (fun c w => exists p', winv (t ++ map Solid c) p' w /\
    (c <> [] -> p' = Inside \/ p' = Wrapped) /\ (c = word -> p' = Inside) /\
    w_indent w = w_indent (f_writer f) /\ w_line_width w = w_line_width (f_writer f)) ) with (f := f)
    as (w' & E & p' & W & _ & X & Y1 & Y2).
  - intros c x r w (p' & W & Hc & _ & Y) Ew Nx _ _. exists Inside.
    split; [rewrite map_app, app_assoc; apply winv_written with (p := p'); [exact W|exact Nx|]|auto].
    intros X. apply NL. rewrite Ew. apply in_or_app. right. apply in_or_app. auto.
  - intros c r h w (p' & W & Hc & _ & Y) Ew Nc Nr Nl Hh _ _. exists Wrapped.
    destruct (Hc Nc) as [->| ->]; [|destruct W as [_ _ _ _ W]; simpl in W; congruence].
    split; [apply winv_hyphen; assumption|]. split; [auto|]. split.
    + intros ->. exfalso. rewrite <- (app_nil_r word) in Ew at 1. apply app_inv_head in Ew. congruence.
    + destruct Hh as [->| ->]; exact Y.
  - intros w (p' & W & _ & _ & Y) Nl _.
    destruct (winv_next _ _ _ W Nl) as (p2 & W2 & _ & _). exists p2. split; [exact W2|].
    split; [congruence|]. split; [congruence|]. exact Y.
  - intros c w (p' & W & Hc & Hw & Y) El. exists p'. split; [apply winv_spaces; assumption|auto].
  - intros c r w (p' & W & Hc & _ & Y) Ew Nr _ _ _ _ _. exists Inside.
    split; [|auto]. rewrite Ew, map_app, app_assoc. apply winv_written with (p := p'); [exact W|exact Nr|].
    intros X. apply NL. rewrite Ew. apply in_or_app. auto.
  - exact HG.
  - exact Nw.
  - exists p. simpl. rewrite app_nil_r. split; [exact HW|]. split; [congruence|]. split; [congruence|auto].
  - exists w'. split; [exact E|]. rewrite (X eq_refl) in W. auto.
Qed.

(** ** The formatter *)

Definition is_aligned (s : align_state) : Prop := s = ALIGNMENT \/ s = ALIGNED_MARKER.

(** A gap that does not depend on the indentation. *)
Definition gap_ok (p : place) (w : writer) : Prop :=
  p = Gap -> w_line w = [] \/ 0 < w_spaces w \/ glue.

Record finv (t : list item) (p : place) (f : formatter) : Prop := mk_finv {
  fi_writer : winv t p (f_writer f);
  fi_rules : good_rules (f_rules f);
  fi_indents : f_indents f <> [];
  fi_top : forall n l, f_indents f = n :: l -> n < w_line_width (f_writer f) -> w_indent (f_writer f) = n;
  fi_aligned : is_aligned (f_state f) -> exists m n l, f_indents f = m :: n :: l /\
    (w_line_width (f_writer f) <= n \/ n <= w_indent (f_writer f));
  fi_marker : f_state f = UNALIGNED_MARKER \/ f_state f = ALIGNED_MARKER -> glue;
  fi_gap : gap_ok p (f_writer f)
}.

(** The same, but a gap may be due to the indentation only. *)
Record pinv (t : list item) (p : place) (f : formatter) : Prop := mk_pinv {
  pi_writer : winv t p (f_writer f);
  pi_rules : good_rules (f_rules f);
  pi_indents : f_indents f <> [];
  pi_top : forall n l, f_indents f = n :: l -> n < w_line_width (f_writer f) -> w_indent (f_writer f) = n;
  pi_aligned : is_aligned (f_state f) -> exists m n l, f_indents f = m :: n :: l /\
    (w_line_width (f_writer f) <= n \/ n <= w_indent (f_writer f));
  pi_marker : f_state f = UNALIGNED_MARKER \/ f_state f = ALIGNED_MARKER -> glue
}.

Lemma finv_pre : forall t p f, finv t p f -> pinv t p f.
Proof. intros t p f [H1 H2 H3 H4 H5 H6 _]. constructor; assumption. Qed.
Lemma pinv_finv : forall t p f, pinv t p f -> gap_ok p (f_writer f) -> finv t p f.
Proof. intros t p f [H1 H2 H3 H4 H5 H6] H. constructor; assumption. Qed.

(** Changing the indentation when there is no word that is being written. *)
Lemma winv_indent : forall t p w n, winv t p w -> gap_ok p w -> p <> Inside \/ n <= w_indent w ->
  winv t p (set_indentation n w).
Proof.
  intros t p w n [H1 H2 H3 H4 H5] Hg H. unfold set_indentation. destruct (w_line_width w <=? n); [constructor; assumption|].
  constructor; cbn [w_out w_line w_current]; try assumption.
  destruct p; simpl in *; try assumption.
  - destruct H as [H|H]; [congruence|]. destruct H5 as (A & B & C).
    split; [exact A|]. split; [exact B|lia].
  - destruct (Hg eq_refl) as [X|[X|X]]; [auto| |auto]. right. left. unfold current_width. cbn [w_current w_indent w_spaces]. lia.
Qed.

Lemma gap_indent : forall p w n, gap_ok p w -> gap_ok p (set_indentation n w).
Proof. intros p w n H E. unfold set_indentation. destruct (_ <=? _); exact (H E). Qed.

Lemma set_indentation_width : forall n w, w_line_width (set_indentation n w) = w_line_width w /\
  w_indent (set_indentation n w) = if w_line_width w <=? n then w_indent w else n.
Proof. intros n w. unfold set_indentation. destruct (_ <=? _); split; reflexivity. Qed.

Lemma push_none : forall t f, finv t Gap f ->
  w_line (f_writer f) = [] \/ glue -> ~ is_aligned (f_state f) \/ True ->
  finv t Gap (set_state ALIGNMENT (push_indentation None f)).
Proof.
  intros t f [H1 H2 H3 H4 H5 H6 H7] Hl _. unfold push_indentation.
  set (n := current_width (f_writer f)). destruct (set_indentation_width n (set_spaces 0 (f_writer f))) as (E1 & E2).
  cbn [w_line_width w_indent set_spaces] in E1, E2.
  constructor; cbn [f_writer f_indents f_rules f_state set_state set_indents on_writer].
  - apply winv_indent; [| |left; discriminate].
    + destruct H1 as [A B C D E]. constructor; try assumption.
      destruct Hl as [Hl|Hl]; [left; exact Hl|right; right; exact Hl].
    + intros _. destruct Hl as [Hl|Hl]; [left; exact Hl|right; right; exact Hl].
  - exact H2.
  - discriminate.
  - intros m l X. injection X as <- _. rewrite E1, E2. intros L. destruct (Nat.leb_spec (w_line_width (f_writer f)) n); [lia|reflexivity].
  - intros _. destruct (f_indents f) as [|m l] eqn:El; [congruence|]. exists n, m, l. split; [reflexivity|].
    rewrite E1, E2. destruct (Nat.le_gt_cases (w_line_width (f_writer f)) m) as [L|L]; [left; exact L|right].
    rewrite <- (H4 m l eq_refl L). destruct (Nat.leb_spec (w_line_width (f_writer f)) n); [lia|].
    unfold n, current_width. lia.
  - intros [X|X]; discriminate.
  - apply gap_indent. intros _. destruct Hl as [Hl|Hl]; [left; exact Hl|right; right; exact Hl].
Qed.

Lemma pop_ok : forall t p f, finv t p f -> is_aligned (f_state f) -> forall s, ~ is_aligned s -> (s = UNALIGNED_MARKER -> glue) ->
  exists f1, pop_indentation f = TOk f1 /\ finv t p (set_state s f1) /\ f_state f1 = f_state f /\
    w_line (f_writer f1) = w_line (f_writer f).
Proof.
  intros t p f [H1 H2 H3 H4 H5 H6 H7] Ha s Ns Hs. destruct (H5 Ha) as (m & n & l & El & Hn).
  unfold pop_indentation. rewrite El. eexists. split; [reflexivity|].
  destruct (set_indentation_width n (f_writer f)) as (E1 & E2).
  assert (El2 : w_line (set_indentation n (f_writer f)) = w_line (f_writer f))
    by (unfold set_indentation; destruct (_ <=? _); reflexivity).
  split; [|split; [reflexivity|exact El2]].
  constructor; cbn [f_writer f_indents f_rules f_state set_state set_indents on_writer].
  - destruct Hn as [Hn|Hn]; [|apply winv_indent; auto]. unfold set_indentation.
    destruct (Nat.leb_spec (w_line_width (f_writer f)) n); [exact H1|lia].
  - exact H2.
  - discriminate.
  - intros k l' X. injection X as <- _. rewrite E1, E2. intros L. destruct (Nat.leb_spec (w_line_width (f_writer f)) n); [lia|reflexivity].
  - intros X. contradiction.
  - intros [X|X]; [auto|]. exfalso. apply Ns. right. exact X.
  - apply gap_indent. exact H7.
Qed.

Lemma no_align_none : ~ is_aligned NO_ALIGNMENT.
Proof. intros [X|X]; discriminate. Qed.
Lemma no_align_unmarked : ~ is_aligned UNALIGNED_MARKER.
Proof. intros [X|X]; discriminate. Qed.

Lemma begin_ok : forall t f, finv t Gap f -> exists f1, begin_alignment f = TOk f1 /\ finv t Gap f1.
Proof.
  intros t f H. unfold begin_alignment.
  destruct (is_line_empty (f_writer f)) eqn:El.
  - apply is_empty_true in El. cbn [orb]. eexists. split; [reflexivity|]. apply push_none; auto.
  - cbn [orb]. destruct (f_state f) eqn:Es; try (exists f; split; [reflexivity|exact H]).
    + eexists. split; [reflexivity|]. apply push_none; auto. right. destruct H as [_ _ _ _ _ H _]. auto.
    + assert (Gl : glue) by (destruct H as [_ _ _ _ _ H]; auto).
      destruct (pop_ok t Gap f H (or_intror Es) NO_ALIGNMENT no_align_none ltac:(discriminate)) as (f1 & -> & F1 & _ & _).
      cbn [tbind]. eexists. split; [reflexivity|].
      change (set_state ALIGNMENT (push_indentation None f1))
        with (set_state ALIGNMENT (push_indentation None (set_state NO_ALIGNMENT f1))).
      apply push_none; auto.
Qed.

Lemma end_ok : forall t p f, finv t p f -> exists f1, end_alignment f = TOk f1 /\ finv t p f1 /\ ~ is_aligned (f_state f1).
Proof.
  intros t p f H. unfold end_alignment.
  destruct (f_state f) eqn:Es.
  - exists f. split; [reflexivity|]. split; [exact H|]. rewrite Es. apply no_align_none.
  - destruct (pop_ok t p f H (or_introl Es) NO_ALIGNMENT no_align_none ltac:(discriminate)) as (f1 & -> & F1 & _ & _).
    eexists. split; [reflexivity|]. split; [exact F1|apply no_align_none].
  - exists f. split; [reflexivity|]. split; [exact H|]. rewrite Es. apply no_align_unmarked.
  - destruct (pop_ok t p f H (or_intror Es) NO_ALIGNMENT no_align_none ltac:(discriminate)) as (f1 & -> & F1 & _ & _).
    eexists. split; [reflexivity|]. split; [exact F1|apply no_align_none].
Qed.

Lemma newline_pre : forall t p f, pinv t p f -> finv (t ++ [Break]) Gap (newline f).
Proof.
  intros t p f [[H1 H2 H3 H4 H5] G2 G3 G4 G5 G6]. constructor; try assumption; [|intros _; left; reflexivity]. constructor.
  - cbn. rewrite app_nil_r, app_assoc. apply lay_break with (p := p). exact H1.
  - reflexivity.
  - cbn. rewrite app_assoc. apply at_line_start_lf.
  - discriminate.
  - left. reflexivity.
Qed.
Lemma newline_ok : forall t p f, finv t p f -> finv (t ++ [Break]) Gap (newline f).
Proof. intros t p f H. apply newline_pre with (p := p), finv_pre, H. Qed.

Lemma spaces_pre : forall t p f n k, pinv t p f -> 0 < n -> 0 < k ->
  finv (t ++ repeat Blank k) Gap (on_writer (set_spaces n) f).
Proof.
  intros t p f n k [[H1 H2 H3 H4 H5] G2 G3 G4 G5 G6] Hn Hk. constructor; try assumption; [|intros _; right; left; exact Hn].
  constructor; try assumption.
  - cbn. destruct k as [|k]; [lia|]. clear - H1. simpl.
    revert t p H1. induction k as [|k IH]; intros t p H1; simpl.
    + apply lay_blank with (p := p). exact H1.
    + replace (t ++ Blank :: Blank :: repeat Blank k) with ((t ++ [Blank]) ++ Blank :: repeat Blank k)
        by (rewrite <- app_assoc; reflexivity).
      apply IH with (p := Gap). apply lay_blank with (p := p). exact H1.
  - right. left. unfold current_width. cbn [on_writer f_writer set_spaces w_current w_indent w_spaces]. lia.
Qed.
Lemma spaces_ok : forall t p f n k, finv t p f -> 0 < n -> 0 < k ->
  finv (t ++ repeat Blank k) Gap (on_writer (set_spaces n) f).
Proof. intros t p f n k H. apply spaces_pre with (p := p), finv_pre, H. Qed.

Lemma word_pre : forall t p f word, pinv t p f -> word <> [] -> ~ In c_lf word ->
  exists f1, append_word word f = TOk f1 /\ finv (t ++ map Solid word) Inside f1 /\ f_state f1 = f_state f.
Proof.
  intros t p f word [H1 G2 G3 G4 G5 G6] Nw NL.
  destruct (append_layout word t p f Nw NL G2 H1) as (w' & -> & W & E1 & E2).
  eexists. split; [reflexivity|]. split; [|reflexivity].
  constructor; cbn [on_writer f_writer f_indents f_rules f_state]; try assumption; try (rewrite E1, E2; assumption).
  discriminate.
Qed.
Lemma word_ok : forall t p f word, finv t p f -> word <> [] -> ~ In c_lf word ->
  exists f1, append_word word f = TOk f1 /\ finv (t ++ map Solid word) Inside f1 /\ f_state f1 = f_state f.
Proof. intros t p f word H. apply word_pre with (p := p), finv_pre, H. Qed.

Lemma update_pre : forall t p f token, pinv t p f -> (is_list_marker token = true -> glue) ->
  pinv t p (update_alignment token f).
Proof.
  intros t p f token [H1 G2 G3 G4 G5 G6] Hm. unfold update_alignment.
  destruct (is_line_empty (f_writer f) && is_list_marker token) eqn:E; [|constructor; assumption].
  apply andb_true_iff in E. destruct E as (_ & E).
  constructor; cbn [set_state f_writer f_indents f_rules f_state]; try assumption.
  - destruct (f_state f) eqn:Es; intros [X|X]; try discriminate. apply G5. left. reflexivity.
  - auto.
Qed.
Lemma update_ok : forall t p f token, finv t p f -> (is_list_marker token = true -> glue) ->
  finv t p (update_alignment token f).
Proof.
  intros t p f token H Hm. apply pinv_finv; [apply update_pre; [apply finv_pre, H|exact Hm]|].
  destruct H as [_ _ _ _ _ _ H]. unfold update_alignment. destruct (_ && _); exact H.
Qed.

(** ** Tokens *)

Definition token_items (k : token_kind) (token : str) : list item :=
  match k with
  | TkEnd => []
  | TkTab => [Blank]
  | TkNewline => [Break]
  | TkSpace => repeat Blank (length token)
  | TkWord => map Solid token
  end.

Lemma token_ok : forall t p f k token, finv t p f ->
  match k with
  | TkEnd => False
  | TkWord => token <> [] /\ ~ In c_lf token /\ (is_list_marker token = true -> glue)
  | TkSpace => token <> []
  | _ => True
  end ->
  exists f1 p1, write_token k token f = TOk f1 /\ finv (t ++ token_items k token) p1 f1.
Proof.
  intros t p f k token H Hk. destruct k; cbn [write_token token_items].
  - contradiction.
  - destruct (begin_ok (t ++ [Blank]) (on_writer tab f)) as (f1 & E & F1).
    + unfold tab. apply (spaces_ok t p f _ 1 H); [|lia].
      pose proof (Nat.mod_upper_bound (current_width (f_writer f)) 4). lia.
    + exists f1, Gap. auto.
  - destruct (end_ok t p f H) as (f1 & -> & F1 & _). cbn [tbind]. eexists. exists Gap. split; [reflexivity|].
    apply (newline_ok t p f1 F1).
  - assert (L : 0 < length token) by (destruct token; [congruence|simpl; lia]).
    destruct (begin_ok _ _ (spaces_ok t p f _ _ H L L)) as (f1 & E & F1). exists f1, Gap. auto.
  - destruct Hk as (N1 & N2 & N3).
    destruct (word_ok t p _ token (update_ok t p f token H N3) N1 N2) as (f1 & E & F1 & _). exists f1, Inside. auto.
Qed.
End Layout.
