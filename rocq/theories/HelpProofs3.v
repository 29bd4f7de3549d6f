(** Proofs about help texts (C53, C54): what the writer of help texts writes. *)
From Verif Require Import Base BaseProofs MStrings MData MText MHelp SStrings SText SFormat SHelp StrProofs
  SplitProofs RuleProofs PlaceProofs TextProofs LayoutProofs LayoutProofs2 WidthProofs IndentProofs TextApi HelpProofs HelpProofs2.
Open Scope nat_scope.

Lemma doc_items_app : forall a b, doc_items (a ++ b) = doc_items a ++ doc_items b.
Proof. intros a b. unfold doc_items. rewrite map_app, concat_app. reflexivity. Qed.

Lemma doc_marker_app : forall a b, doc_marker (a ++ b) <-> doc_marker a \/ doc_marker b.
Proof.
  intros a b. unfold doc_marker. split.
  - intros (s & H & M). apply in_app_or in H. destruct H; [left|right]; exists s; auto.
  - intros [(s & H & M)|(s & H & M)]; exists s; split; auto; apply in_or_app; auto.
Qed.

(** ** Names *)

Lemma stops_stop : forall o, is_stop_option (o_type o) = stops o.
Proof. intros o. unfold stops. destruct (o_type o); reflexivity. Qed.

Lemma starts_first : forall s, starts_with_char "<" s = first_is ["<"%char] s.
Proof. intros [|c s]; cbn; [reflexivity|]. rewrite orb_false_r. reflexivity. Qed.

Lemma flag_label_eq : forall flag a, flag ++ option_argument flag a = flag_label a flag.
Proof.
  intros flag a. unfold flag_label, option_argument, ends_equal, angled, between_angles. f_equal.
  destruct a as [|c a]; [reflexivity|]. cbn [is_empty]. rewrite starts_first. reflexivity.
Qed.

Lemma find_filter : forall A (g : A -> bool) l, find g l = hd_error (filter g l).
Proof. intros A g. induction l as [|x l IH]; [reflexivity|]. cbn. destruct (g x); [reflexivity|exact IH]. Qed.

Lemma filter_true : forall A (g : A -> bool) l x r, filter g l = x :: r -> g x = true.
Proof.
  intros A g l x r E. assert (H : In x (filter g l)) by (rewrite E; left; reflexivity). apply filter_In in H. tauto.
Qed.

Lemma brief_name : forall o, get_brief_option_name o (stops o) = usage_label o.
Proof.
  intros o. unfold get_brief_option_name, usage_label. rewrite stops_stop.
  assert (E : (let first := match o_flags o with f :: _ => f | [] => [] end in
    let long := if stops o then match find (fun s => 2 <? length s) (o_flags o) with Some s => s | None => [] end else [] in
    if is_empty long then first else long) = usage_flag o).
  { unfold usage_flag. destruct (stops o).
    - rewrite find_filter. destruct (filter (fun f => 2 <? length f) (o_flags o)) as [|x r] eqn:Ef; cbn [hd_error app].
      + cbn. destruct (o_flags o); reflexivity.
      + apply filter_true in Ef. destruct x as [|c x]; [discriminate|]. reflexivity.
    - cbn. destruct (o_flags o); reflexivity. }
  cbv zeta in *. rewrite E. destruct (o_optional o && negb (stops o)); cbn [app].
  - unfold bracketed. rewrite <- flag_label_eq, <- !app_assoc. reflexivity.
  - rewrite app_nil_r. apply flag_label_eq.
Qed.

Lemma repeat_join : forall n name result, result <> [] \/ n = 0 ->
  repeat_name n name result = result ++ concat (map (fun y => $" " ++ y) (repeat (angled name) n)).
Proof.
  induction n as [|n IH]; intros name result H; cbn [repeat_name repeat map concat]; [rewrite app_nil_r; reflexivity|].
  destruct H as [H|H]; [|discriminate]. destruct result as [|c r]; [congruence|]. cbn [is_empty].
  rewrite IH by (left; destruct r; discriminate). rewrite <- !app_assoc. reflexivity.
Qed.

Lemma angled_nonempty : forall s, angled s <> [].
Proof. discriminate. Qed.

Lemma join_snoc : forall (l : list str) x, join ($" ") (l ++ [x]) = match l with [] => x | _ => join ($" ") l ++ $" " ++ x end.
Proof.
  intros [|y l] x; cbn [app join map concat]; [rewrite app_nil_r; reflexivity|].
  rewrite map_app, concat_app. cbn [map concat]. rewrite app_nil_r, app_assoc. reflexivity.
Qed.

Lemma argument_name : forall a, (a_min a <= a_max a)%N -> get_argument_name a = argument_label a.
Proof.
  intros a Hm. unfold get_argument_name, argument_label.
  assert (Ef : starts_with_char "<" (a_name a) || starts_with_char "[" (a_name a) = first_is ["<"%char; "["%char] (a_name a)).
  { destruct (a_name a) as [|c s]; cbn; [reflexivity|]. rewrite orb_false_r. reflexivity. }
  rewrite Ef. destruct (first_is ["<"%char; "["%char] (a_name a)); [reflexivity|].
  assert (Er : repeat_name (N.to_nat (a_min a)) (a_name a) [] = join ($" ") (repeat (angled (a_name a)) (N.to_nat (a_min a)))).
  { destruct (N.to_nat (a_min a)) as [|n]; [reflexivity|]. cbn [repeat_name is_empty repeat join app].
    apply (repeat_join n (a_name a) (angled (a_name a))). left. discriminate. }
  cbv zeta. rewrite Er. destruct (N.eqb_spec (a_max a) (a_min a)) as [E|Ne]; [rewrite app_nil_r; reflexivity|].
  assert (E1 : (a_max a - a_min a =? 1)%N = (a_max a =? a_min a + 1)%N).
  { destruct (N.eqb_spec (a_max a - a_min a) 1), (N.eqb_spec (a_max a) (a_min a + 1)); auto; lia. }
  rewrite E1.
  assert (Es : forall x, (if is_empty (join ($" ") (repeat (angled (a_name a)) (N.to_nat (a_min a))))
      then join ($" ") (repeat (angled (a_name a)) (N.to_nat (a_min a)))
      else join ($" ") (repeat (angled (a_name a)) (N.to_nat (a_min a))) ++ $" ") ++ x =
      join ($" ") (repeat (angled (a_name a)) (N.to_nat (a_min a)) ++ [x])).
  { intros x. rewrite join_snoc. destruct (N.to_nat (a_min a)) as [|n]; [reflexivity|]. cbn [repeat].
    cbn [join]. change (is_empty (angled (a_name a) ++ ?y)) with false. cbv iota. rewrite <- !app_assoc. reflexivity. }
  destruct (a_max a =? a_min a + 1)%N.
  - rewrite <- Es. unfold bracketed, angled. rewrite <- !app_assoc. reflexivity.
  - rewrite <- Es. unfold bracketed, angled. rewrite <- !app_assoc. reflexivity.
Qed.

Lemma long_name_join : forall flags a r, r <> [] \/ flags = [] ->
  long_name_loop flags a r = r ++ concat (map (fun y => $", " ++ y) (map (flag_label a) flags)).
Proof.
  induction flags as [|x l IH]; intros a r H; cbn [long_name_loop map concat]; [rewrite app_nil_r; reflexivity|].
  destruct H as [H|H]; [|discriminate]. destruct r as [|c r]; [congruence|]. cbn [is_empty].
  rewrite flag_label_eq. rewrite IH by (left; destruct r; discriminate). rewrite <- !app_assoc. reflexivity.
Qed.

Lemma long_name : forall o, hd [] (o_flags o) <> [] -> get_long_option_name o = option_label o.
Proof.
  intros o H. unfold get_long_option_name, option_label. destruct (o_flags o) as [|x l]; [destruct H; reflexivity|]. simpl in H.
  cbn [long_name_loop is_empty map join]. rewrite flag_label_eq. cbn [app].
  apply long_name_join. left. unfold flag_label. destruct x; [congruence|discriminate].
Qed.

Section Render.
Variable glue : Prop.
Variable W : nat.
Hypothesis HW : 2 < W.
Notation hinv := (hinv glue W).
Notation sinv := (sinv glue W).
Notation ninv := (ninv glue W).

(** From the beginning of a line to the beginning of a line. *)
Definition renders (d : list piece) (k : fstep) : Prop := forall b t f, sinv b t f -> (doc_marker d -> glue) ->
  exists f1, k f = TOk f1 /\ sinv b (t ++ doc_items d) f1.

(** Within a line. *)
Definition continues (d : list piece) (k : fstep) : Prop := forall b t f, hinv b t f -> (doc_marker d -> glue) ->
  exists f1, k f = TOk f1 /\ hinv b (t ++ doc_items d) f1.

Lemma renders_skip : renders [] skip.
Proof. intros b t f H _. exists f. split; [reflexivity|]. cbn. rewrite app_nil_r. exact H. Qed.

Lemma renders_then : forall d1 d2 k1 k2, renders d1 k1 -> renders d2 k2 -> renders (d1 ++ d2) (k1 ;> k2).
Proof.
  intros d1 d2 k1 k2 H1 H2 b t f S0 M. destruct (H1 b t f S0) as (f1 & E1 & S1).
  { intros X. apply M, doc_marker_app. auto. }
  destruct (H2 b _ f1 S1) as (f2 & E2 & S2).
  { intros X. apply M, doc_marker_app. auto. }
  exists f2. unfold then_. rewrite E1. cbn [tbind]. split; [exact E2|]. rewrite doc_items_app, app_assoc. exact S2.
Qed.

Lemma renders_skip_l : forall d k, renders d k -> renders d (skip ;> k).
Proof. intros d k H. apply (renders_then [] d skip k renders_skip H). Qed.
Lemma renders_skip_r : forall d k, renders d k -> renders d (k ;> skip).
Proof. intros d k H. rewrite <- (app_nil_r d). apply (renders_then d [] k skip H renders_skip). Qed.

Lemma renders_for : forall A (g : A -> fstep) d l, (forall x, In x l -> renders (d x) (g x)) ->
  renders (concat (map d l)) (for_each g l).
Proof.
  intros A g d. induction l as [|x l IH]; intros H; [apply renders_skip|]. cbn [map concat for_each].
  apply renders_then; [apply H; left; reflexivity|]. apply IH. intros y Hy. apply H. right. exact Hy.
Qed.

Lemma continues_skip : continues [] skip.
Proof. intros b t f H _. exists f. split; [reflexivity|]. cbn. rewrite app_nil_r. exact H. Qed.

Lemma continues_then : forall d1 d2 k1 k2, continues d1 k1 -> continues d2 k2 -> continues (d1 ++ d2) (k1 ;> k2).
Proof.
  intros d1 d2 k1 k2 H1 H2 b t f S0 M. destruct (H1 b t f S0) as (f1 & E1 & S1).
  { intros X. apply M, doc_marker_app. auto. }
  destruct (H2 b _ f1 S1) as (f2 & E2 & S2).
  { intros X. apply M, doc_marker_app. auto. }
  exists f2. unfold then_. rewrite E1. cbn [tbind]. split; [exact E2|]. rewrite doc_items_app, app_assoc. exact S2.
Qed.

Lemma continues_for : forall A (g : A -> fstep) d l, (forall x, In x l -> continues (d x) (g x)) ->
  continues (concat (map d l)) (for_each g l).
Proof.
  intros A g d. induction l as [|x l IH]; intros H; [apply continues_skip|]. cbn [map concat for_each].
  apply continues_then; [apply H; left; reflexivity|]. apply IH. intros y Hy. apply H. right. exact Hy.
Qed.

Lemma doc_items_one : forall p, doc_items [p] = piece_items p.
Proof. intros p. unfold doc_items. simpl. apply app_nil_r. Qed.

Lemma continues_words : forall s, continues [Words s] (write_words s).
Proof.
  intros s b t f H M. destruct (hinv_words glue W s b t f H) as (f1 & E & H1 & _).
  { intros X. apply M. exists s. split; [left; reflexivity|exact X]. }
  exists f1. split; [exact E|]. rewrite doc_items_one. exact H1.
Qed.

Lemma no_marker_space : ~ has_marker ($" ").
Proof.
  intros (a & m & b & E & Hm & _).
  assert (Hin : forall c, In c m -> c = c_space).
  { intros c Hc. assert (X : In c ($" ")) by (rewrite E; apply in_or_app; right; apply in_or_app; auto).
    destruct X as [X|[]]. symmetry. exact X. }
  destruct Hm as [->|[->|(d & -> & _)]].
  - specialize (Hin c_dash (or_introl eq_refl)). discriminate.
  - specialize (Hin "*"%char (or_introl eq_refl)). discriminate.
  - specialize (Hin "."%char ltac:(apply in_or_app; right; left; reflexivity)). discriminate.
Qed.

Lemma continues_space : continues [Space] (write_words ($" ")).
Proof.
  intros b t f H M. destruct (hinv_words glue W ($" ") b t f H) as (f1 & E & H1 & _).
  { intros X. destruct (no_marker_space X). }
  exists f1. split; [exact E|]. exact H1.
Qed.

Lemma continues_lines : forall s, last_char s <> Some c_cr -> continues [Lines s] (write_lines s).
Proof.
  intros s Nc b t f H M. destruct (hinv_lines glue W s b t f H Nc) as (f1 & E & H1 & _).
  exists f1. split; [exact E|]. rewrite doc_items_one. exact H1.
Qed.

Lemma renders_newline : renders [EndLine] new_line.
Proof.
  intros b t f H M. destruct (ninv_newline glue W b t f (sinv_ninv _ _ _ _ _ H)) as (f1 & E & H1 & _). exists f1. auto.
Qed.

(** A line. *)
Lemma renders_line : forall d k, continues d k -> renders (d ++ [EndLine]) (k ;> new_line).
Proof.
  intros d k H b t f (S0 & _) M. destruct (H b t f S0) as (f1 & E1 & H1).
  { intros X. apply M, doc_marker_app. auto. }
  destruct (ninv_newline glue W b _ f1 (hinv_ninv _ _ _ _ _ H1)) as (f2 & E2 & S2 & _).
  exists f2. unfold then_. rewrite E1. cbn [tbind]. split; [exact E2|]. rewrite doc_items_app, app_assoc. exact S2.
Qed.

(** Indented lines. *)
Lemma renders_indented : forall d k n, renders d k -> renders d (push (Some n) ;> k ;> pop_indentation).
Proof.
  intros d k n H b t f S0 M. destruct (sinv_push glue W b t f n S0) as (f1 & E1 & S1 & _).
  destruct (H (S b) t f1 S1 M) as (f2 & E2 & S2).
  destruct (sinv_pop glue W b _ f2 S2) as (f3 & E3 & S3 & _).
  exists f3. unfold then_. rewrite E1. cbn [tbind]. rewrite E2. cbn [tbind]. auto.
Qed.

(** ** Texts *)

Lemma renders_text : forall s, renders (text_pieces s) (write_words s ;> end_line).
Proof.
  intros s b t f (S0 & E0) M. destruct (hinv_words glue W s b t f S0) as (f1 & E1 & H1 & O1 & _).
  { intros X. apply M. exists s. split; [left; reflexivity|exact X]. }
  unfold then_. rewrite E1. cbn [tbind].
  assert (Of : line_open f = false) by (unfold line_open, is_line_empty; rewrite E0; reflexivity).
  rewrite Of, open_text_items in O1. unfold text_pieces. unfold line_open in O1. unfold end_line.
  destruct (open_text s).
  - destruct (ninv_newline glue W b _ f1 (hinv_ninv _ _ _ _ _ H1)) as (f2 & E2 & S2 & _).
    exists f2. destruct (is_line_empty (f_writer f1)); [discriminate|]. split; [exact E2|].
    change [Words s; EndLine] with ([Words s] ++ [EndLine]). rewrite doc_items_app, app_assoc, !doc_items_one. exact S2.
  - exists f1. destruct (is_line_empty (f_writer f1)) eqn:El; [|discriminate]. split; [reflexivity|].
    rewrite doc_items_one. split; [exact H1|]. apply is_empty_true. exact El.
Qed.

Definition nl (b : bool) : list piece := if b then [EndLine] else [].

Lemma renders_when_nl : forall b, renders (nl b) (when b new_line).
Proof. intros [|]; [apply renders_newline|apply renders_skip]. Qed.

(** The blocks of a text with or without an empty line in front. *)
Definition pre (b : bool) (l : list (list piece)) : list piece :=
  match l with
  | [] => []
  | x :: r => nl b ++ x ++ concat (map (fun y => EndLine :: y) r)
  end.

Lemma pre_false : forall l, pre false l = join [EndLine] l.
Proof. intros [|x l]; reflexivity. Qed.
Lemma pre_true : forall l, pre true l = concat (map (fun y => EndLine :: y) l).
Proof. intros [|x l]; reflexivity. Qed.
Lemma pre_app : forall b x y, pre b (x ++ y) = pre b x ++ pre (b || negb (is_empty x)) y.
Proof.
  intros b [|x l] y; cbn [app pre is_empty negb].
  - rewrite orb_false_r. reflexivity.
  - rewrite orb_true_r, pre_true, map_app, concat_app, !app_assoc. reflexivity.
Qed.

Lemma renders_custom : forall c id b, renders (pre b (text_block (find_text (c_texts c) id))) (write_custom_text c id b).
Proof.
  intros c id b. unfold write_custom_text, get_custom_text. destruct (find_text (c_texts c) id) as [[|x s]|]; try apply renders_skip.
  cbn [is_empty text_block pre map concat]. rewrite app_nil_r. apply renders_then; [apply renders_when_nl|apply renders_text].
Qed.

(** ** Usage *)

Definition tab_free (s : str) : bool := negb (existsb (Ascii.eqb c_tab) s).

Lemma tab_free_not_in : forall s, tab_free s = true -> ~ In c_tab s.
Proof.
  intros s H X. unfold tab_free in H. apply negb_true_iff in H.
  assert (Y : existsb (Ascii.eqb c_tab) s = true) by (apply existsb_exists; exists c_tab; split; [exact X|apply Ascii.eqb_refl]).
  congruence.
Qed.

Lemma name_step : forall name b t f base, sinv b t f -> (has_marker name -> glue) ->
  (tab_free name = true -> f_indents f = 2 :: base) ->
  exists f1, (write_words name ;> write_words ($" ") ;> push None) f = TOk f1 /\
    hinv (S b) (t ++ doc_items (usage_name W name)) f1 /\
    (tab_free name = true -> exists n, f_indents f1 = n :: 2 :: base).
Proof.
  intros name b t f base (S0 & E0) M Hi.
  destruct (hinv_words glue W name b t f S0 M) as (f1 & E1 & H1 & _ & I1).
  assert (Nm : has_marker ($" ") -> glue) by (intros X; destruct (no_marker_space X)).
  destruct (hinv_words glue W ($" ") b _ f1 H1 Nm) as (f2 & E2 & H2 & _ & I2).
  exists (push_indentation None f2). unfold then_. rewrite E1. cbn [tbind]. rewrite E2. cbn [tbind]. split; [reflexivity|].
  destruct (blank_same 0 f1 f2 E2) as (B1 & B2 & B3).
  assert (It : tab_free name = true -> f_indents f2 = 2 :: base).
  { intros X. rewrite I2 by (intros [Y|[]]; discriminate Y). rewrite I1 by (apply tab_free_not_in; exact X). auto. }
  split; [|intros X; exists (current_width (f_writer f2)); cbn [push_indentation f_indents set_indents]; f_equal; auto].
  set (n := current_width (f_writer f2)).
  assert (Eg : f_writer (push_indentation None f2) = set_indentation n (set_spaces 0 (f_writer f2))) by reflexivity.
  destruct (set_indentation_same n (set_spaces 0 (f_writer f2))) as (P1 & P2 & P3 & P4 & P5). rewrite <- Eg in P1, P2, P3, P4, P5.
  cbn [set_spaces w_out w_line w_spaces w_current w_line_width] in P1, P2, P3, P4, P5.
  assert (Gen : forall t' p, layout glue t' (w_out (f_writer f2) ++ w_line (f_writer f2)) p ->
    place_inv glue p (f_writer (push_indentation None f2)) -> hinv (S b) t' (push_indentation None f2)).
  { intros t' p L P. destruct H2 as [(q & [[A1 A2 A3 A4 A5] G2 G3 G4 G5 G6]) Na Hd Hw Hl]. constructor.
    - exists p. constructor.
      + constructor.
        * rewrite P1, P2. exact L.
        * rewrite P2, P4. exact A2.
        * rewrite P1. exact A3.
        * rewrite P2. exact A4.
        * exact P.
      + exact G2.
      + discriminate.
      + intros m l X. assert (Em : m = n) by (injection X as <- _; reflexivity). subst m. intros Y.
        rewrite P5 in Y. rewrite Eg.
        destruct (LayoutProofs.set_indentation_width n (set_spaces 0 (f_writer f2))) as (_ & ->).
        cbn [set_spaces w_line_width]. destruct (Nat.leb_spec (w_line_width (f_writer f2)) n); [lia|reflexivity].
      + intros X. contradiction.
      + exact G6.
    - exact Na.
    - cbn. lia.
    - rewrite P5. exact Hw.
    - intros _. exact P3. }
  unfold usage_name. change [Words name; ?x] with ([Words name] ++ [x]). rewrite doc_items_app, !doc_items_one, app_assoc.
  fold (tab_free name). cbn [piece_items].
  destruct (tab_free name && (length name + 3 <? W)) eqn:Ec.
  - apply andb_true_iff in Ec. destruct Ec as (Ct & Cl). apply Nat.ltb_lt in Cl. cbn [piece_items].
    destruct H1 as [(p1 & Q1) Na1 _ W1 _].
    assert (Nsp : ($" ") <> []) by discriminate.
    destruct (words_pre glue ($" ") _ p1 f1 Nsp Q1 Na1 Nm) as (f2' & p2 & E2' & F2 & _).
    rewrite E2' in E2. apply TOk_inj in E2. subst f2'. change (map word_item (unix ($" "))) with [Blank] in F2.
    pose proof F2 as [[L2 A2 A3 A4 A5] _ _ T2 _ _ G2]. pose proof (blank_place _ _ _ _ L2). subst p2.
    apply (Gen _ Gap); [exact L2|].
    assert (Ln : n < W).
    { pose proof S0 as [(p0 & Q0) Na0 _ W0 L0]. pose proof (pinv_true _ _ _ _ Q0) as F0.
      pose proof (words_column _ _ _ _ _ F0 (tab_free_not_in _ Ct) E1) as C1.
      pose proof (pinv_true _ _ _ _ Q1) as F1.
      assert (Ntab : ~ In c_tab ($" ")) by (intros [Y|[]]; discriminate Y).
      pose proof (words_column _ _ _ _ _ F1 Ntab E2') as C2. simpl in C2. fold n in C2.
      assert (C0 : current_width (f_writer f) = 2).
      { pose proof Q0 as [[_ X _ _ _] _ _ T0 _ _]. unfold current_width. rewrite (L0 E0), (X E0).
        rewrite (T0 2 base (Hi Ct)) by lia. reflexivity. }
      lia. }
    destruct (G2 eq_refl) as [X|[X|X]]; cbn [place_inv].
    + left. rewrite P2. exact X.
    + right. left. rewrite P4. rewrite Eg. unfold set_indentation. cbn [set_spaces w_line_width].
      assert (W2 : w_line_width (f_writer f2) = W) by (rewrite B3; exact W1).
      fold n. destruct (Nat.leb_spec (w_line_width (f_writer f2)) n); [lia|].
      unfold current_width at 1. cbn [w_current w_indent w_spaces]. unfold n, current_width. lia.
    + right. right. exact X.
  - destruct H1 as [(p1 & [[L1 _ _ _ _] _ _ _ _ _]) _ _ _ _]. apply (Gen _ Either); [|exact I].
    rewrite B1, B2. apply lay_maybe with (p := p1). exact L1.
Qed.

(** [d] is written by [k] at the end of a line with the name; the indentation of the
    line is removed and the line is ended. *)
Lemma usage_line : forall name d k b t f base, sinv b t f -> (doc_marker (usage_name W name ++ d) -> glue) ->
  (tab_free name = true -> f_indents f = 2 :: base) ->
  (forall b' t' f', hinv b' t' f' -> exists f1, k f' = TOk f1 /\ hinv b' (t' ++ doc_items d) f1) ->
  exists f1, (write_words name ;> write_words ($" ") ;> push None ;> k ;> pop_indentation ;> new_line) f = TOk f1 /\
    sinv b (t ++ doc_items (usage_name W name ++ d ++ [EndLine])) f1 /\
    ((forall f' f1', (exists b' t', hinv b' t' f') -> k f' = TOk f1' -> f_indents f1' = f_indents f') ->
     tab_free name = true -> f_indents f1 = 2 :: base).
Proof.
  intros name d k b t f base S0 M Hi Hk.
  destruct (name_step name b t f base S0) as (f1 & E1 & H1 & I1); [|exact Hi|].
  { intros X. apply M, doc_marker_app. left. exists name. split; [left; reflexivity|exact X]. }
  destruct (Hk (S b) _ f1 H1) as (f2 & E2 & H2).
  destruct (ninv_pop glue W b _ f2 (hinv_ninv _ _ _ _ _ H2)) as (f3 & E3 & N3 & I3).
  destruct (ninv_newline glue W b _ f3 N3) as (f4 & E4 & S4 & I4).
  exists f4. unfold then_ in *.
  destruct (write_words name f) as [g1| | |]; try discriminate. cbn [tbind] in E1 |- *.
  destruct (write_words ($" ") g1) as [g2| | |]; try discriminate. cbn [tbind] in E1 |- *.
  rewrite E1. cbn [tbind]. rewrite E2. cbn [tbind]. rewrite E3. cbn [tbind]. split; [exact E4|]. split.
  - rewrite !doc_items_app, !app_assoc. exact S4.
  - intros Hki X. destruct (I1 X) as (m & Em). rewrite I4.
    assert (E : f_indents f2 = f_indents f1) by (apply Hki; eauto). rewrite E, Em in I3. injection I3 as I3. symmetry. exact I3.
Qed.

Lemma then_assoc : forall a b c f, ((a ;> b) ;> c) f = (a ;> b ;> c) f.
Proof. intros a b c f. unfold then_. destruct (a f); reflexivity. Qed.

Lemma then_ext : forall a b b' f, (forall f, b f = b' f) -> (a ;> b) f = (a ;> b') f.
Proof. intros a b b' f H. unfold then_. destruct (a f); cbn [tbind]; auto. Qed.

(** A line for each option that stops the parser. *)
Lemma stop_lines : forall name l b t f base, sinv b t f ->
  let vis := filter (fun o => vis_usage (o_visibility o) && Bool.eqb (stops o) true) l in
  let d := concat (map (fun o => usage_name W name ++ [Lines (usage_label o); Space; EndLine]) vis) in
  (forall o, In o l -> vis_usage (o_visibility o) = true -> last_char (usage_label o) <> Some c_cr) ->
  (doc_marker d -> glue) -> (tab_free name = true -> f_indents f = 2 :: base) ->
  exists f1, for_each (fun o =>
    if negb (vis_usage (o_visibility o)) || negb (is_stop_option (o_type o)) then skip
    else write_words name ;> write_words ($" ") ;> push None ;>
         write_lines (get_brief_option_name o true) ;> write_words ($" ") ;>
         pop_indentation ;> new_line) l f = TOk f1 /\ sinv b (t ++ doc_items d) f1 /\
    (tab_free name = true -> f_indents f1 = 2 :: base).
Proof.
  intros name. induction l as [|o l IH]; intros b t f base S0 vis d Hc M Hi.
  - exists f. split; [reflexivity|]. cbn in d. subst d. cbn. rewrite app_nil_r. auto.
  - cbn [for_each]. unfold then_ at 1. rewrite stops_stop.
    assert (Hc' : forall o, In o l -> vis_usage (o_visibility o) = true -> last_char (usage_label o) <> Some c_cr)
      by (intros o' Ho; apply Hc; right; exact Ho).
    assert (Ev : vis_usage (o_visibility o) && Bool.eqb (stops o) true =
      negb (negb (vis_usage (o_visibility o)) || negb (stops o))).
    { destruct (vis_usage (o_visibility o)), (stops o); reflexivity. }
    subst d vis. cbn [filter] in *. rewrite Ev in M |- *.
    destruct (negb (vis_usage (o_visibility o)) || negb (stops o)) eqn:Es; cbn [negb] in M |- *.
    + destruct (IH b t f base S0 Hc' M Hi) as (f1 & E1 & S1 & I1). exists f1. auto.
    + apply orb_false_iff in Es. rewrite !negb_false_iff in Es. destruct Es as (Es1 & Es2).
      cbn [map concat] in M |- *.
      destruct (usage_line name [Lines (usage_label o); Space] (write_lines (get_brief_option_name o true) ;> write_words ($" "))
        b t f base S0) as (f1 & E1 & S1 & I1).
      * intros X. apply M, doc_marker_app. left. destruct X as (s & Hs & X). exists s. split; [|exact X].
        apply in_app_or in Hs. apply in_or_app. destruct Hs as [Hs|[Hs|[Hs|[]]]]; [auto|discriminate Hs|discriminate Hs].
      * exact Hi.
      * intros b' t' f' H'. rewrite <- (brief_name o) in *. rewrite Es2 in *.
        assert (Nc : last_char (get_brief_option_name o true) <> Some c_cr).
        { specialize (Hc o (or_introl eq_refl) Es1). rewrite <- brief_name, Es2 in Hc. exact Hc. }
        apply (continues_then [Lines (get_brief_option_name o true)] [Space]); [apply continues_lines; exact Nc|apply continues_space|exact H'|].
        intros (s & [Hs|[Hs|[]]] & _); discriminate Hs.
      * assert (I1' : tab_free name = true -> f_indents f1 = 2 :: base).
        { apply I1. intros f' f1' (b' & t' & H') E'. unfold then_ in E'.
          assert (Nc : last_char (get_brief_option_name o true) <> Some c_cr).
          { specialize (Hc o (or_introl eq_refl) Es1). rewrite <- brief_name, Es2 in Hc. exact Hc. }
          destruct (hinv_lines glue W _ b' t' f' H' Nc) as (g & Eg & Hg & Ig). rewrite Eg in E'. cbn [tbind] in E'.
          destruct (hinv_words glue W ($" ") b' _ g Hg) as (h & Eh & _ & _ & Ih); [intros X; destruct (no_marker_space X)|].
          rewrite Eh in E'. apply TOk_inj in E'. subst h. rewrite Ih, Ig; [reflexivity|]. intros [Y|[]]. discriminate Y. }
        destruct (IH b _ f1 base S1 Hc') as (f2 & E2 & S2 & I2); [|exact I1'|].
        { intros X. apply M, doc_marker_app. auto. }
        exists f2. split; [|split; [|exact I2]].
        -- rewrite <- E2. clear - E1. unfold then_ in *.
           destruct (write_words name f) as [g1| | |]; try discriminate. cbn [tbind] in E1 |- *.
           destruct (write_words ($" ") g1) as [g2| | |]; try discriminate. cbn [tbind] in E1 |- *.
           destruct (push None g2) as [g3| | |]; try discriminate. cbn [tbind] in E1 |- *.
           destruct (write_lines (get_brief_option_name o true) g3) as [g4| | |]; try discriminate. cbn [tbind] in E1 |- *.
           rewrite E1. reflexivity.
        -- rewrite (doc_items_app (usage_name W name ++ _)), app_assoc. exact S2.
Qed.

Lemma continues_filter : forall A (g : A -> fstep) (v : A -> bool) d l,
  (forall x, In x l -> v x = true -> continues (d x) (g x)) ->
  continues (concat (map d (filter v l))) (for_each (fun x => if v x then g x else skip) l).
Proof.
  intros A g v d. induction l as [|x l IH]; intros H; [apply continues_skip|]. cbn [filter for_each].
  assert (Hl : continues (concat (map d (filter v l))) (for_each (fun x => if v x then g x else skip) l))
    by (apply IH; intros y Hy; apply H; right; exact Hy).
  destruct (v x) eqn:Ev.
  - apply continues_then; [apply H; [left; reflexivity|exact Ev]|exact Hl].
  - apply (continues_then [] _ skip _ continues_skip Hl).
Qed.

Lemma continues_ext : forall d k k', (forall f, k f = k' f) -> continues d k' -> continues d k.
Proof. intros d k k' E H b t f H0 M. destruct (H b t f H0 M) as (f1 & E1 & H1). exists f1. rewrite E. auto. Qed.
Lemma renders_ext : forall d k k', (forall f, k f = k' f) -> renders d k' -> renders d k.
Proof. intros d k k' E H b t f H0 M. destruct (H b t f H0 M) as (f1 & E1 & H1). exists f1. rewrite E. auto. Qed.

Lemma for_each_ext : forall A (g h : A -> fstep) l f, (forall x f, In x l -> g x f = h x f) -> for_each g l f = for_each h l f.
Proof.
  intros A g h. induction l as [|x l IH]; intros f H; [reflexivity|]. cbn [for_each]. unfold then_.
  rewrite (H x f (or_introl eq_refl)). destruct (h x f); cbn [tbind]; auto. apply IH. intros y f' Hy. apply H. right. exact Hy.
Qed.

Lemma continues_options : forall c, labels_ok c ->
  continues (concat (map (fun o => [Lines (usage_label o); Space]) (usage_options false c))) (write_brief_regular_options c).
Proof.
  intros c (Hc & _). unfold write_brief_regular_options, usage_options.
  eapply continues_ext; [|apply (continues_filter opt_data
    (fun o => write_lines (usage_label o) ;> write_words ($" "))
    (fun o => vis_usage (o_visibility o) && Bool.eqb (stops o) false) (fun o => [Lines (usage_label o); Space]))].
  - intros f. apply for_each_ext. intros o f' _. rewrite stops_stop.
    rewrite <- brief_name.
    destruct (vis_usage (o_visibility o)), (stops o) eqn:Es; reflexivity.
  - intros o Ho Hv. apply andb_true_iff in Hv. destruct Hv as (Hv & _).
    apply (continues_then [Lines (usage_label o)] [Space]); [apply continues_lines; auto|apply continues_space].
Qed.

Lemma continues_arguments : forall c, labels_ok c -> shapes_ok c ->
  continues (concat (map (fun a => [Lines (argument_label a); Space]) (usage_arguments c))) (write_brief_arguments c).
Proof.
  intros c (_ & Hc) (Hm & _). unfold write_brief_arguments, usage_arguments.
  eapply continues_ext; [|apply (continues_filter arg_data
    (fun a => write_lines (argument_label a) ;> write_words ($" "))
    (fun a => vis_usage (a_visibility a)) (fun a => [Lines (argument_label a); Space]))].
  - intros f. apply for_each_ext. intros a f' Ha. rewrite argument_name by auto. destruct (vis_usage (a_visibility a)); reflexivity.
  - intros a Ha Hv.
    apply (continues_then [Lines (argument_label a)] [Space]); [apply continues_lines; auto|apply continues_space].
Qed.

Lemma continues_when : forall (v : bool) d k, continues d k -> continues (if v then d else []) (when v k).
Proof. intros [|] d k H; [exact H|apply continues_skip]. Qed.

Lemma continues_skip_r : forall d k, continues d k -> continues d (k ;> skip).
Proof. intros d k H. rewrite <- (app_nil_r d). apply (continues_then d [] k skip H continues_skip). Qed.

Lemma commands_loop : forall l (first : bool),
  let names := map (fun d => [Words (c_name d)]) (filter (fun d => vis_usage (c_visibility d)) l) in
  continues (if first then join [Words ($"|")] names else concat (map (fun y => [Words ($"|")] ++ y) names)) (brief_commands_loop first l).
Proof.
  induction l as [|c l IH]; intros first; [destruct first; apply continues_skip|]. cbn [filter brief_commands_loop].
  destruct (vis_usage (c_visibility c)); cbn [negb]; [|apply IH].
  specialize (IH false). cbv zeta in *. destruct first; cbn [negb when map join concat].
  - apply (continues_then [] _ skip _ continues_skip).
    apply (continues_then [Words (c_name c)]); [apply continues_words|exact IH].
  - rewrite <- app_assoc. apply (continues_then [Words ($"|")]); [apply continues_words|].
    apply (continues_then [Words (c_name c)]); [apply continues_words|exact IH].
Qed.

Lemma continues_commands : forall c, continues (commands_pieces c) (write_brief_commands c).
Proof.
  intros c. unfold commands_pieces, write_brief_commands. destruct (c_commands c) as [|x l] eqn:El; [apply continues_skip|].
  cbn [is_empty]. rewrite <- El. pose proof (commands_loop (c_commands c) true) as H. cbv zeta iota in H.
  fold (usage_commands c) in H. destruct (c_require c) as [[|]|]; cbn [negb when].
  - apply (continues_then [] _ skip _ continues_skip).
    apply continues_skip_r. exact H.
  - apply (continues_then [Words ($"[")]); [apply continues_words|]. apply continues_then; [exact H|apply continues_words].
  - apply (continues_then [Words ($"[")]); [apply continues_words|]. apply continues_then; [exact H|apply continues_words].
Qed.

Lemma renders_usage : forall c b, labels_ok c -> shapes_ok c ->
  renders (nl b ++ usage_pieces W c) (write_brief_usage c b).
Proof.
  intros c v Hl Hs. unfold write_brief_usage. apply renders_then; [apply renders_when_nl|].
  intros b t f S0 M. destruct (sinv_push glue W b t f 2 S0) as (f1 & E1 & S1 & I1).
  unfold usage_pieces in *.
  set (d1 := concat (map (fun o => usage_name W (c_full_name c) ++ [Lines (usage_label o); Space; EndLine]) (usage_options true c))) in *.
  set (d2 := concat (map (fun o => [Lines (usage_label o); Space]) (usage_options false c))) in *.
  set (d3 := concat (map (fun a => [Lines (argument_label a); Space]) (usage_arguments c))) in *.
  destruct (stop_lines (c_full_name c) (c_options c) (S b) t f1 (f_indents f) S1) as (f2 & E2 & S2 & I2).
  - apply Hl.
  - intros X. apply M, doc_marker_app. left. exact X.
  - intros _. exact I1.
  - fold (usage_options true c) in S2. fold d1 in S2.
    destruct (usage_line (c_full_name c) (d2 ++ d3 ++ commands_pieces c)
      (write_brief_regular_options c ;> write_brief_arguments c ;> write_brief_commands c) (S b) _ f2 (f_indents f) S2)
      as (f3 & E3 & S3 & _).
    + intros X. apply M, doc_marker_app. right. rewrite !doc_marker_app in *. tauto.
    + exact I2.
    + intros b' t' f' H'. eapply continues_then; [apply continues_options; exact Hl| |exact H'|].
      * apply continues_then; [apply continues_arguments; assumption|apply continues_commands].
      * intros X. apply M, doc_marker_app. right. rewrite !doc_marker_app in *. tauto.
    + destruct (sinv_pop glue W b _ f3 S3) as (f4 & E4 & S4 & _).
      exists f4. split.
      * assert (E2' : write_stop_and_help_usage c f1 = TOk f2) by exact E2.
        unfold then_ in E3. unfold then_. rewrite E1. cbn [tbind]. rewrite E2'. cbn [tbind].
        destruct (write_words (c_full_name c) f2) as [g1| | |]; try discriminate. cbn [tbind] in E3 |- *.
        destruct (write_words ($" ") g1) as [g2| | |]; try discriminate. cbn [tbind] in E3 |- *.
        destruct (push None g2) as [g3| | |]; try discriminate. cbn [tbind] in E3 |- *.
        destruct (write_brief_regular_options c g3) as [g4| | |]; try discriminate. cbn [tbind] in E3 |- *.
        destruct (write_brief_arguments c g4) as [g5| | |]; try discriminate. cbn [tbind] in E3 |- *.
        destruct (write_brief_commands c g5) as [g6| | |]; try discriminate. cbn [tbind] in E3 |- *.
        destruct (pop_indentation g6) as [g7| | |]; try discriminate. cbn [tbind] in E3 |- *.
        rewrite E3. cbn [tbind]. exact E4.
      * rewrite !doc_items_app in *. rewrite !app_assoc in *. exact S4.
Qed.

Lemma renders_nil_then : forall d k k2, renders [] k -> renders d k2 -> renders d (k ;> k2).
Proof. intros d k k2 H H2. exact (renders_then [] d k k2 H H2). Qed.

Lemma renders_write_usage : forall c b, labels_ok c -> shapes_ok c -> renders (pre b (usage_block W c)) (write_usage c b).
Proof.
  intros c b Hl Hs. unfold write_usage, usage_block, get_custom_text.
  set (U := find_text (c_texts c) TX_USAGE). set (T := find_text (c_texts c) TX_USAGE_TITLE).
  destruct U as [[|x u]|] eqn:EU; cbn [pre]; [apply renders_skip| |].
  - cbn [map concat]. rewrite app_nil_r.
    assert (Hu : forall v, renders (nl v ++ text_pieces (x :: u)) (write_custom_text c TX_USAGE v)).
    { intros v. pose proof (renders_custom c TX_USAGE v) as H. fold U in H. rewrite EU in H.
      cbn [text_block pre map concat] in H. rewrite app_nil_r in H. exact H. }
    pose proof (renders_custom c TX_USAGE_TITLE b) as Ht. fold T in Ht.
    destruct T as [[|y s]|] eqn:ET; cbn [title_pieces no_text is_empty andb]; cbn [text_block pre map concat] in Ht.
    + rewrite andb_true_r. apply (renders_nil_then _ _ _ Ht). apply renders_skip_l, renders_skip_r, Hu.
    + rewrite andb_false_r. rewrite app_nil_r in Ht. rewrite app_assoc. apply renders_then; [exact Ht|].
      apply renders_skip_l, renders_skip_r. apply (Hu false).
    + apply (renders_nil_then _ _ _ Ht). rewrite app_assoc. apply renders_then.
      * apply renders_then; [apply renders_when_nl|]. apply (renders_line [Words ($"USAGE")]). apply continues_words.
      * apply renders_skip_r. apply (Hu false).
  - cbn [map concat]. rewrite app_nil_r.
    assert (Hu : forall v, renders (nl v ++ usage_pieces W c) (write_custom_text c TX_USAGE v ;> write_brief_usage c v)).
    { intros v. pose proof (renders_custom c TX_USAGE v) as H. fold U in H. rewrite EU in H.
      apply (renders_nil_then _ _ _ H). apply renders_usage; assumption. }
    pose proof (renders_custom c TX_USAGE_TITLE b) as Ht. fold T in Ht.
    destruct T as [[|y s]|] eqn:ET; cbn [title_pieces no_text is_empty andb]; cbn [text_block pre map concat] in Ht.
    + rewrite andb_true_r. apply (renders_nil_then _ _ _ Ht). apply renders_skip_l, Hu.
    + rewrite andb_false_r. rewrite app_nil_r in Ht. rewrite app_assoc. apply renders_then; [exact Ht|].
      apply renders_skip_l. apply (Hu false).
    + apply (renders_nil_then _ _ _ Ht). rewrite app_assoc. apply renders_then.
      * apply renders_then; [apply renders_when_nl|]. apply (renders_line [Words ($"USAGE")]). apply continues_words.
      * apply (Hu false).
Qed.

(** ** Items of sections *)

Lemma no_marker_spaces : ~ has_marker ($"  ").
Proof.
  intros (a & m & b & E & Hm & _).
  assert (Hin : forall c, In c m -> c = c_space).
  { intros c Hc. assert (X : In c ($"  ")) by (rewrite E; apply in_or_app; right; apply in_or_app; auto).
    destruct X as [X|[X|[]]]; symmetry; exact X. }
  destruct Hm as [->|[->|(d & -> & _)]].
  - specialize (Hin c_dash (or_introl eq_refl)). discriminate.
  - specialize (Hin "*"%char (or_introl eq_refl)). discriminate.
  - specialize (Hin "."%char ltac:(apply in_or_app; right; left; reflexivity)). discriminate.
Qed.

(** The text beside a label. *)
Lemma beside_step : forall b t f nw, hinv b t f -> nw < W ->
  exists f1, ((fun f => if nw <=? current_width (f_writer f) then write_words ($"  ") f else TOk f) ;> push (Some nw)) f = TOk f1 /\
    hinv (S b) (t ++ [Blank]) f1.
Proof.
  intros b t f nw H Hn. unfold then_. destruct (Nat.leb_spec nw (current_width (f_writer f))) as [L|L].
  - destruct (hinv_words glue W ($"  ") b t f H) as (f1 & E1 & H1 & _); [intros X; destruct (no_marker_spaces X)|].
    rewrite E1. cbn [tbind]. exists (push_indentation (Some nw) f1). split; [reflexivity|].
    destruct H as [(p & Q) Na _ _ _].
    destruct (words_pre glue ($"  ") t p f ltac:(discriminate) Q Na) as (f1' & p1 & E1' & F1 & _); [intros X; destruct (no_marker_spaces X)|].
    rewrite E1' in E1. apply TOk_inj in E1. subst f1'. change (map word_item (unix ($"  "))) with [Blank; Blank] in F1.
    destruct F1 as [[L1 A2 A3 A4 A5] G2 G3 G4 G5 G6 G7]. apply blank_twice in L1. pose proof (blank_place _ _ _ _ L1). subst p1.
    destruct H1 as [_ Na1 Hd1 Hw1 Hl1].
    destruct (LayoutProofs.set_indentation_width nw (f_writer f1)) as (E2 & E3).
    destruct (set_indentation_same nw (f_writer f1)) as (P1 & P2 & P3 & P4 & P5).
    constructor; cbn [push_indentation f_writer f_indents f_rules f_state set_indents on_writer]; try assumption.
    + exists Gap. constructor; cbn [push_indentation f_writer f_indents f_rules f_state set_indents on_writer]; try assumption; try discriminate.
      * apply winv_indent; [constructor; assumption|exact G7|left; discriminate].
      * intros m l X. injection X as <- _. rewrite E2, E3. intros Y.
        destruct (Nat.leb_spec (w_line_width (f_writer f1)) nw); [lia|reflexivity].
      * intros X. contradiction.
    + simpl. lia.
    + congruence.
    + unfold no_lead. cbn [push_indentation f_writer set_indents on_writer]. rewrite P2, P3. exact Hl1.
  - exists (push_indentation (Some nw) f). split; [reflexivity|].
    destruct H as [(p & [[L1 A2 A3 A4 A5] G2 G3 G4 G5 G6]) Na Hd Hw Hl].
    destruct (LayoutProofs.set_indentation_width nw (f_writer f)) as (E2 & E3).
    destruct (set_indentation_same nw (f_writer f)) as (P1 & P2 & P3 & P4 & P5).
    constructor; cbn [push_indentation f_writer f_indents f_rules f_state set_indents on_writer]; try assumption.
    + exists Gap. constructor; cbn [push_indentation f_writer f_indents f_rules f_state set_indents on_writer]; try assumption; try discriminate.
      * constructor; rewrite ?P1, ?P2, ?P4; try assumption.
        -- apply lay_blank with (p := p). exact L1.
        -- right. left. rewrite P4. unfold current_width at 1. rewrite P3, P4, E3.
           destruct (Nat.leb_spec (w_line_width (f_writer f)) nw); [lia|]. unfold current_width in L. lia.
      * intros m l X. injection X as <- _. rewrite E2, E3. intros Y.
        destruct (Nat.leb_spec (w_line_width (f_writer f)) nw); [lia|reflexivity].
      * intros X. contradiction.
    + simpl. lia.
    + congruence.
    + unfold no_lead. cbn [push_indentation f_writer set_indents on_writer]. rewrite P2, P3. exact Hl.
Qed.

Lemma renders_item : forall nw name text, (text <> [] -> nw < W) ->
  renders (entry_pieces (negb (nw =? 0)) (mk_entry [] name text)) (write_item nw (name, text)).
Proof.
  intros nw name text Hw b t f S0 M. unfold entry_pieces in *. cbn [en_label en_text] in *. unfold write_item.
  destruct (hinv_words glue W name b t f (proj1 S0)) as (f1 & E1 & H1 & _ & _).
  { intros X. apply M. exists name. split; [left; reflexivity|exact X]. }
  unfold then_ at 1. rewrite E1. cbn [tbind].
  destruct text as [|x text].
  - cbn [is_empty negb when app] in *.
    destruct (ninv_newline glue W b _ f1 (hinv_ninv _ _ _ _ _ H1)) as (f2 & E2 & S2 & _).
    exists f2. split; [exact E2|]. change [Words name; EndLine] with ([Words name] ++ [EndLine]).
    rewrite doc_items_app, !doc_items_one, app_assoc. exact S2.
  - cbn [is_empty negb when]. remember (x :: text) as s eqn:Es. assert (Ns : s <> []) by (subst; discriminate).
    replace (match s with [] => [] | _ :: _ => [if negb (nw =? 0) then Space else EndLine; Words s] end)
      with [if negb (nw =? 0) then Space else EndLine; Words s] in * by (rewrite Es; reflexivity).
    assert (Ms : has_marker s -> glue).
    { intros X. apply M. exists s. split; [right; right; left; reflexivity|exact X]. }
    assert (Fin : forall f2, hinv (S b) (t ++ map word_item (unix name) ++ [if negb (nw =? 0) then Blank else Break]) f2 ->
      exists f3, (write_words s ;> pop_indentation ;> new_line) f2 = TOk f3 /\
        sinv b (t ++ doc_items (Words name :: [if negb (nw =? 0) then Space else EndLine; Words s] ++ [EndLine])) f3).
    { intros f2 H2. destruct (hinv_words glue W s (S b) _ f2 H2 Ms) as (f3 & E3 & H3 & _ & _).
      destruct (ninv_pop glue W b _ f3 (hinv_ninv _ _ _ _ _ H3)) as (f4 & E4 & N4 & _).
      destruct (ninv_newline glue W b _ f4 N4) as (f5 & E5 & S5 & _).
      exists f5. unfold then_. rewrite E3. cbn [tbind]. rewrite E4. cbn [tbind]. split; [exact E5|].
      assert (Ei : t ++ doc_items (Words name :: [if negb (nw =? 0) then Space else EndLine; Words s] ++ [EndLine]) =
        ((t ++ map word_item (unix name) ++ [if negb (nw =? 0) then Blank else Break]) ++ map word_item (unix s)) ++ [Break]).
      { destruct (negb (nw =? 0)); unfold doc_items; cbn [app map concat piece_items]; rewrite <- !app_assoc; reflexivity. }
      rewrite Ei. exact S5. }
    destruct (negb (nw =? 0)) eqn:En.
    + destruct (beside_step b _ f1 nw H1 (Hw Ns)) as (f2 & E2 & H2). rewrite <- app_assoc in H2.
      destruct (Fin f2 H2) as (f3 & E3 & S3). exists f3. split; [|exact S3].
      unfold then_ in *. destruct (if nw <=? current_width (f_writer f1) then write_words $"  " f1 else TOk f1) as [g1| | |]; try discriminate.
      cbn [tbind] in *. rewrite E2. cbn [tbind].
      destruct (write_words s f2) as [g2| | |]; try discriminate. cbn [tbind] in *.
      destruct (pop_indentation g2) as [g3| | |]; try discriminate. cbn [tbind] in *. exact E3.
    + destruct (ninv_newline glue W b _ f1 (hinv_ninv _ _ _ _ _ H1)) as (f2 & E2 & S2 & _).
      destruct (sinv_push glue W b _ f2 8 S2) as (f3 & E3 & (S3 & _) & _).
      rewrite <- app_assoc in S3. destruct (Fin f3 S3) as (f4 & E4 & S4). exists f4. split; [|exact S4].
      unfold then_ in *. rewrite E2. cbn [tbind]. rewrite E3. cbn [tbind].
      destruct (write_words s f3) as [g2| | |]; try discriminate. cbn [tbind] in *.
      destruct (pop_indentation g2) as [g3| | |]; try discriminate. cbn [tbind] in *. exact E4.
Qed.

Lemma renders_sections : forall nw (l : list section_texts) b,
  (forall s x, In s l -> In x (snd s) -> snd x <> [] -> nw < W) ->
  renders (pre b (map (fun s => [Words (fst s); EndLine] ++
      concat (map (fun x => entry_pieces (negb (nw =? 0)) (mk_entry [] (fst x) (snd x))) (snd s))) l))
    (write_sections nw b l).
Proof.
  intros nw. induction l as [|(s & xs) l IH]; intros b H; [apply renders_skip|].
  cbn [map pre write_sections fst snd].
  apply renders_then; [apply renders_when_nl|].
  eapply renders_ext with (k' := (write_words s ;> new_line) ;> (push (Some 2) ;> for_each (write_item nw) xs ;> pop_indentation) ;>
    write_sections nw true l).
  { intros f. rewrite then_assoc. apply then_ext. intros f1. apply then_ext. intros f2. unfold then_.
    destruct (push (Some 2) f2) as [g| | |]; cbn [tbind]; auto. destruct (for_each (write_item nw) xs g); cbn [tbind]; auto. }
  rewrite <- app_assoc. apply renders_then; [apply (renders_line [Words s]); apply continues_words|].
  apply renders_then.
  - apply renders_indented. apply (renders_for _ (write_item nw) (fun x => entry_pieces (negb (nw =? 0)) (mk_entry [] (fst x) (snd x)))).
    intros (name & text) Hx. apply renders_item. cbn [fst snd]. intros Nt.
    apply (H (s, xs) (name, text)); [left; reflexivity|exact Hx|exact Nt].
  - rewrite <- pre_true. apply IH. intros s' x Hs. apply H. right. exact Hs.
Qed.
End Render.

(** ** Grouping *)

Definition group (l : list entry) : list section_texts :=
  map (fun t => (t, map (fun e => (en_label e, en_text e)) (with_title t l))) (titles l).

Lemma distinct_in : forall l x, In x (distinct l) <-> In x l.
Proof.
  induction l as [|y l IH]; intros x; [reflexivity|]. cbn [distinct In]. rewrite filter_In, IH.
  destruct (str_eqb y x) eqn:E.
  - apply str_eqb_eq in E. subst y. intuition.
  - cbn [negb]. intuition. 
Qed.

Lemma filter_comm : forall A (f g : A -> bool) l, filter f (filter g l) = filter g (filter f l).
Proof.
  intros A f g. induction l as [|x l IH]; [reflexivity|]. cbn.
  destruct (g x) eqn:Eg, (f x) eqn:Ef; cbn; rewrite ?Eg, ?Ef, IH; reflexivity.
Qed.

Lemma distinct_snoc : forall l x, distinct (l ++ [x]) =
  if existsb (str_eqb x) l then distinct l else distinct l ++ [x].
Proof.
  induction l as [|y l IH]; intros x; [reflexivity|]. cbn [app distinct existsb]. rewrite IH.
  destruct (str_eqb x y) eqn:E; cbn [orb].
  - apply str_eqb_eq in E. subst y. destruct (existsb (str_eqb x) l); [reflexivity|].
    rewrite filter_app. cbn. rewrite str_eqb_refl. cbn. rewrite app_nil_r. reflexivity.
  - destruct (existsb (str_eqb x) l); [reflexivity|]. rewrite filter_app. cbn.
    assert (E2 : str_eqb y x = false).
    { destruct (str_eqb y x) eqn:E2; [|reflexivity]. apply str_eqb_eq in E2. subst y. rewrite str_eqb_refl in E. discriminate. }
    rewrite E2. reflexivity.
Qed.

Lemma distinct_nodup : forall l, NoDup (distinct l).
Proof.
  induction l as [|x l IH]; cbn; constructor.
  - rewrite filter_In. rewrite str_eqb_refl. intros (_ & X). discriminate X.
  - apply NoDup_filter. exact IH.
Qed.

Lemma with_title_snoc : forall t l e, with_title t (l ++ [e]) = with_title t l ++ (if str_eqb (en_title e) t then [e] else []).
Proof. intros t l e. unfold with_title. rewrite filter_app. cbn. destruct (str_eqb (en_title e) t); reflexivity. Qed.

Lemma add_help_new : forall s a b l, ~ In s (map fst l) -> add_help_text s a b l = l ++ [(s, [(a, b)])].
Proof.
  intros s a b. induction l as [|(t & x) l IH]; intros H; [reflexivity|]. cbn [add_help_text app].
  destruct (str_eqb t s) eqn:E.
  - apply str_eqb_eq in E. subst t. exfalso. apply H. left. reflexivity.
  - rewrite IH; [reflexivity|]. intros X. apply H. right. exact X.
Qed.

Lemma add_help_old : forall s a b (g : str -> list (str * str)) l, NoDup l -> In s l ->
  add_help_text s a b (map (fun t => (t, g t)) l) = map (fun t => (t, g t ++ (if str_eqb s t then [(a, b)] else []))) l.
Proof.
  intros s a b g. induction l as [|t l IH]; intros D H; [destruct H|]. cbn [map add_help_text].
  inversion D as [|? ? D1 D2]; subst. destruct (str_eqb t s) eqn:E.
  - apply str_eqb_eq in E. subst t. rewrite str_eqb_refl. f_equal. apply map_ext_in. intros u Hu.
    destruct (str_eqb s u) eqn:Eu; [apply str_eqb_eq in Eu; subst u; contradiction|]. rewrite app_nil_r. reflexivity.
  - assert (E2 : str_eqb s t = false).
    { destruct (str_eqb s t) eqn:E2; [|reflexivity]. apply str_eqb_eq in E2. subst t. rewrite str_eqb_refl in E. discriminate. }
    rewrite E2, app_nil_r. f_equal. apply IH; [exact D2|]. destruct H as [H|H]; [|exact H]. subst t. rewrite str_eqb_refl in E. discriminate.
Qed.

Lemma existsb_str_in : forall x l, existsb (str_eqb x) l = true <-> In x l.
Proof.
  intros x l. rewrite existsb_exists. split.
  - intros (y & H & E). apply str_eqb_eq in E. subst y. exact H.
  - intros H. exists x. split; [exact H|apply str_eqb_refl].
Qed.

Lemma group_snoc : forall l e, group (l ++ [e]) = add_help_text (en_title e) (en_label e) (en_text e) (group l).
Proof.
  intros l e. unfold group, titles. rewrite map_app. cbn [map]. rewrite distinct_snoc.
  destruct (existsb (str_eqb (en_title e)) (map en_title l)) eqn:E.
  - apply existsb_str_in in E.
    rewrite add_help_old; [|apply distinct_nodup|apply distinct_in; exact E].
    apply map_ext_in. intros t _. rewrite with_title_snoc, map_app. destruct (str_eqb (en_title e) t); reflexivity.
  - assert (Ni : ~ In (en_title e) (map en_title l)) by (intros X; apply existsb_str_in in X; congruence).
    rewrite add_help_new.
    + rewrite map_app. cbn [map]. f_equal.
      * apply map_ext_in. intros t Ht. rewrite with_title_snoc. destruct (str_eqb (en_title e) t) eqn:Et.
        -- apply str_eqb_eq in Et. subst t. apply (proj1 (distinct_in _ _)) in Ht. contradiction.
        -- rewrite app_nil_r. reflexivity.
      * rewrite with_title_snoc, str_eqb_refl. 
        assert (Ew : with_title (en_title e) l = []).
        { unfold with_title. destruct (filter (fun e0 => str_eqb (en_title e0) (en_title e)) l) as [|x r] eqn:Ef; [reflexivity|].
          exfalso. assert (Hx : In x (filter (fun e0 => str_eqb (en_title e0) (en_title e)) l)) by (rewrite Ef; left; reflexivity).
          apply filter_In in Hx. destruct Hx as (Hx & Ex). apply str_eqb_eq in Ex. apply Ni. rewrite <- Ex. apply in_map. exact Hx. }
        rewrite Ew. reflexivity.
    + rewrite map_map. cbn [fst]. rewrite map_id. intros X. apply (proj1 (distinct_in _ _)) in X. contradiction.
Qed.

Definition add_entry (s : list section_texts) (e : entry) := add_help_text (en_title e) (en_label e) (en_text e) s.

Lemma group_fold : forall l l0, fold_left add_entry l (group l0) = group (l0 ++ l).
Proof.
  induction l as [|e l IH]; intros l0; [rewrite app_nil_r; reflexivity|]. cbn [fold_left].
  unfold add_entry at 2. rewrite <- group_snoc, IH, <- app_assoc. reflexivity.
Qed.

Lemma fold_visible : forall A (v : A -> bool) (h : A -> entry) (g : list section_texts -> A -> list section_texts) l s,
  (forall s x, In x l -> g s x = if negb (v x) then s else add_entry s (h x)) ->
  fold_left g l s = fold_left add_entry (map h (filter v l)) s.
Proof.
  intros A v h g. induction l as [|x l IH]; intros s H; [reflexivity|]. cbn [fold_left filter].
  rewrite (H s x (or_introl eq_refl)). rewrite IH by (intros s' y Hy; apply H; right; exact Hy).
  destruct (v x); reflexivity.
Qed.

Lemma or_title_eq : forall s t, section_or s t = or_title s t.
Proof. intros [|c s] t; reflexivity. Qed.

Lemma sections_group : forall c, shapes_ok c -> add_options c (add_commands c (add_arguments c [])) = group (entries c).
Proof.
  intros c (Ha & Ho). unfold add_options, add_commands, add_arguments, get_custom_text.
  change (@nil section_texts) with (group []).
  rewrite (fold_visible arg_data (fun a => vis_text (a_visibility a)) (fun a => mk_entry
         (or_title (a_section a) (or_text (find_text (c_texts c) TX_ARGUMENTS_TITLE) ($"ARGUMENTS")))
         (argument_label a) (a_help a))).
  2:{ intros s a Hin. unfold add_entry. cbn [en_title en_label en_text]. rewrite argument_name, or_title_eq by auto. reflexivity. }
  fold (argument_entries c). rewrite group_fold. cbn [app].
  rewrite (fold_visible cmd_data (fun d => vis_text (c_visibility d)) (fun d => mk_entry
         (or_title (c_section d) (or_text (find_text (c_texts c) TX_SUBCOMMANDS_TITLE) ($"COMMANDS")))
         (c_name d) (or_text (find_text (c_texts d) TX_HELP) []))).
  2:{ intros s d Hin. unfold add_entry. cbn [en_title en_label en_text]. rewrite or_title_eq. reflexivity. }
  fold (command_entries c). rewrite group_fold.
  rewrite (fold_visible opt_data (fun o => vis_text (o_visibility o)) (fun o => mk_entry
         (or_title (o_section o) (or_text (find_text (c_texts c) TX_OPTIONS_TITLE) ($"OPTIONS")))
         (option_label o) (o_help o))).
  2:{ intros s o Hin. unfold add_entry. cbn [en_title en_label en_text]. rewrite long_name, or_title_eq by auto. reflexivity. }
  fold (option_entries c). rewrite group_fold. unfold entries. rewrite <- app_assoc. reflexivity.
Qed.

Lemma list_max_incl : forall l1 l2, incl l1 l2 -> list_max l1 <= list_max l2.
Proof.
  intros l1 l2 H. apply list_max_le, Forall_forall. intros x Hx. apply H in Hx.
  assert (X : list_max l2 <= list_max l2) by lia. apply list_max_le in X. rewrite Forall_forall in X. apply X. exact Hx.
Qed.

Lemma group_texts : forall l x, In x (concat (map snd (group l))) <-> In x (map (fun e => (en_label e, en_text e)) l).
Proof.
  intros l x. unfold group. rewrite map_map. cbn [snd]. rewrite in_concat. split.
  - intros (y & Hy & Hx). apply in_map_iff in Hy. destruct Hy as (t & <- & _). apply in_map_iff in Hx.
    destruct Hx as (e & <- & He). apply filter_In in He. apply in_map_iff. exists e. tauto.
  - intros Hx. apply in_map_iff in Hx. destruct Hx as (e & <- & He).
    exists (map (fun e => (en_label e, en_text e)) (with_title (en_title e) l)). split.
    + apply in_map_iff. exists (en_title e). split; [reflexivity|]. apply distinct_in, in_map, He.
    + apply in_map_iff. exists e. split; [reflexivity|]. apply filter_In. split; [exact He|apply str_eqb_refl].
Qed.

Lemma group_max : forall l (g : str * str -> nat),
  list_max (map g (concat (map snd (group l)))) = list_max (map (fun e => g (en_label e, en_text e)) l).
Proof.
  intros l g. apply Nat.le_antisymm; apply list_max_incl; intros x Hx; apply in_map_iff in Hx.
  - destruct Hx as (y & <- & Hy). apply group_texts in Hy. apply in_map_iff in Hy. destruct Hy as (e & <- & He).
    apply in_map_iff. exists e. auto.
  - destruct Hx as (e & <- & He). apply in_map_iff. exists (en_label e, en_text e). split; [reflexivity|].
    apply group_texts, in_map_iff. exists e. auto.
Qed.

Lemma label_width_eq : forall W l, get_help_text_label_width W (group l) = if side_by_side W l then label_column l else 0.
Proof.
  intros W l. unfold get_help_text_label_width, side_by_side. rewrite !group_max. cbn [fst snd].
  fold (longest en_label l) (longest en_text l). fold (label_column l). cbv zeta.
  destruct (Nat.ltb_spec 32 (label_column l)), (Nat.leb_spec (label_column l) 32); try lia; [reflexivity|].
  destruct (Nat.ltb_spec W (label_column l + longest en_text l)), (Nat.leb_spec (label_column l + longest en_text l) W); try lia; reflexivity.
Qed.

Section Render2.
Variable glue : Prop.
Variable W : nat.
Hypothesis HW : 2 < W.

Lemma renders_argument_sections : forall c b, shapes_ok c ->
  renders glue W (pre b (section_blocks W (entries c))) (write_argument_sections c b).
Proof.
  intros c b Hs. unfold write_argument_sections. rewrite (sections_group c Hs).
  unfold section_blocks. set (l := entries c).
  assert (Eb : map (section_pieces (side_by_side W l) l) (titles l) =
    map (fun s => [Words (fst s); EndLine] ++
      concat (map (fun x => entry_pieces (negb (get_help_text_label_width W (group l) =? 0)) (mk_entry [] (fst x) (snd x))) (snd s))) (group l)).
  { rewrite label_width_eq. unfold group. rewrite map_map. apply map_ext. intros t. cbn [fst snd]. unfold section_pieces. f_equal.
    rewrite map_map. cbn [fst snd]. f_equal. apply map_ext. intros e. unfold entry_pieces. cbn [en_label en_text].
    assert (X : negb ((if side_by_side W l then label_column l else 0) =? 0) = side_by_side W l).
    { destruct (side_by_side W l); [|reflexivity]. unfold label_column. destruct (longest en_label l + 3) eqn:E; [lia|reflexivity]. }
    rewrite X. reflexivity. }
  rewrite Eb. destruct (is_empty (group l)) eqn:Ee.
  - apply is_empty_true in Ee. rewrite Ee. apply renders_skip.
  - intros n t f S0 M. assert (Ew : w_line_width (f_writer f) = W) by (destruct S0 as ([_ _ _ X _] & _); exact X).
    rewrite Ew. apply renders_sections; [exact HW| |exact S0|exact M].
    intros s x Hs' Hx Nx. rewrite label_width_eq. destruct (side_by_side W l) eqn:Es; [|lia].
    unfold side_by_side in Es. apply andb_true_iff in Es. destruct Es as (_ & Es). apply Nat.leb_le in Es.
    assert (0 < longest en_text l); [|lia].
    assert (Hin : In x (concat (map snd (group l)))) by (apply in_concat; exists (snd s); split; [apply in_map; exact Hs'|exact Hx]).
    apply group_texts in Hin. apply in_map_iff in Hin. destruct Hin as (e & <- & He). cbn [snd] in Nx.
    assert (X : longest en_text l <= longest en_text l) by lia. unfold longest in X at 1. apply list_max_le in X.
    rewrite Forall_forall in X. specialize (X (length (en_text e)) ltac:(apply in_map_iff; exists e; auto)).
    destruct (en_text e); [congruence|]. simpl in X. lia.
Qed.

Lemma no_text_block : forall t, negb (no_text t) = negb (is_empty (text_block t)).
Proof. intros [[|c s]|]; reflexivity. Qed.

Lemma usage_result_block : forall c, usage_result c = negb (is_empty (usage_block W c)).
Proof.
  intros c. unfold usage_result, usage_block, get_custom_text. destruct (find_text (c_texts c) TX_USAGE) as [[|x s]|]; try reflexivity.
  rewrite orb_true_r. reflexivity.
Qed.

Lemma renders_help : forall c, labels_ok c -> shapes_ok c ->
  renders glue W (help_doc W c) (
    let newline0 := negb (no_text (get_custom_text c TX_INITIAL_TEXT)) in
    let newline1 := usage_result c || newline0 in
    let about := negb (no_text (get_custom_text c TX_ABOUT)) in
    let help := negb (no_text (get_custom_text c TX_HELP)) in
    let newline2 := about || help || newline1 in
    write_custom_text c TX_INITIAL_TEXT false ;>
    write_usage c newline0 ;>
    write_custom_text c TX_ABOUT newline1 ;>
    when (negb about) (write_custom_text c TX_HELP newline1) ;>
    write_argument_sections c newline2 ;>
    write_custom_text c TX_FINAL_TEXT true).
Proof.
  intros c Hl Hs. cbv zeta. unfold help_doc. rewrite <- pre_false, <- pre_true.
  rewrite !no_text_block, usage_result_block. unfold get_custom_text.
  set (B1 := text_block (find_text (c_texts c) TX_INITIAL_TEXT)).
  set (B2 := usage_block W c).
  set (A := text_block (find_text (c_texts c) TX_ABOUT)). set (H := text_block (find_text (c_texts c) TX_HELP)).
  assert (Ea : about_block c = match A with [] => H | _ :: _ => A end) by (unfold about_block; fold A H; destruct A; reflexivity).
  rewrite Ea. rewrite !pre_app, <- !app_assoc. cbn [orb].
  apply renders_then; [apply renders_custom|].
  apply renders_then; [apply renders_write_usage; assumption|].
  assert (En : negb (is_empty B1) || negb (is_empty B2) = negb (is_empty B2) || negb (is_empty B1)) by apply orb_comm.
  rewrite En. set (n1 := negb (is_empty B2) || negb (is_empty B1)).
  destruct A as [|a A'] eqn:EA; cbn [is_empty negb when orb].
  - pose proof (renders_custom glue W c TX_ABOUT n1) as HA. fold A in HA. rewrite EA in HA.
    apply (renders_nil_then glue W _ _ _ HA).
    apply renders_then; [apply renders_custom|].
    rewrite orb_comm. apply renders_then; [apply renders_argument_sections; exact Hs|apply renders_custom].
  - pose proof (renders_custom glue W c TX_ABOUT n1) as HA. fold A in HA. rewrite EA in HA.
    apply renders_then; [exact HA|]. apply renders_skip_l. rewrite orb_true_r.
    apply renders_then; [apply renders_argument_sections; exact Hs|apply renders_custom].
Qed.

Lemma renders_error : forall c msg, labels_ok c -> shapes_ok c ->
  renders glue W (error_doc W c msg) (
    write_words (c_full_name c ++ $": ") ;> write_words msg ;> new_line ;>
    write_custom_text c TX_ERROR_USAGE false ;>
    match get_custom_text c TX_ERROR_USAGE with
    | Some _ => skip
    | None => write_usage c false
    end).
Proof.
  intros c msg Hl Hs. unfold error_doc.
  set (rest := write_custom_text c TX_ERROR_USAGE false ;>
    match get_custom_text c TX_ERROR_USAGE with Some _ => skip | None => write_usage c false end).
  apply (renders_ext glue W _ _ (((write_words (c_full_name c ++ $": ") ;> write_words msg) ;> new_line) ;> rest)).
  { intros f. rewrite !then_assoc. reflexivity. }
  apply renders_then.
  - apply (renders_line glue W [Words (c_full_name c ++ $": "); Words msg]).
    apply (continues_then glue W [Words (c_full_name c ++ $": ")] [Words msg]); apply continues_words.
  - unfold rest. pose proof (renders_custom glue W c TX_ERROR_USAGE false) as H. unfold get_custom_text.
    destruct (find_text (c_texts c) TX_ERROR_USAGE) as [s|].
    + apply renders_skip_r. rewrite pre_false in H. destruct s; exact H.
    + apply (renders_nil_then glue W _ _ _ H).
      assert (E : concat (usage_block W c) = pre false (usage_block W c)).
      { unfold usage_block. destruct (find_text (c_texts c) TX_USAGE) as [[|x s]|]; cbn [concat pre nl map app]; reflexivity. }
      rewrite E. apply renders_write_usage; assumption.
Qed.
End Render2.

(** ** The formatter that is used *)

Lemma help_formatter_start : forall glue console d, help_ok console d -> exists f, help_formatter console d = TOk f /\
  sinv glue (help_width console d) 0 [] f.
Proof.
  intros glue console d (Hc & Hw & Hu & Hr). unfold help_formatter, help_width in *.
  unfold new_formatter. destruct (Nat.leb_spec console 2); [lia|]. cbn [tbind].
  set (f0 := mk_fmt _ _ _ _).
  assert (X : exists f1, (if (d_line_width d =? 0)%N then TOk f0 else set_line_width (N.to_nat (d_line_width d)) f0) = TOk f1 /\
    f1 = on_writer (fun w => mk_writer [] [] (if (d_line_width d =? 0)%N then console else N.to_nat (d_line_width d)) 0 0 0) f0).
  { destruct (d_line_width d =? 0)%N; [exists f0; auto|]. unfold set_line_width.
    destruct (Nat.leb_spec (N.to_nat (d_line_width d)) 2); [lia|]. eexists. split; reflexivity. }
  destruct X as (f1 & -> & ->). cbn [tbind].
  destruct (proj1 (add_words_proof (d_word_rules d) []) Hr) as (m & Em).
  change (f_rules (on_writer ?g f0)) with (@nil (str * list split_point)) || idtac.
  match goal with |- context [add_words ?r _] => change r with (f_rules f0) end. cbn [f0 f_rules]. rewrite Em. cbn [tbind].
  eexists. split; [reflexivity|]. split; [|reflexivity]. constructor.
  - exists Gap. constructor; cbn.
    + constructor; cbn; try discriminate; auto; [apply lay_nil|left; reflexivity].
    + exists (d_word_rules d). auto.
    + discriminate.
    + intros n l X. injection X as <- _. reflexivity.
    + intros X. exfalso. exact (no_align_none X).
    + intros [X|X]; discriminate.
  - apply no_align_none.
  - cbn. lia.
  - reflexivity.
  - intros _. reflexivity.
Qed.
