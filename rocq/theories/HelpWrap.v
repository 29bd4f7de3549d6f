(** Proofs about help texts with line breaks (C79). *)
From Verif Require Import Base BaseProofs MStrings MData MText MHelp SStrings SText SFormat SWrap SHelp SHelpWrap StrProofs
  SplitProofs RuleProofs PlaceProofs TextProofs LayoutProofs LayoutProofs2 WidthProofs IndentProofs TextApi
  WrapProofs WrapProofs2 WrapProofs3 HelpProofs HelpProofs2 HelpProofs3 HelpExact.
Open Scope nat_scope.

Section Help.
Variables (rules : list str) (width : nat).
Hypothesis HU : utf8_rules rules.
Hypothesis HT : trimmed_rules rules.

Notation at_start := (WrapProofs2.at_start rules width).

(** ** Between the calls *)

Record idle (base : nat) (stack : list nat) (f : formatter) : Prop := mk_idle {
  id_rules : add_words [] rules = TOk (f_rules f);
  id_state : f_state f = NO_ALIGNMENT;
  id_indents : f_indents f = base :: stack;
  id_indent : w_indent (f_writer f) = base;
  id_width : w_line_width (f_writer f) = width
}.

Lemma start_idle : forall base stack f, at_start base stack f -> idle base stack f.
Proof.
  intros base stack f [H1 H2 H3 H4]. constructor; try assumption.
  - exact (rd_indent _ _ _ _ _ _ H4).
  - exact (rd_width _ _ _ _ _ _ H4).
Qed.

Lemma idle_newline : forall base stack f, idle base stack f ->
  exists f', new_line f = TOk f' /\ at_start base stack f' /\ fshown f' = fshown f ++ [c_lf].
Proof.
  intros base stack f [H1 H2 H3 H4 H5]. exists (newline f). split; [reflexivity|].
  destruct (next_ready _ _ _ H5 H4) as (Rn & Sn). split; [constructor; assumption|exact Sn].
Qed.

Lemma start_push : forall base stack f n, at_start base stack f -> n < width ->
  exists f', push (Some n) f = TOk f' /\ at_start n (base :: stack) f' /\ fshown f' = fshown f.
Proof.
  intros base stack f n [H1 H2 H3 H4] L. exists (push_indentation (Some n) f). split; [reflexivity|].
  pose proof (rd_width _ _ _ _ _ _ H4) as R1. pose proof (rd_col _ _ _ _ _ _ H4) as R2.
  destruct (rd_fresh _ _ _ _ _ _ H4 eq_refl) as (R3 & R4 & _ & _).
  unfold fshown, wshown. cbn. unfold set_indentation. rewrite R1. destruct (Nat.leb_spec width n) as [X|_]; [lia|].
  split; [|reflexivity]. constructor; cbn; try assumption.
  - rewrite H3. reflexivity.
  - unfold set_indentation. rewrite R1. destruct (Nat.leb_spec width n) as [X|_]; [lia|].
    constructor; cbn; try assumption; try reflexivity; try discriminate.
    + unfold current_width. cbn. rewrite R2, R4. lia.
    + auto.
Qed.

Lemma pop_put : forall x base stack f, f_indents f = x :: base :: stack -> base < width ->
  w_line_width (f_writer f) = width ->
  exists f', pop_indentation f = TOk f' /\ f_rules f' = f_rules f /\ f_state f' = f_state f /\ f_indents f' = base :: stack /\
    w_indent (f_writer f') = base /\ w_line_width (f_writer f') = width /\ w_line (f_writer f') = w_line (f_writer f) /\
    w_current (f_writer f') = w_current (f_writer f) /\ w_spaces (f_writer f') = w_spaces (f_writer f) /\
    fshown f' = fshown f.
Proof.
  intros x base stack f E L W. unfold pop_indentation. rewrite E. eexists. split; [reflexivity|].
  unfold fshown, wshown. cbn. unfold set_indentation. rewrite W.
  destruct (Nat.leb_spec width base) as [X|_]; [lia|]. cbn. auto 10.
Qed.

Lemma start_pop : forall x base stack f, at_start x (base :: stack) f -> base < width ->
  exists f', pop_indentation f = TOk f' /\ at_start base stack f' /\ fshown f' = fshown f.
Proof.
  intros x base stack f [H1 H2 H3 H4] L.
  destruct (pop_put x base stack f H3 L (rd_width _ _ _ _ _ _ H4)) as (f' & E & P1 & P2 & P3 & P4 & P5 & P6 & P7 & P8 & P9).
  destruct (rd_fresh _ _ _ _ _ _ H4 eq_refl) as (R3 & R4 & _ & _). pose proof (rd_col _ _ _ _ _ _ H4) as R2.
  exists f'. split; [exact E|]. split; [|exact P9]. constructor; try congruence.
  constructor; try congruence; try discriminate.
  - unfold current_width. rewrite P4, P7, P8, R2, R4. lia.
  - intros _. rewrite P6, P8. auto.
Qed.

Lemma idle_pop : forall x base stack f, idle x (base :: stack) f -> base < width ->
  exists f', pop_indentation f = TOk f' /\ idle base stack f' /\ fshown f' = fshown f.
Proof.
  intros x base stack f [H1 H2 H3 H4 H5] L.
  destruct (pop_put x base stack f H3 L H5) as (f' & E & P1 & P2 & P3 & P4 & P5 & P6 & P7 & P8 & P9).
  exists f'. split; [exact E|]. split; [|exact P9]. constructor; congruence.
Qed.

(** ** Parts *)

Definition lays (n : nat) (p : printed) (k : fstep) : Prop := forall stack f, at_start n stack f ->
  exists f' out, k f = TOk f' /\ at_start n stack f' /\ p out /\ fshown f' = fshown f ++ out.

Lemma lays_ext : forall n p k k', (forall f, k f = k' f) -> lays n p k' -> lays n p k.
Proof. intros n p k k' E H stack f HF. rewrite E. apply H. exact HF. Qed.

Lemma lays_skip : forall n, lays n nothing skip.
Proof. intros n stack f HF. exists f, []. split; [reflexivity|]. split; [exact HF|]. split; [reflexivity|symmetry; apply app_nil_r]. Qed.

Lemma lays_then : forall n p q k1 k2, lays n p k1 -> lays n q k2 -> lays n (followed p q) (k1 ;> k2).
Proof.
  intros n p q k1 k2 H1 H2 stack f HF. destruct (H1 stack f HF) as (f1 & a & E1 & A1 & P1 & S1).
  destruct (H2 stack f1 A1) as (f2 & b & E2 & A2 & P2 & S2). exists f2, (a ++ b).
  split; [unfold then_; rewrite E1; exact E2|]. split; [exact A2|]. split; [exists a, b; auto|].
  rewrite S2, S1, app_assoc. reflexivity.
Qed.

Lemma lays_imp : forall n (p q : printed) k, (forall out, p out -> q out) -> lays n p k -> lays n q k.
Proof.
  intros n p q k HI H stack f HF. destruct (H stack f HF) as (f1 & a & E1 & A1 & P1 & S1). exists f1, a. auto.
Qed.

Lemma in_order_app : forall l1 l2 out, followed (in_order l1) (in_order l2) out <-> in_order (l1 ++ l2) out.
Proof.
  induction l1 as [|p l1 IH]; intros l2 out; cbn [app in_order fold_right].
  - split.
    + intros (a & b & -> & Hb & ->). exact Hb.
    + intros H. exists [], out. split; [reflexivity|]. auto.
  - split.
    + intros (a & b & (a1 & a2 & P1 & P2 & ->) & Hb & ->). exists a1, (a2 ++ b). split; [exact P1|]. split; [|apply app_assoc_reverse].
      apply IH. exists a2, b. auto.
    + intros (a & b & Pa & Pb & ->). apply IH in Pb. destruct Pb as (b1 & b2 & P1 & P2 & ->).
      exists (a ++ b1), b2. split; [exists a, b1; auto|]. split; [exact P2|apply app_assoc].
Qed.

Lemma in_order_one : forall p out, p out <-> in_order [p] out.
Proof.
  intros p out. cbn. split.
  - intros H. exists out, []. split; [exact H|]. split; [reflexivity|symmetry; apply app_nil_r].
  - intros (a & b & H & -> & ->). rewrite app_nil_r. exact H.
Qed.

Lemma lays_app : forall n l1 l2 k1 k2, lays n (in_order l1) k1 -> lays n (in_order l2) k2 -> lays n (in_order (l1 ++ l2)) (k1 ;> k2).
Proof.
  intros n l1 l2 k1 k2 H1 H2. eapply lays_imp; [|apply lays_then; [exact H1|exact H2]].
  intros out. apply in_order_app.
Qed.

Lemma lays_one : forall n p k, lays n p k -> lays n (in_order [p]) k.
Proof. intros n p k. apply lays_imp. intros out. apply in_order_one. Qed.

Lemma lays_for : forall n A (p : A -> printed) (g : A -> fstep) l, (forall x, In x l -> lays n (p x) (g x)) ->
  lays n (in_order (map p l)) (for_each g l).
Proof.
  intros n A p g l H. induction l as [|x l IH]; [apply lays_skip|]. cbn [map for_each in_order fold_right].
  apply lays_then; [apply H; left; reflexivity|]. apply IH. intros y Hy. apply H. right. exact Hy.
Qed.

Lemma lays_newline : forall n, lays n empty_line new_line.
Proof.
  intros n stack f HF. destruct (idle_newline _ _ _ (start_idle _ _ _ HF)) as (f' & E & A & Sh).
  exists f', [c_lf]. split; [exact E|]. split; [exact A|]. split; [reflexivity|exact Sh].
Qed.

Definition nl (b : bool) : list printed := if b then [empty_line] else [].
Lemma lays_when_nl : forall n b, lays n (in_order (nl b)) (when b new_line).
Proof. intros n [|]; [apply lays_one, lays_newline|apply lays_skip]. Qed.

Lemma lays_skip_r : forall n p k, lays n p k -> lays n p (k ;> skip).
Proof.
  intros n p k H stack f HF. destruct (H stack f HF) as (f1 & a & E1 & R). exists f1, a. split; [|exact R].
  unfold then_. rewrite E1. reflexivity.
Qed.

Lemma lays_indented : forall n i p k, n < width -> i < width -> lays i p k -> lays n p (push (Some i) ;> k ;> pop_indentation).
Proof.
  intros n i p k Ln Li H stack f HF. destruct (start_push _ _ _ i HF Li) as (f1 & E1 & A1 & S1).
  destruct (H _ _ A1) as (f2 & out & E2 & A2 & P2 & S2). destruct (start_pop _ _ _ _ A2 Ln) as (f3 & E3 & A3 & S3).
  exists f3, out. split; [unfold then_; rewrite E1; cbn [tbind]; rewrite E2; exact E3|]. split; [exact A3|]. split; [exact P2|].
  rewrite S3, S2, S1. reflexivity.
Qed.

(** ** Texts *)

Lemma text_put_last : forall base stack, base < width -> forall ls f, at_start base stack f -> ls <> [] -> (forall l, In l ls -> good_line l) ->
  exists f' out, write_words (text_of ls) f = TOk f' /\ put_text rules width base ls out /\
    fshown f' = fshown f ++ out /\ idle base stack f' /\
    (if ends_empty ls then at_start base stack f' else w_line (f_writer f') <> []).
Proof.
  intros base stack HB. induction ls as [|l ls IH]; intros f HS Nl HG; [congruence|].
  assert (Gl := HG l (or_introl eq_refl)).
  destruct ls as [|l' ls].
  - destruct l as [|lead marker word more].
    + exists f, []. unfold ends_empty. cbn [last text_of line_text]. split.
      { change (write_words [] f) with (end_alignment f). unfold end_alignment. rewrite (as_state _ _ _ _ _ HS). reflexivity. }
      split; [constructor; constructor|]. split; [symmetry; apply app_nil_r|]. split; [apply start_idle, HS|exact HS].
    + cbn [text_of]. set (l := Line lead marker word more) in *. rewrite <- (app_nil_r (line_text l)).
      destruct (line_put rules width base stack HU HT HB l f [] HS Gl (or_introl eq_refl)) as (f1 & out & -> & P & Sh & AE & Nn).
      destruct (end_put rules width base stack HB f1 AE) as (f2 & E2 & Sh2 & El & H1 & H2 & H3 & H4 & H5).
      exists f2, out. split; [exact E2|].
      split; [constructor; exact P|]. split; [rewrite Sh2; exact Sh|]. split; [constructor; assumption|].
      change (ends_empty [l]) with false. cbn iota. rewrite El. apply Nn. discriminate.
  - change (text_of (l :: l' :: ls)) with (line_text l ++ c_lf :: text_of (l' :: ls)).
    destruct (line_put rules width base stack HU HT HB l f (c_lf :: text_of (l' :: ls)) HS Gl) as (f1 & out & -> & P & Sh & AE & _).
    { right. exists c_lf, (text_of (l' :: ls)). split; reflexivity. }
    destruct (newline_put rules width base stack HB (text_of (l' :: ls)) f1 AE) as (f2 & -> & AS & Sh2).
    destruct (IH f2 AS) as (f3 & out' & -> & P' & Sh3 & H4 & H5); [discriminate|intros x Hx; apply HG; right; exact Hx|].
    exists f3, (out ++ c_lf :: out'). split; [reflexivity|]. split; [constructor; assumption|].
    split; [rewrite Sh3, Sh2, Sh, <- !app_assoc; reflexivity|]. split; [exact H4|].
    change (ends_empty (l :: l' :: ls)) with (ends_empty (l' :: ls)). exact H5.
Qed.

Lemma good_put : forall base stack s ls f, base < width -> at_start base stack f -> text_lines s ls ->
  exists f' out, write_words s f = TOk f' /\ put_text rules width base ls out /\
    fshown f' = fshown f ++ out /\ idle base stack f' /\
    (if ends_empty ls then at_start base stack f' else w_line (f_writer f') <> []).
Proof.
  intros base stack s ls f HB HS (Nl & HG & Eu). rewrite <- unix_proof, Eu. apply text_put_last; assumption.
Qed.

Lemma lays_text : forall s, 0 < width -> good_text s -> lays 0 (text_printed rules width s) (write_words s ;> end_line).
Proof.
  intros s HW (ls & HL) stack f HF. destruct (good_put 0 stack s ls f HW HF HL) as (f1 & out & E1 & P1 & S1 & I1 & X).
  unfold then_. rewrite E1. cbn [tbind]. unfold end_line. destruct (ends_empty ls) eqn:EE.
  - destruct (rd_fresh _ _ _ _ _ _ (as_writer _ _ _ _ _ X) eq_refl) as (R3 & _). unfold is_line_empty. rewrite R3.
    exists f1, out. split; [reflexivity|]. split; [exact X|]. split; [|exact S1].
    exists ls, out. split; [exact HL|]. split; [exact P1|]. rewrite EE. symmetry. apply app_nil_r.
  - assert (E : is_line_empty (f_writer f1) = false) by (apply is_empty_false; exact X). rewrite E.
    destruct (idle_newline _ _ _ I1) as (f2 & E2 & A2 & S2). exists f2, (out ++ [c_lf]). split; [exact E2|]. split; [exact A2|].
    split; [|rewrite S2, S1, app_assoc; reflexivity]. exists ls, out. split; [exact HL|]. split; [exact P1|]. rewrite EE. reflexivity.
Qed.

Lemma lays_title : forall s, 0 < width -> good_text s -> lays 0 (title_printed rules width s) (write_words s ;> new_line).
Proof.
  intros s HW (ls & HL) stack f HF. destruct (good_put 0 stack s ls f HW HF HL) as (f1 & out & E1 & P1 & S1 & I1 & _).
  unfold then_. rewrite E1. cbn [tbind].
  destruct (idle_newline _ _ _ I1) as (f2 & E2 & A2 & S2). exists f2, (out ++ [c_lf]). split; [exact E2|]. split; [exact A2|].
  split; [|rewrite S2, S1, app_assoc; reflexivity]. exists ls, out. auto.
Qed.

(** ** Names *)

Record open (base : nat) (stack : list nat) (e : nat) (f : formatter) : Prop := mk_open {
  op_idle : idle base stack f;
  op_writer : stopped width base e (f_writer f)
}.

Lemma end_open : forall base stack e f, base < width -> after_word rules width base stack base e f ->
  exists f', end_alignment f = TOk f' /\ open base stack e f' /\ fshown f' = fshown f.
Proof.
  intros base stack e f HB [H1 H2 H3]. unfold end_alignment. destruct H2 as [(Es & Ei & _)|(Es & x & Ei)]; rewrite Es.
  - exists f. split; [reflexivity|]. split; [|reflexivity]. constructor; [|exact H3]. destruct H3. constructor; assumption.
  - destruct H3 as [S1 S2 S3 S4 S5 S6].
    destruct (pop_put x base stack f Ei HB S1) as (f' & -> & P1 & P2 & P3 & P4 & P5 & P6 & P7 & P8 & P9). cbn [tbind].
    eexists. split; [reflexivity|]. split; [|exact P9]. constructor; cbn.
    + constructor; cbn; congruence.
    + constructor; cbn; congruence.
Qed.

Lemma name_put : forall base stack s f rest, base < width -> at_start base stack f -> good_name s -> starts_white rest ->
  exists f' out e, write_words (s ++ rest) f = write_words rest f' /\ name_printed rules width base s out e /\
    fshown f' = fshown f ++ out /\ after_word rules width base stack base e f'.
Proof.
  intros base stack s f rest HB HF (word & more & HN) HR. pose proof HN as (Es & Gw & Nm & Gm).
  assert (B : begun rules width base stack base f).
  { destruct HF as [H1 H2 H3 H4]. constructor; [exact H1|left; auto|exact H4]. }
  rewrite Es. rewrite <- app_assoc.
  destruct (first_put rules width base stack HU HT base word (more_text more ++ rest) f B Gw Nm (more_white more rest Gm HR))
    as (f1 & o1 & e1 & -> & P1 & S1 & A1).
  destruct (more_put rules width base stack HU HT HB more base e1 f1 rest A1 Gm HR) as (f2 & o2 & e2 & -> & P2 & S2 & A2).
  exists f2, (o1 ++ o2), e2. split; [reflexivity|]. split.
  - exists word, more, o1, e1, o2. rewrite <- Es. auto.
  - split; [|exact A2]. rewrite S2, S1, app_assoc. reflexivity.
Qed.

Lemma name_open : forall base stack s f, base < width -> at_start base stack f -> good_name s ->
  exists f' out e, write_words s f = TOk f' /\ name_printed rules width base s out e /\
    fshown f' = fshown f ++ out /\ open base stack e f'.
Proof.
  intros base stack s f HB HF HN. destruct (name_put base stack s f [] HB HF HN (or_introl eq_refl)) as (f1 & out & e & E1 & P1 & S1 & A1).
  rewrite app_nil_r in E1. destruct (end_open _ _ _ _ HB A1) as (f2 & E2 & O2 & S2).
  exists f2, out, e. split; [rewrite E1; exact E2|]. split; [exact P1|]. split; [rewrite S2; exact S1|exact O2].
Qed.

(** Spaces on a line that is not empty. *)
Lemma blanks_put : forall k f, f_state f = NO_ALIGNMENT -> w_line (f_writer f) <> [] ->
  write_words (blanks (S k)) f = TOk (on_writer (set_spaces (S k)) f).
Proof.
  intros k f Es Nl. rewrite <- (app_nil_r (blanks (S k))).
  rewrite (WrapProofs2.words_step _ TkSpace (blanks (S k)) []); [|discriminate|apply token_spaces2; [lia|discriminate]].
  cbn [write_token]. assert (L : length (blanks (S k)) = S k) by apply repeat_length. rewrite L.
  unfold begin_alignment. assert (E : is_line_empty (f_writer (on_writer (set_spaces (S k)) f)) = false) by (apply is_empty_false; exact Nl).
  rewrite E. cbn [orb]. change (f_state (on_writer (set_spaces (S k)) f)) with (f_state f). rewrite Es. cbn [tbind].
  change (write_words [] (on_writer (set_spaces (S k)) f)) with (end_alignment (on_writer (set_spaces (S k)) f)).
  unfold end_alignment. change (f_state (on_writer (set_spaces (S k)) f)) with (f_state f). rewrite Es. reflexivity.
Qed.

(** ** The words of the usage *)

Record onward (hang col d : nat) (stack : list nat) (f : formatter) : Prop := mk_onward {
  on_rules : add_words [] rules = TOk (f_rules f);
  on_state : f_state f = NO_ALIGNMENT;
  on_indents : f_indents f = stack;
  on_ready : ready width hang false col d (f_writer f)
}.

Definition goes (ws : list (SWrap.gap * str)) (d' : nat) (k : fstep) : Prop := forall hang d stack f col, onward hang col d stack f ->
  exists f' out e, k f = TOk f' /\ put_words rules width hang col (first_gap d ws) out e /\
    fshown f' = fshown f ++ out /\ onward hang e (match ws with [] => d | _ => d' end) stack f'.

Lemma goes_ext : forall ws d k k', (forall f, k f = k' f) -> goes ws d k' -> goes ws d k.
Proof. intros ws d k k' E H hang d0 stack f col HF. rewrite E. apply H. exact HF. Qed.

Lemma goes_skip : forall d, goes [] d skip.
Proof.
  intros d hang d0 stack f col HF. exists f, [], col. split; [reflexivity|]. split; [constructor|].
  split; [symmetry; apply app_nil_r|exact HF].
Qed.

Lemma put_words_app : forall hang l1 l2 col o1 e1 o2 e2, put_words rules width hang col l1 o1 e1 -> put_words rules width hang e1 l2 o2 e2 ->
  put_words rules width hang col (l1 ++ l2) (o1 ++ o2) e2.
Proof.
  intros hang l1 l2 col o1 e1 o2 e2 H1 H2. induction H1 as [|col g w l o e o' e' P _ IH]; [exact H2|].
  cbn [app]. rewrite <- app_assoc. econstructor; [exact P|]. apply IH. exact H2.
Qed.

Lemma goes_then : forall w1 w2 d1 d2 k1 k2, goes w1 d1 k1 -> goes w2 d2 k2 -> first_gap d1 w2 = w2 -> (w2 = [] -> d1 = d2) ->
  goes (w1 ++ w2) d2 (k1 ;> k2).
Proof.
  intros w1 w2 d1 d2 k1 k2 H1 H2 B0 D hang d stack f col HF.
  destruct (H1 hang d stack f col HF) as (f1 & o1 & e1 & E1 & P1 & S1 & A1).
  destruct (H2 hang _ stack f1 e1 A1) as (f2 & o2 & e2 & E2 & P2 & S2 & A2).
  exists f2, (o1 ++ o2), e2. split; [unfold then_; rewrite E1; exact E2|]. split; [|split; [rewrite S2, S1, app_assoc; reflexivity|]].
  - destruct w1 as [|[g w] w1].
    + cbn [app first_gap] in *. inversion P1; subst. exact P2.
    + change (first_gap d (((g, w) :: w1) ++ w2)) with (first_gap d ((g, w) :: w1) ++ w2).
      apply put_words_app with e1; [exact P1|]. rewrite <- B0. exact P2.
  - destruct w1 as [|[g w] w1]; [exact A2|]. destruct w2 as [|[g' w'] w2]; [|exact A2]. cbn [app]. rewrite <- (D eq_refl). exact A2.
Qed.

Lemma onward_append : forall hang col d stack f word n, onward hang col d stack f -> word <> [] -> utf8_text word n ->
  exists f' out e, append_word word f = TOk f' /\ put rules width hang word false col d [] word out e /\
    fshown f' = fshown f ++ out /\ onward hang e 0 stack f' /\ w_spaces (f_writer f') = 0 /\ w_current (f_writer f') = e /\ hang <= e.
Proof.
  intros hang col d stack f word n [H1 H2 H3 H4] Nw U.
  destruct (append_word_put rules width hang word HU HT f false col d n Nw U H1 H4) as (w' & out & e & E & P & Sh & St).
  exists (on_writer (fun _ => w') f), out, e. split; [exact E|]. split; [exact P|]. split; [exact Sh|].
  pose proof St as [S1 S2 S3 S4 S5 S6]. split; [|cbn; auto]. constructor; try assumption. cbn.
  constructor; try assumption; try discriminate.
  - unfold current_width. rewrite S2, S3, S4. lia.
  - intros _. exact S5.
Qed.

Lemma lines_one : forall s f, s <> [] -> (forall c, In c s -> c <> c_lf /\ c <> c_cr) -> write_lines s f = append_word s f.
Proof.
  intros s f Ns H. unfold write_lines. destruct s as [|a s]; [congruence|]. cbn [length lines_loop].
  assert (EN : next_line (a :: s) = TOk (a :: s, [])).
  { unfold next_line. assert (F : find_first_of [c_lf; c_cr] (a :: s) = None).
    { clear Ns. induction (a :: s) as [|b l IH]; [reflexivity|]. cbn [find_first_of existsb].
      destruct (H b (or_introl eq_refl)) as (N1 & N2).
      destruct (Ascii.eqb_spec b c_lf); [congruence|]. destruct (Ascii.eqb_spec b c_cr); [congruence|]. cbn [orb].
      rewrite IH; [reflexivity|]. intros c Hc. apply H. right. exact Hc. }
    rewrite F. reflexivity. }
  rewrite EN. cbn [tbind is_empty negb]. destruct (append_word (a :: s) f) as [f1| | |]; try reflexivity. cbn [tbind].
  assert (EL : lines_loop (length s) [] f1 = TOk f1) by (destruct (length s); reflexivity). rewrite EL. cbn [tbind].
  destruct (last_char (a :: s)) as [c|] eqn:El; [|reflexivity].
  assert (Hc : In c (a :: s)) by (apply last_char_some in El; rewrite El; apply in_or_app; right; left; reflexivity).
  destruct (H c Hc) as (N1 & N2).
  destruct (Ascii.eqb_spec c c_lf); [congruence|]. destruct (Ascii.eqb_spec c c_cr); [congruence|]. reflexivity.
Qed.

Lemma goes_item : forall s, good_label s -> goes [(Spaces 1, s)] 1 (write_lines s ;> write_words ($" ")).
Proof.
  intros s (Ns & Hc & n & U) hang d stack f col HF.
  destruct (onward_append hang col d stack f s n HF Ns U) as (f1 & out & e & E1 & P1 & S1 & [H1 H2 H3 H4] & Z1 & Z2 & Z3).
  unfold then_. rewrite lines_one by assumption. rewrite E1. cbn [tbind].
  change ($" ") with (blanks 1). rewrite blanks_put; [|exact H2|exact (rd_used _ _ _ _ _ _ H4 eq_refl)].
  exists (on_writer (set_spaces 1) f1), (out ++ []), e. split; [reflexivity|]. split; [|split].
  - cbn [first_gap]. econstructor; [exact P1|constructor].
  - rewrite app_nil_r. exact S1.
  - constructor; try assumption. destruct H4 as [R1 R2 R3 R4 R5 R6]. constructor; try assumption; try discriminate.
    unfold current_width in *. cbn. rewrite Z1 in R4. lia.
Qed.

Lemma goes_word : forall g s, good_word s -> goes [(g, s)] 0 (write_words s).
Proof.
  intros g s Gw hang d stack f col HF. pose proof Gw as (Ns & _ & n & U).
  assert (ES : write_words s f = write_words (s ++ []) f) by (rewrite app_nil_r; reflexivity). rewrite ES.
  rewrite good_word_token; [|exact Gw|left; reflexivity].
  rewrite update_used by (exact (rd_used _ _ _ _ _ _ (on_ready _ _ _ _ _ HF) eq_refl)).
  destruct (onward_append hang col d stack f s n HF Ns U) as (f1 & out & e & E1 & P1 & S1 & O1 & _).
  exists f1, (out ++ []), e. rewrite E1. cbn [tbind]. split; [|split; [|split]].
  - change (write_words [] f1) with (end_alignment f1). unfold end_alignment. rewrite (on_state _ _ _ _ _ O1). reflexivity.
  - cbn [first_gap]. econstructor; [exact P1|constructor].
  - rewrite app_nil_r. exact S1.
  - exact O1.
Qed.

Lemma goes_items : forall A (v : A -> bool) (label : A -> str) (g : A -> fstep) l,
  (forall x, In x l -> v x = false -> forall f, g x f = TOk f) ->
  (forall x, In x l -> v x = true -> goes [(Spaces 1, label x)] 1 (g x)) ->
  goes (map (fun s => (Spaces 1, s)) (map label (filter v l))) 1 (for_each g l).
Proof.
  intros A v label g l. induction l as [|x l IH]; intros H0 H1; [apply goes_skip|]. cbn [for_each filter].
  assert (IH' : goes (map (fun s => (Spaces 1, s)) (map label (filter v l))) 1 (for_each g l)).
  { apply IH; intros y Hy; [apply H0|apply H1]; right; exact Hy. }
  destruct (v x) eqn:V.
  - cbn [map]. apply (goes_then [(Spaces 1, label x)] _ 1 1); [apply H1; [left; reflexivity|exact V]|exact IH'| |reflexivity].
    destruct (filter v l); reflexivity.
  - apply (goes_ext _ _ _ (for_each g l)); [|exact IH'].
    intros f. unfold then_. rewrite (H0 x); [reflexivity|left; reflexivity|exact V].
Qed.

(** Words without gaps between them. *)
Definition tight (x : nat) (l : list str) : list (SWrap.gap * str) :=
  match l with
  | [] => []
  | w :: r => (Spaces x, w) :: map (fun w => (Spaces 0, w)) r
  end.

Lemma tight_zero : forall l, tight 0 l = map (fun w => (Spaces 0, w)) l.
Proof. intros [|w l]; reflexivity. Qed.

Lemma tight_first : forall d x l, first_gap d (tight x l) = tight d l.
Proof. intros d x [|w l]; reflexivity. Qed.

Lemma goes_tight : forall x y l d k, goes (tight x l) d k -> goes (tight y l) d k.
Proof.
  intros x y l d k H hang d0 stack f col HF. destruct (H hang d0 stack f col HF) as (f1 & out & e & E & P & Sh & O0).
  exists f1, out, e. rewrite tight_first in *. split; [exact E|]. split; [exact P|]. split; [exact Sh|].
  destruct l; exact O0.
Qed.

Lemma goes_tight_then : forall x a b k1 k2, goes (tight x a) 0 k1 -> goes (tight x b) 0 k2 -> goes (tight x (a ++ b)) 0 (k1 ;> k2).
Proof.
  intros x a b k1 k2 H1 H2. assert (E : tight x (a ++ b) = tight x a ++ match a with [] => tight x b | _ => tight 0 b end).
  { destruct a as [|w a]; [reflexivity|]. rewrite tight_zero. cbn [app tight]. rewrite map_app. reflexivity. }
  destruct a as [|w a].
  - cbn [app]. intros hang d stack f col HF. destruct (H1 hang d stack f col HF) as (f1 & o1 & e1 & E1 & P1 & S1 & A1).
    cbn [tight first_gap] in *. inversion P1; subst. destruct (H2 hang d stack f1 e1 A1) as (f2 & o2 & e2 & E2 & P2 & S2 & A2).
    exists f2, o2, e2. split; [unfold then_; rewrite E1; exact E2|]. split; [exact P2|]. split; [|exact A2].
    rewrite S2, S1, app_nil_r. reflexivity.
  - rewrite E. apply (goes_then _ _ 0 0); [exact H1|apply goes_tight with x; exact H2| |reflexivity].
    apply tight_first.
Qed.

Lemma goes_one : forall x s, good_word s -> goes (tight x [s]) 0 (write_words s).
Proof. intros x s H. apply goes_word. exact H. Qed.

Lemma char_word : forall c, 33 <= nat_of_ascii c <= 126 -> good_word [c].
Proof.
  intros c H. apply bytes_word; [discriminate|]. intros d [<-|[]]. unfold byte_between, nat_of_ascii, u8 in *. lia.
Qed.

Definition named (l : list cmd_data) : list str := map c_name (filter (fun d => vis_usage (c_visibility d)) l).

Lemma goes_names_more : forall l x, (forall d, In d l -> vis_usage (c_visibility d) = true -> good_word (c_name d)) ->
  goes (tight x (concat (map (fun y => [$"|"; y]) (named l)))) 0 (brief_commands_loop false l).
Proof.
  induction l as [|d l IH]; intros x H; [apply goes_skip|]. cbn [brief_commands_loop]. unfold named. cbn [filter].
  assert (IH' := IH x (fun e He => H e (or_intror He))).
  destruct (vis_usage (c_visibility d)) eqn:V; cbn [negb]; [|exact IH'].
  cbn [map concat when]. fold (named l).
  apply (goes_tight_then x [$"|"] ([c_name d] ++ concat (map (fun y => [$"|"; y]) (named l)))); [apply goes_one, char_word; cbv; lia|].
  apply goes_tight_then; [apply goes_one, H; [left; reflexivity|exact V]|exact IH'].
Qed.

Lemma goes_names : forall l x, (forall d, In d l -> vis_usage (c_visibility d) = true -> good_word (c_name d)) ->
  goes (tight x (join [$"|"] (map (fun s => [s]) (named l)))) 0 (brief_commands_loop true l).
Proof.
  induction l as [|d l IH]; intros x H; [apply goes_skip|]. cbn [brief_commands_loop]. unfold named. cbn [filter].
  assert (IH' := IH x (fun e He => H e (or_intror He))).
  destruct (vis_usage (c_visibility d)) eqn:V; cbn [negb]; [|exact IH'].
  cbn [map join when]. apply (goes_ext _ _ _ (write_words (c_name d) ;> brief_commands_loop false l)); [reflexivity|].
  apply goes_tight_then; [apply goes_one, H; [left; reflexivity|exact V]|].
  rewrite map_map. apply (goes_names_more l x). intros e He. apply H. right. exact He.
Qed.

Lemma then_skip : forall k f, (k ;> skip) f = k f.
Proof. intros k f. unfold then_, skip. destruct (k f); reflexivity. Qed.

Lemma goes_commands : forall c, (forall d, In d (c_commands c) -> vis_usage (c_visibility d) = true -> good_word (c_name d)) ->
  goes (command_words c) 0 (write_brief_commands c) /\ first_gap 1 (command_words c) = command_words c.
Proof.
  intros c H. unfold command_words, write_brief_commands. destruct (c_commands c) as [|d0 l0] eqn:Ec.
  { split; [apply goes_skip|reflexivity]. }
  rewrite <- Ec in *. assert (Ee : is_empty (c_commands c) = false) by (rewrite Ec; reflexivity). rewrite Ee.
  clear Ec Ee. assert (EJ : map (fun d => [c_name d]) (usage_commands c) = map (fun s => [s]) (named (c_commands c))).
  { unfold named. rewrite map_map. reflexivity. }
  rewrite EJ. set (names := join [$"|"] (map (fun s => [s]) (named (c_commands c)))).
  set (tokens := match c_require c with Some true => names | _ => [$"["] ++ names ++ [$"]"] end).
  assert (ET : match tokens with [] => [] | w :: l => (Spaces 1, w) :: map (fun w => (Spaces 0, w)) l end = tight 1 tokens) by reflexivity.
  rewrite ET. split; [|apply tight_first].
  assert (GN : forall x, goes (tight x names) 0 (brief_commands_loop true (c_commands c))) by (intros x; apply goes_names, H).
  assert (GB : goes (tight 1 ([$"["] ++ names ++ [$"]"])) 0
    (when true (write_words ($"[")) ;> brief_commands_loop true (c_commands c) ;> when true (write_words ($"]")))).
  { apply goes_tight_then; [apply goes_one, char_word; cbv; lia|].
    apply goes_tight_then; [apply GN|apply goes_one, char_word; cbv; lia]. }
  unfold tokens. destruct (c_require c) as [[|]|]; cbn [negb].
  - apply (goes_ext _ _ _ (brief_commands_loop true (c_commands c))); [|apply GN].
    intros f. change ((skip ;> brief_commands_loop true (c_commands c) ;> skip) f) with ((brief_commands_loop true (c_commands c) ;> skip) f).
    apply then_skip.
  - exact GB.
  - exact GB.
Qed.

(** A line of the usage. *)
Lemma lays_usage_line : forall name ws d k, 2 < width -> good_name name -> goes ws d k ->
  lays 2 (SHelpWrap.usage_line rules width name ws)
    (write_words name ;> write_words ($" ") ;> push None ;> k ;> pop_indentation ;> new_line).
Proof.
  intros name ws d k HW HN HG stack f HF.
  destruct (name_open 2 stack name f HW HF HN) as (f1 & o1 & e & E1 & P1 & S1 & [[I1 I2 I3 I4 I5] [W1 W2 W3 W4 W5 W6]]).
  unfold then_. rewrite E1. cbn [tbind]. change ($" ") with (blanks 1). rewrite blanks_put by assumption. cbn [tbind].
  set (f2 := on_writer (set_spaces 1) f1).
  destruct (push_hung width 2 HW f2 e 1 2) as (Q1 & Q2 & Q3 & Q4 & Q5 & Q6); try assumption.
  { unfold current_width, f2. cbn. rewrite W2, W3. lia. }
  unfold push. cbn [tbind]. set (f3 := push_indentation None f2) in *.
  assert (O3 : onward (hung width 2 (e + 1)) e (hung width 2 (e + 1) - e) (f_indents f3) f3).
  { constructor; [exact I1|exact I2|reflexivity|]. constructor; try assumption; try discriminate.
    - unfold current_width. rewrite Q1, Q3, Q4. lia.
    - intros _. rewrite Q5. exact W5. }
  destruct (HG _ _ _ _ _ O3) as (f4 & o2 & e2 & E4 & P4 & S4 & [A1 A2 A3 A4]). rewrite E4. cbn [tbind].
  assert (EI : f_indents f4 = current_width (f_writer f2) :: 2 :: stack).
  { rewrite A3. change (f_indents f3) with (current_width (f_writer f2) :: f_indents f1). rewrite I3. reflexivity. }
  destruct (pop_put _ 2 stack f4 EI HW (rd_width _ _ _ _ _ _ A4)) as (f5 & -> & R1 & R2 & R3 & R4 & R5 & _ & _ & _ & R9). cbn [tbind].
  assert (I5' : idle 2 stack f5) by (constructor; congruence).
  destruct (idle_newline _ _ _ I5') as (f6 & E6 & A6 & S6). exists f6, (o1 ++ o2 ++ [c_lf]). split; [exact E6|]. split; [exact A6|].
  split.
  - exists o1, e, (hung width 2 (e + 1)), o2, e2. auto.
  - rewrite S6, R9, S4, !app_assoc. f_equal. f_equal. unfold fshown, wshown in *. rewrite Q5, Q6. exact S1.
Qed.

Lemma lays_stop_lines : forall c, 2 < width -> readable_usage c ->
  lays 2 (in_order (map (fun o => SHelpWrap.usage_line rules width (c_full_name c) [(Spaces 1, usage_label o)]) (usage_options true c)))
    (write_stop_and_help_usage c).
Proof.
  intros c HW (Hn & _ & Ho & _). unfold write_stop_and_help_usage, usage_options.
  induction (c_options c) as [|o l IH]; [apply lays_skip|].
  assert (IH' := IH (fun x Hx => Ho x (or_intror Hx))). cbn [filter for_each]. rewrite stops_stop.
  destruct (vis_usage (o_visibility o)) eqn:V; cbn [negb orb andb].
  - destruct (stops o) eqn:So; cbn [Bool.eqb negb].
    + cbn [map]. apply (lays_app 2 [_] (map _ _)); [|exact IH']. apply lays_one.
      pose proof (brief_name o) as Eb. rewrite So in Eb. rewrite Eb.
      apply (lays_ext 2 _ _ (write_words (c_full_name c) ;> write_words ($" ") ;> push None ;> (write_lines (usage_label o) ;> write_words ($" ")) ;>
          pop_indentation ;> new_line)).
      { intros f. apply then_ext. intros f1. apply then_ext. intros f2. apply then_ext. intros f3. symmetry. apply then_assoc. }
      apply lays_usage_line with 1; auto. apply goes_item, Ho; [left; reflexivity|exact V].
    + apply (lays_ext 2 _ _ (for_each (fun o => if negb (vis_usage (o_visibility o)) || negb (is_stop_option (o_type o)) then skip
        else write_words (c_full_name c) ;> write_words ($" ") ;> push None ;>
         write_lines (get_brief_option_name o true) ;> write_words ($" ") ;> pop_indentation ;> new_line) l)); [reflexivity|exact IH'].
  - apply (lays_ext 2 _ _ (for_each (fun o => if negb (vis_usage (o_visibility o)) || negb (is_stop_option (o_type o)) then skip
        else write_words (c_full_name c) ;> write_words ($" ") ;> push None ;>
         write_lines (get_brief_option_name o true) ;> write_words ($" ") ;> pop_indentation ;> new_line) l)); [reflexivity|exact IH'].
Qed.

Lemma lays_usage : forall c b, 2 < width -> shapes_ok c -> readable_usage c ->
  lays 0 (in_order (nl b ++ [usage_printed rules width c])) (write_brief_usage c b).
Proof.
  intros c b HW (Ha & _) Hp. pose proof Hp as (Hn & _ & Ho & Harg & Hc). unfold write_brief_usage.
  apply lays_app; [apply lays_when_nl|]. apply lays_one.
  destruct (goes_commands c Hc) as (Gc & Fc).
  set (k := write_stop_and_help_usage c ;> write_words (c_full_name c) ;> write_words ($" ") ;> push None ;>
    (write_brief_regular_options c ;> write_brief_arguments c ;> write_brief_commands c) ;> pop_indentation ;> new_line).
  apply (lays_ext 0 _ _ (push (Some 2) ;> k ;> pop_indentation)).
  { intros f. unfold k. repeat (rewrite ?then_assoc; apply then_ext; intros ?). rewrite ?then_assoc. reflexivity. }
  apply lays_indented; [lia|lia|]. unfold k. apply lays_app; [apply lays_stop_lines; assumption|]. apply lays_one.
  assert (G1 : goes (map (fun s => (Spaces 1, s)) (map usage_label (usage_options false c))) 1 (write_brief_regular_options c)).
  { unfold write_brief_regular_options, usage_options. apply goes_items.
    - intros o _ V f. rewrite stops_stop. destruct (vis_usage (o_visibility o)); [|reflexivity].
      destruct (stops o); [reflexivity|discriminate V].
    - intros o Hin V. apply andb_true_iff in V. destruct V as (V & V2). pose proof (brief_name o) as Eb. rewrite stops_stop, V.
      destruct (stops o); [discriminate V2|]. rewrite Eb. cbn [negb orb]. apply goes_item, Ho; assumption. }
  assert (G2 : goes (map (fun s => (Spaces 1, s)) (map argument_label (usage_arguments c))) 1 (write_brief_arguments c)).
  { unfold write_brief_arguments, usage_arguments. apply goes_items.
    - intros a _ V f. rewrite V. reflexivity.
    - intros a Hin V. rewrite V. cbn [negb]. rewrite argument_name by (apply Ha; exact Hin). apply goes_item, Harg; assumption. }
  assert (F2 : forall l, first_gap 1 (map (fun s => (Spaces 1, s)) l) = map (fun s => (Spaces 1, s)) l) by (intros [|]; reflexivity).
  unfold usage_words. rewrite map_app, <- app_assoc.
  destruct (command_words c) as [|x cw] eqn:Ew.
  - apply lays_usage_line with 1; auto. apply (goes_then _ _ 1 1); [exact G1| |rewrite app_nil_r; apply F2|reflexivity].
    apply (goes_then _ _ 1 1); [exact G2| |reflexivity|reflexivity].
    intros hang d stack f col HF. exact (Gc hang d stack f col HF).
  - apply lays_usage_line with 0; auto. apply (goes_then _ _ 1 0); [exact G1| | |].
    + apply (goes_then _ _ 1 0); [exact G2|exact Gc|exact Fc|discriminate].
    + destruct (map argument_label (usage_arguments c)); [exact Fc|reflexivity].
    + intros X. apply app_eq_nil in X. destruct X as (_ & X). discriminate X.
Qed.

(** ** Blocks *)

Lemma usage_text : good_text ($"USAGE").
Proof.
  exists [Line None None ($"USAGE") []]. split; [discriminate|]. split; [|reflexivity].
  intros l [<-|[]]. cbn. split; [exact I|]. split; [|split].
  - intros [X|[X|(d & X & Nd & Hd)]]; try discriminate X.
    assert (Y : last_char ($"USAGE") = last_char (d ++ ["."%char])) by (f_equal; exact X). rewrite last_char_app in Y. discriminate Y.
  - apply bytes_word; [discriminate|]. intros c Hc. cbn in Hc. unfold byte_between.
    repeat (destruct Hc as [<-|Hc]; [vm_compute; lia|]). destruct Hc.
  - intros g w [].
Qed.

Definition pre (b : bool) (l : list printed) : list printed :=
  match l with
  | [] => []
  | x :: r => nl b ++ x :: concat (map (fun y => [empty_line; y]) r)
  end.
Lemma pre_false : forall l, pre false l = join [empty_line] (map (fun p => [p]) l).
Proof. intros [|x l]; [reflexivity|]. cbn [pre join map nl app]. rewrite map_map. reflexivity. Qed.
Lemma pre_true : forall l, pre true l = concat (map (fun y => [empty_line; y]) l).
Proof. intros [|x l]; reflexivity. Qed.
Lemma pre_app : forall b x y, pre b (x ++ y) = pre b x ++ pre (b || negb (is_empty x)) y.
Proof.
  intros b [|x0 x] y; cbn [app is_empty negb].
  - rewrite orb_false_r. reflexivity.
  - rewrite orb_true_r, pre_true. cbn [pre]. rewrite map_app, concat_app, <- !app_assoc. reflexivity.
Qed.

Lemma lays_custom : forall c id b, 0 < width -> (forall s, find_text (c_texts c) id = Some s -> s <> [] -> good_text s) ->
  lays 0 (in_order (pre b (text_parts rules width (find_text (c_texts c) id)))) (write_custom_text c id b).
Proof.
  intros c id b HW H. unfold write_custom_text, get_custom_text, text_parts. destruct (find_text (c_texts c) id) as [[|x s]|];
    cbn [is_empty]; [apply lays_skip| |apply lays_skip].
  cbn [pre map concat]. apply lays_app; [apply lays_when_nl|]. apply lays_one.
  apply lays_text; [exact HW|]. apply H; [reflexivity|discriminate].
Qed.

Lemma lays_write_usage : forall c b, 2 < width -> shapes_ok c -> readable_usage c ->
  lays 0 (in_order (pre b (usage_parts rules width c))) (write_usage c b).
Proof.
  intros c b HW Hs Hp. pose proof Hp as (_ & Ht & _). assert (W0 : 0 < width) by lia.
  unfold usage_parts, write_usage, get_custom_text.
  assert (Ht1 : forall s, find_text (c_texts c) TX_USAGE_TITLE = Some s -> s <> [] -> good_text s) by (intros s; apply Ht; left; reflexivity).
  assert (Ht2 : forall s, find_text (c_texts c) TX_USAGE = Some s -> s <> [] -> good_text s) by (intros s; apply Ht; right; left; reflexivity).
  pose proof (lays_custom c TX_USAGE_TITLE b W0 Ht1) as P1. unfold text_parts in P1.
  assert (K : forall body, (forall q, lays 0 (in_order (nl q ++ [body])) (write_custom_text c TX_USAGE q ;>
      match find_text (c_texts c) TX_USAGE with Some _ => skip | None => write_brief_usage c q end)) ->
    lays 0 (in_order (pre b [followed (usage_title rules width (find_text (c_texts c) TX_USAGE_TITLE)) body]))
     (let prepend := match find_text (c_texts c) TX_USAGE_TITLE with
        | None => false | Some _ => b && no_text (find_text (c_texts c) TX_USAGE_TITLE) end in
      write_custom_text c TX_USAGE_TITLE b ;>
      match find_text (c_texts c) TX_USAGE_TITLE with
      | None => when b new_line ;> write_words DEFAULT_USAGE_TITLE ;> new_line
      | Some _ => skip
      end ;>
      write_custom_text c TX_USAGE prepend ;>
      match find_text (c_texts c) TX_USAGE with Some _ => skip | None => write_brief_usage c prepend end)).
  { intros body HB. cbv zeta. cbn [pre map concat].
    assert (M : forall p, forall out, in_order (nl b ++ [p; body]) out -> in_order (nl b ++ [followed p body]) out).
    { intros p out Hx. apply in_order_app in Hx. apply in_order_app. destruct Hx as (a & b' & Ha & Hb & ->). exists a, b'. split; [exact Ha|]. split; [|reflexivity].
      apply (proj1 (in_order_one (followed p body) _)). destruct Hb as (x & y & Hx & Hy & ->). exists x, y. split; [exact Hx|].
      split; [|reflexivity]. apply (proj2 (in_order_one body _)). exact Hy. } destruct (find_text (c_texts c) TX_USAGE_TITLE) as [[|t0 t]|] eqn:Et; cbn [usage_title no_text is_empty andb].
    - rewrite andb_true_r.
      apply (lays_imp 0 (in_order (nl b ++ [body]))).
      { intros out Hx. apply in_order_app in Hx. apply in_order_app. destruct Hx as (a & b' & Ha & Hb & ->). exists a, b'. split; [exact Ha|].
        split; [|reflexivity]. apply (proj2 (in_order_one body _)) in Hb. apply (proj1 (in_order_one (followed nothing body) _)). exists [], b'. split; [reflexivity|]. auto. }
      apply (lays_app 0 [] _ _ _ P1). apply (lays_app 0 [] _ skip); [apply lays_skip|]. apply HB.
    - rewrite andb_false_r. apply (lays_imp 0 (in_order ((nl b ++ [text_printed rules width (t0 :: t)]) ++ [body]))).
      { intros out. rewrite <- app_assoc. apply M. } cbn [pre map concat] in P1. apply lays_app; [exact P1|].
      apply (lays_app 0 [] _ skip); [apply lays_skip|]. apply (HB false).
    - apply (lays_imp 0 (in_order ((nl b ++ [title_printed rules width ($"USAGE")]) ++ [body]))).
      { intros out. rewrite <- app_assoc. apply M. }
      apply (lays_app 0 [] _ _ _ P1). apply lays_app; [|apply (HB false)].
      apply lays_app; [apply lays_when_nl|]. apply lays_one. apply lays_title; [exact W0|apply usage_text]. }
  cbv zeta in K.
  destruct (find_text (c_texts c) TX_USAGE) as [[|u0 u]|] eqn:Eu; [apply lays_skip| |].
  - apply K. intros q. apply lays_skip_r.
    pose proof (lays_custom c TX_USAGE q W0) as P2. rewrite Eu in P2. cbn [text_parts pre map concat] in P2. apply P2. exact Ht2.
  - apply K. intros q. apply (lays_app 0 []).
    + unfold write_custom_text, get_custom_text. rewrite Eu. apply lays_skip.
    + apply lays_usage; assumption.
Qed.

(** ** Sections *)

Lemma beside_idle : forall base stack s ls f col gap0, base < width -> add_words [] rules = TOk (f_rules f) ->
  f_state f = NO_ALIGNMENT -> f_indents f = base :: stack -> ready width base false col gap0 (f_writer f) -> side_lines s ls ->
  exists f' out, write_words s f = TOk f' /\ put_beside rules width base col gap0 ls out /\
    fshown f' = fshown f ++ out /\ idle base stack f'.
Proof.
  intros base stack s ls f col gap0 HB HR HS HI RD (HG & Eu). rewrite <- unix_proof, Eu.
  destruct ls as [|[|[g|] [m|] word more] l]; try (destruct HG; fail). cbn [good_beside] in HG.
  destruct HG as (Gw & Gm & Gl).
  assert (St : (f_state f = NO_ALIGNMENT /\ f_indents f = base :: stack /\ base = base) \/
    (f_state f = ALIGNMENT /\ exists x, f_indents f = x :: base :: stack)) by (left; auto).
  destruct l as [|x l].
  - change (text_of [Line None None word more]) with (word ++ more_text more).
    assert (MW : starts_white (more_text more)).
    { rewrite <- (app_nil_r (more_text more)). apply (more_white more [] Gm). left. reflexivity. }
    destruct (beside_put rules width base stack HU HT base col gap0 word (more_text more) f HR St RD Gw MW)
      as (f3 & out & e & -> & P3 & Sh3 & A3).
    rewrite <- (app_nil_r (more_text more)).
    destruct (more_put rules width base stack HU HT HB more base e f3 [] A3 Gm (or_introl eq_refl)) as (f4 & out' & e' & -> & P4 & Sh4 & A4).
    destruct (end_put rules width base stack HB f4 (after_end _ _ _ _ _ _ _ A4)) as (f5 & E5 & Sh5 & _ & H1 & H2 & H3 & H4 & H5).
    exists f5, (out ++ out'). split; [exact E5|]. split; [econstructor; eassumption|].
    split; [rewrite Sh5, Sh4, Sh3, <- app_assoc; reflexivity|]. constructor; assumption.
  - change (text_of (Line None None word more :: x :: l)) with ((word ++ more_text more) ++ c_lf :: text_of (x :: l)).
    rewrite <- app_assoc.
    assert (SL : starts_white (c_lf :: text_of (x :: l))) by (right; eexists _, _; split; reflexivity).
    destruct (beside_put rules width base stack HU HT base col gap0 word (more_text more ++ c_lf :: text_of (x :: l)) f HR St RD Gw
      (more_white more _ Gm SL)) as (f3 & out & e & -> & P3 & Sh3 & A3).
    destruct (more_put rules width base stack HU HT HB more base e f3 _ A3 Gm SL) as (f4 & out' & e' & -> & P4 & Sh4 & A4).
    destruct (newline_put rules width base stack HB (text_of (x :: l)) f4 (after_end _ _ _ _ _ _ _ A4)) as (f5 & -> & AS & Sh5).
    assert (Nx : x :: l <> []) by discriminate.
    destruct (text_put_last base stack HB (x :: l) f5 AS Nx Gl) as (f6 & rest & E6 & P6 & Sh6 & I6 & _).
    exists f6, (out ++ out' ++ c_lf :: rest). split; [exact E6|]. split; [econstructor; eassumption|].
    split; [rewrite Sh6, Sh5, Sh4, Sh3, <- !app_assoc; reflexivity|exact I6].
Qed.

Lemma lays_item : forall l e, 8 < width -> In e l -> good_name (en_label e) ->
  (en_text e <> [] -> if side_by_side width l then good_side (en_text e) else good_text (en_text e)) ->
  lays 2 (entry_printed rules width l e) (write_item (if side_by_side width l then label_column l else 0) (en_label e, en_text e)).
Proof.
  intros l e HW He Hl Ht stack f HF. unfold write_item, then_. assert (W2 : 2 < width) by lia.
  destruct (name_open 2 stack (en_label e) f W2 HF Hl) as (f1 & o1 & e1 & E1 & P1 & S1 & O1). rewrite E1. cbn [tbind].
  pose proof O1 as [I1 [W1 W2' W3 W4 W5 W6]].
  destruct (en_text e) as [|t0 t] eqn:Et.
  - cbn [is_empty negb when]. unfold skip. cbn [tbind]. destruct (idle_newline _ _ _ I1) as (f2 & E2 & A2 & S2).
    exists f2, (o1 ++ [c_lf]). split; [exact E2|]. split; [exact A2|]. split; [|rewrite S2, S1, app_assoc; reflexivity].
    exists o1, e1. split; [exact P1|]. rewrite Et. reflexivity.
  - cbn [is_empty negb when]. specialize (Ht ltac:(discriminate)). destruct (side_by_side width l) eqn:Es.
    + pose proof (longest_le en_label l e He) as L1. pose proof (longest_le en_text l e He) as L2.
      assert (Ec : (label_column l =? 0) = false) by (apply Nat.eqb_neq; unfold label_column; lia). rewrite Ec. cbn [negb].
      pose proof Es as Es'. unfold side_by_side in Es'. apply andb_true_iff in Es'. destruct Es' as (_ & Es'). apply Nat.leb_le in Es'.
      rewrite Et in L2. cbn [length] in L2. assert (Lc : label_column l < width) by lia.
      destruct Ht as (ls & HL).
      assert (CW : current_width (f_writer f1) = e1) by (unfold current_width; rewrite W2', W3, W4; lia). rewrite CW.
      set (k := if label_column l <=? e1 then 2 else 0).
      set (f2 := on_writer (set_spaces k) f1).
      assert (EG : (if label_column l <=? e1 then write_words ($"  ") f1 else TOk f1) = TOk f2).
      { unfold f2, k. destruct (label_column l <=? e1).
        - change ($"  ") with (blanks 2). apply blanks_put; [exact (id_state _ _ _ I1)|exact W5].
        - f_equal. unfold on_writer, set_spaces. rewrite <- W4. destruct f1 as [[] ? ? ?]. reflexivity. }
      rewrite EG. cbn [tbind]. unfold push. cbn [tbind].
      set (f3 := push_indentation (Some (label_column l)) f2).
      assert (RD : ready width (label_column l) false e1 (if label_column l <=? e1 then 2 else label_column l - e1) (f_writer f3)).
      { unfold f3, f2. cbn. unfold set_indentation. cbn. rewrite W1. destruct (Nat.leb_spec width (label_column l)) as [X|_]; [lia|].
        constructor; cbn; try assumption; try reflexivity; try discriminate.
        - unfold current_width, k. cbn. rewrite W3. destruct (Nat.leb_spec (label_column l) e1); lia.
        - intros _. exact W5. }
      assert (EI : f_indents f3 = label_column l :: 2 :: stack).
      { unfold f3. cbn. rewrite (id_indents _ _ _ I1). reflexivity. }
      destruct (beside_idle (label_column l) (2 :: stack) (t0 :: t) ls f3 e1 _ Lc (id_rules _ _ _ I1) (id_state _ _ _ I1) EI RD HL)
        as (f4 & o2 & E4 & P4 & S4 & I4).
      rewrite E4. cbn [tbind]. destruct (idle_pop _ _ _ _ I4 W2) as (f5 & E5 & I5 & S5). rewrite E5. cbn [tbind].
      destruct (idle_newline _ _ _ I5) as (f6 & E6 & A6 & S6). exists f6, (o1 ++ o2 ++ [c_lf]). split; [exact E6|]. split; [exact A6|].
      split.
      * exists o1, e1. split; [exact P1|]. rewrite Et. exists ls, o2. rewrite Es. auto.
      * rewrite S6, S5, S4, !app_assoc. f_equal. f_equal. rewrite <- S1. unfold f3, f2, fshown, wshown. cbn. unfold set_indentation.
        cbn. rewrite W1. destruct (Nat.leb_spec width (label_column l)) as [X|_]; [lia|reflexivity].
    + cbn [Nat.eqb negb]. destruct (idle_newline _ _ _ I1) as (f2 & E2 & A2 & S2). rewrite E2. cbn [tbind].
      destruct (start_push _ _ _ 8 A2 HW) as (f3 & E3 & A3 & S3). rewrite E3. cbn [tbind]. destruct Ht as (ls & HL).
      destruct (good_put 8 (2 :: stack) (t0 :: t) ls f3 HW A3 HL) as (f4 & o2 & E4 & P4 & S4 & I4 & _).
      rewrite E4. cbn [tbind]. destruct (idle_pop _ _ _ _ I4 W2) as (f5 & E5 & I5 & S5). rewrite E5. cbn [tbind].
      destruct (idle_newline _ _ _ I5) as (f6 & E6 & A6 & S6). exists f6, (o1 ++ [c_lf] ++ o2 ++ [c_lf]). split; [exact E6|]. split; [exact A6|].
      split.
      * exists o1, e1. split; [exact P1|]. rewrite Et. exists ls, o2. rewrite Es. auto.
      * rewrite S6, S5, S4, S3, S2, S1, <- !app_assoc. reflexivity.
Qed.

Lemma lays_sections : forall l ts b, 8 < width -> (forall t, In t ts -> good_text t) ->
  (forall e, In e l -> good_name (en_label e) /\
     (en_text e <> [] -> if side_by_side width l then good_side (en_text e) else good_text (en_text e))) ->
  lays 0 (in_order (pre b (map (section_printed rules width l) ts)))
    (write_sections (if side_by_side width l then label_column l else 0) b
       (map (fun t => (t, map (fun e => (en_label e, en_text e)) (with_title t l))) ts)).
Proof.
  intros l ts. induction ts as [|t ts IH]; intros b HW Ht He; [apply lays_skip|].
  cbn [map write_sections pre].
  set (nw := if side_by_side width l then label_column l else 0).
  set (k := for_each (write_item nw) (map (fun e => (en_label e, en_text e)) (with_title t l))).
  apply (lays_ext 0 _ _ (when b new_line ;> ((write_words t ;> new_line) ;> (push (Some 2) ;> k ;> pop_indentation)) ;>
    write_sections nw true (map (fun t => (t, map (fun e => (en_label e, en_text e)) (with_title t l))) ts))).
  { intros f. repeat (rewrite ?then_assoc; apply then_ext; intros ?). reflexivity. }
  apply lays_app; [apply lays_when_nl|].
  match goal with |- lays 0 (in_order (?x :: ?y)) _ => change (x :: y) with ([x] ++ y) end.
  apply lays_app.
  - apply lays_one. unfold section_printed. apply lays_then; [apply lays_title; [lia|apply Ht; left; reflexivity]|].
    apply lays_indented; [lia|lia|]. unfold k.
    assert (E : for_each (write_item nw) (map (fun e => (en_label e, en_text e)) (with_title t l)) =
      for_each (fun e => write_item nw (en_label e, en_text e)) (with_title t l)).
    { clear. induction (with_title t l) as [|e r IHr]; [reflexivity|]. cbn [map for_each]. rewrite IHr. reflexivity. }
    rewrite E. apply lays_for. intros e Hin.
    assert (Hin' : In e l) by (unfold with_title in Hin; apply filter_In in Hin; tauto).
    destruct (He e Hin') as (H1 & H2). apply lays_item; auto.
  - rewrite <- pre_true. apply IH; auto. intros x Hx. apply Ht. right. exact Hx.
Qed.

Lemma lays_argument_sections : forall c b, 8 < width -> shapes_ok c ->
  (forall e, In e (entries c) -> good_text (en_title e) /\ good_name (en_label e) /\
     (en_text e <> [] -> if side_by_side width (entries c) then good_side (en_text e) else good_text (en_text e))) ->
  lays 0 (in_order (pre b (map (section_printed rules width (entries c)) (titles (entries c))))) (write_argument_sections c b).
Proof.
  intros c b HW Hs He. unfold write_argument_sections. rewrite (sections_group c Hs).
  destruct (is_empty (group (entries c))) eqn:Ee.
  - apply is_empty_true in Ee. unfold group in Ee. destruct (titles (entries c)); [apply lays_skip|discriminate].
  - intros stack f HF. rewrite (rd_width _ _ _ _ _ _ (as_writer _ _ _ _ _ HF)). rewrite label_width_eq. unfold group.
    apply lays_sections; auto.
    + intros t Ht. unfold titles in Ht. apply (proj1 (distinct_in _ _)) in Ht. apply in_map_iff in Ht. destruct Ht as (e & <- & Hin). apply He, Hin.
    + intros e Hin. apply He, Hin.
Qed.

(** ** Help and error texts *)

Lemma no_text_parts : forall t, negb (no_text t) = negb (is_empty (text_parts rules width t)).
Proof. intros [[|c s]|]; reflexivity. Qed.
Lemma usage_result_parts : forall c, usage_result c = negb (is_empty (usage_parts rules width c)).
Proof.
  intros c. unfold usage_result, usage_parts, get_custom_text. destruct (find_text (c_texts c) TX_USAGE) as [[|x s]|]; try reflexivity.
  rewrite orb_true_r. reflexivity.
Qed.

Lemma lays_help : forall c, 8 < width -> shapes_ok c -> readable_help width c ->
  lays 0 (help_printed rules width c) (
    let newline0 := negb (no_text (get_custom_text c TX_INITIAL_TEXT)) in
    let newline1 := usage_result c || newline0 in
    let about := negb (no_text (get_custom_text c TX_ABOUT)) in
    let help := negb (no_text (get_custom_text c TX_HELP)) in
    let newline2 := about || help || newline1 in
    write_custom_text c TX_INITIAL_TEXT false ;>
    write_usage c newline0 ;>
    write_custom_text c TX_ABOUT newline1 ;>
    when (negb about) (write_custom_text c TX_HELP newline1) ;>
    write_argument_sections c newline2 ;>
    write_custom_text c TX_FINAL_TEXT true).
Proof.
  intros c HW Hs (Hp & Ht & He). cbv zeta. unfold help_printed. rewrite <- pre_false, <- pre_true.
  rewrite !no_text_parts, usage_result_parts. unfold get_custom_text. assert (W0 : 0 < width) by lia. assert (W2 : 2 < width) by lia.
  assert (C1 : forall b, lays 0 (in_order (pre b (text_parts rules width (find_text (c_texts c) TX_INITIAL_TEXT)))) (write_custom_text c TX_INITIAL_TEXT b))
    by (intros b; apply lays_custom; [exact W0|intros s; apply Ht; left; reflexivity]).
  assert (C5 : forall b, lays 0 (in_order (pre b (text_parts rules width (find_text (c_texts c) TX_FINAL_TEXT)))) (write_custom_text c TX_FINAL_TEXT b))
    by (intros b; apply lays_custom; [exact W0|intros s; apply Ht; do 3 right; left; reflexivity]).
  set (B1 := text_parts rules width (find_text (c_texts c) TX_INITIAL_TEXT)) in *.
  assert (C2 : forall b, lays 0 (in_order (pre b (usage_parts rules width c))) (write_usage c b)) by (intros b; apply lays_write_usage; assumption).
  set (B2 := usage_parts rules width c) in *. set (B5 := text_parts rules width (find_text (c_texts c) TX_FINAL_TEXT)) in *.
  assert (CA : forall b, lays 0 (in_order (pre b (text_parts rules width (find_text (c_texts c) TX_ABOUT)))) (write_custom_text c TX_ABOUT b))
    by (intros b; apply lays_custom; [exact W0|intros s; apply Ht; right; left; reflexivity]).
  assert (CH : forall b, lays 0 (in_order (pre b (text_parts rules width (find_text (c_texts c) TX_HELP)))) (write_custom_text c TX_HELP b))
    by (intros b; apply lays_custom; [exact W0|intros s; apply Ht; do 2 right; left; reflexivity]).
  unfold about_parts.
  set (A := text_parts rules width (find_text (c_texts c) TX_ABOUT)) in *. set (H := text_parts rules width (find_text (c_texts c) TX_HELP)) in *.
  rewrite !pre_app, <- !app_assoc. cbn [orb].
  apply lays_app; [apply C1|].
  apply lays_app; [apply C2|].
  assert (En : negb (is_empty B1) || negb (is_empty B2) = negb (is_empty B2) || negb (is_empty B1)) by apply orb_comm.
  rewrite En. set (n1 := negb (is_empty B2) || negb (is_empty B1)).
  assert (CS : forall b, lays 0 (in_order (pre b (map (section_printed rules width (entries c)) (titles (entries c))))) (write_argument_sections c b))
    by (intros b; apply lays_argument_sections; assumption).
  specialize (CA n1). destruct A as [|a A'] eqn:EA; cbn [is_empty negb when orb].
  - apply (lays_app 0 [] _ _ _ CA). apply lays_app; [apply CH|].
    rewrite orb_comm. apply lays_app; [apply CS|apply C5].
  - apply lays_app; [exact CA|]. apply (lays_app 0 [] _ skip); [apply lays_skip|]. rewrite orb_true_r.
    apply lays_app; [apply CS|apply C5].
Qed.

Lemma lays_error : forall c msg, 2 < width -> shapes_ok c -> readable_usage c -> good_name (c_full_name c ++ $":") -> good_side msg ->
  lays 0 (error_printed rules width c msg) (
    write_words (c_full_name c ++ $": ") ;> write_words msg ;> new_line ;>
    write_custom_text c TX_ERROR_USAGE false ;>
    match get_custom_text c TX_ERROR_USAGE with
    | Some _ => skip
    | None => write_usage c false
    end).
Proof.
  intros c msg HW Hs Hp Hn (ls & HL). assert (W0 : 0 < width) by lia. unfold error_printed.
  set (rest := write_custom_text c TX_ERROR_USAGE false ;>
    match get_custom_text c TX_ERROR_USAGE with Some _ => skip | None => write_usage c false end).
  apply (lays_ext 0 _ _ ((write_words (c_full_name c ++ $": ") ;> write_words msg ;> new_line) ;> rest)).
  { intros f. rewrite !then_assoc. apply then_ext. intros f1. rewrite then_assoc. reflexivity. }
  apply lays_then.
  - intros stack f HF. unfold then_.
    assert (En : c_full_name c ++ $": " = (c_full_name c ++ $":") ++ blanks 1) by (rewrite <- app_assoc; reflexivity). rewrite En.
    assert (SW : starts_white (blanks 1)) by (right; exists c_space, []; split; reflexivity).
    destruct (name_put 0 stack _ f (blanks 1) W0 HF Hn SW) as (f1 & o1 & e1 & E1 & P1 & S1 & [R1 R2 R3]).
    rewrite E1.
    pose proof R3 as [T1 T2 T3 T4 T5 T6].
    assert (EX : exists f2, write_words (blanks 1) f1 = TOk f2 /\ idle 0 stack f2 /\ ready width 0 false e1 1 (f_writer f2) /\ fshown f2 = fshown f1).
    { assert (RW : ready width 0 false e1 1 (set_spaces 1 (f_writer f1))).
      { constructor; cbn; try assumption; try discriminate.
        - unfold current_width. cbn. rewrite T2, T3. lia.
        - intros _. exact T5. }
      destruct R2 as [(Q1 & Q2 & _)|(Q1 & x & Q2)].
      - rewrite blanks_put by assumption. exists (on_writer (set_spaces 1) f1). split; [reflexivity|].
        split; [constructor; assumption|]. split; [exact RW|reflexivity].
      - rewrite <- (app_nil_r (blanks 1)).
        rewrite (WrapProofs2.words_step _ TkSpace (blanks 1) []); [|discriminate|apply token_spaces2; [lia|discriminate]].
        cbn [write_token]. change (length (blanks 1)) with 1.
        unfold begin_alignment. assert (E : is_line_empty (f_writer (on_writer (set_spaces 1) f1)) = false) by (apply is_empty_false; exact T5).
        rewrite E. cbn [orb]. change (f_state (on_writer (set_spaces 1) f1)) with (f_state f1). rewrite Q1. cbn [tbind].
        change (write_words [] (on_writer (set_spaces 1) f1)) with (end_alignment (on_writer (set_spaces 1) f1)).
        unfold end_alignment. change (f_state (on_writer (set_spaces 1) f1)) with (f_state f1). rewrite Q1.
        destruct (pop_put x 0 stack (on_writer (set_spaces 1) f1) Q2 W0 T1) as (f' & -> & X1 & X2 & X3 & X4 & X5 & X6 & X7 & X8 & X9). cbn [tbind].
        eexists. split; [reflexivity|]. split; [|split; [|exact X9]].
        + constructor; cbn; try congruence. rewrite X1. exact R1.
        + cbn. constructor; try discriminate; try congruence.
          * rewrite X7. exact T3.
          * unfold current_width. rewrite X4, X7, X8. cbn. rewrite T3. lia.
          * intros _. rewrite X6. exact T5. }
    destruct EX as (f2 & E2 & [I1 I2 I3 I4 I5] & RD & S2). rewrite E2. cbn [tbind].
    destruct (beside_idle 0 stack msg ls f2 e1 1 W0 I1 I2 I3 RD HL) as (f3 & o2 & E3 & P3 & S3 & I3'). rewrite E3. cbn [tbind].
    destruct (idle_newline _ _ _ I3') as (f4 & E4 & A4 & S4). exists f4, (o1 ++ o2 ++ [c_lf]). split; [exact E4|]. split; [exact A4|].
    split; [exists o1, e1, ls, o2; auto|]. rewrite S4, S3, S2, S1, !app_assoc. reflexivity.
  - unfold rest. pose proof Hp as (_ & Ht & _). unfold get_custom_text.
    assert (Ht1 : forall s, find_text (c_texts c) TX_ERROR_USAGE = Some s -> s <> [] -> good_text s) by (intros s; apply Ht; do 2 right; left; reflexivity).
    pose proof (lays_custom c TX_ERROR_USAGE false W0 Ht1) as P. unfold text_parts in *.
    destruct (find_text (c_texts c) TX_ERROR_USAGE) as [s|].
    + apply lays_skip_r. destruct s; exact P.
    + apply (lays_app 0 [] _ _ _ P). pose proof (lays_write_usage c false HW Hs Hp) as Q.
      unfold usage_parts in *. destruct (find_text (c_texts c) TX_USAGE) as [[|x s]|]; exact Q.
Qed.
End Help.
