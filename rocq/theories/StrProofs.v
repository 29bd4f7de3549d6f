From Verif Require Import Base BaseProofs MStrings SStrings.

(** ** Facts about all bytes, by exhaustive computation *)

Definition all_bytes : list ascii := map ascii_of_nat (seq 0 256).

Lemma in_all_bytes : forall c, In c all_bytes.
Proof.
  intros c. unfold all_bytes. apply in_map_iff. exists (nat_of_ascii c).
  split; [apply ascii_nat_embedding|]. apply in_seq.
  pose proof (nat_ascii_bounded c). lia.
Qed.

Lemma all_bytes_1 : forall (p : ascii -> bool),
  forallb p all_bytes = true -> forall c, p c = true.
Proof.
  intros p H c. rewrite forallb_forall in H. apply H. apply in_all_bytes.
Qed.

Lemma all_bytes_2 : forall (p : ascii -> ascii -> bool),
  forallb (fun a => forallb (p a) all_bytes) all_bytes = true ->
  forall a b, p a b = true.
Proof.
  intros p H a b. rewrite forallb_forall in H. specialize (H a (in_all_bytes a)).
  rewrite forallb_forall in H. apply H. apply in_all_bytes.
Qed.

(** ** The order on strings *)

Lemma u8_inj : forall a b, u8 a = u8 b -> a = b.
Proof.
  intros a b H. unfold u8 in H. rewrite <- (ascii_N_embedding a), <- (ascii_N_embedding b).
  congruence.
Qed.

Lemma str_ltb_irrefl : forall a, str_ltb a a = false.
Proof.
  induction a as [|x a IH]; simpl; [reflexivity|].
  rewrite N.ltb_irrefl. exact IH.
Qed.

Lemma str_ltb_trans : forall a b c, str_ltb a b = true -> str_ltb b c = true ->
  str_ltb a c = true.
Proof.
  induction a as [|x a IH]; intros [|y b] [|z c] H1 H2; simpl in *; try discriminate; auto.
  destruct (N.ltb_spec (u8 x) (u8 y)), (N.ltb_spec (u8 y) (u8 x));
  destruct (N.ltb_spec (u8 y) (u8 z)), (N.ltb_spec (u8 z) (u8 y)); try discriminate;
  destruct (N.ltb_spec (u8 x) (u8 z)), (N.ltb_spec (u8 z) (u8 x)); try lia; auto.
  eapply IH; eassumption.
Qed.

Lemma str_ltb_total : forall a b, str_ltb a b = false -> str_ltb b a = false -> a = b.
Proof.
  induction a as [|x a IH]; intros [|y b] H1 H2; simpl in *; try discriminate; auto.
  destruct (N.ltb_spec (u8 x) (u8 y)), (N.ltb_spec (u8 y) (u8 x)); try discriminate; try lia.
  assert (x = y) by (apply u8_inj; lia). subst y. f_equal. apply IH; assumption.
Qed.

Lemma str_ltb_asym : forall a b, str_ltb a b = true -> str_ltb b a = false.
Proof.
  intros a b H. destruct (str_ltb b a) eqn:E; [|reflexivity].
  rewrite <- (str_ltb_irrefl a). symmetry. eapply str_ltb_trans; eassumption.
Qed.

(** [str_le a b]: [a] is not larger than [b]. *)
Definition str_le (a b : str) : Prop := str_ltb b a = false.

Lemma str_le_refl : forall a, str_le a a.
Proof. intros. apply str_ltb_irrefl. Qed.

Lemma str_le_trans : forall a b c, str_le a b -> str_le b c -> str_le a c.
Proof.
  unfold str_le. intros a b c H1 H2. destruct (str_ltb c a) eqn:E; [|reflexivity].
  destruct (str_ltb b c) eqn:E1.
  - rewrite (str_ltb_trans _ _ _ E1 E) in H1. discriminate.
  - assert (b = c) by (apply str_ltb_total; assumption). congruence.
Qed.

Lemma str_le_lt : forall a b, str_ltb a b = true -> str_le a b.
Proof. intros. apply str_ltb_asym. assumption. Qed.

Lemma str_le_antisym : forall a b, str_le a b -> str_le b a -> a = b.
Proof. intros. apply str_ltb_total; assumption. Qed.

(** ** Prefixes *)

Definition is_prefix (p s : str) : Prop := exists t, s = p ++ t.

Lemma equal_range_prefix : forall p s,
  equal_range Ascii.eqb p s = true <-> is_prefix p s.
Proof.
  induction p as [|x p IH]; intros s; simpl.
  - split; [intros _; exists s; reflexivity|reflexivity].
  - destruct s as [|y s].
    + split; [discriminate|]. intros (t & E). discriminate.
    + rewrite andb_true_iff, IH, Ascii.eqb_eq. split.
      * intros (-> & t & ->). exists t. reflexivity.
      * intros (t & E). inversion E; subst. split; [reflexivity|]. exists t. reflexivity.
Qed.

Lemma starts_with_cs_spec : forall s p, starts_with_cs s p = true <-> is_prefix p s.
Proof.
  intros s p. unfold starts_with_cs. destruct (Nat.ltb_spec (length s) (length p)).
  - split; [discriminate|]. intros (t & ->). rewrite app_length in H. lia.
  - apply equal_range_prefix.
Qed.

Lemma prefix_le : forall p s, is_prefix p s -> str_le p s.
Proof.
  unfold str_le. intros p s (t & ->). induction p as [|x p IH]; simpl.
  - destruct t; reflexivity.
  - rewrite N.ltb_irrefl. exact IH.
Qed.

Lemma prefix_between : forall p g f,
  str_le p g -> str_le g f -> is_prefix p f -> is_prefix p g.
Proof.
  unfold str_le. induction p as [|x p IH]; intros g f H1 H2 (t & ->).
  - exists g. reflexivity.
  - destruct g as [|y g]; simpl in *; [discriminate|].
    destruct (N.ltb_spec (u8 y) (u8 x)), (N.ltb_spec (u8 x) (u8 y)); try discriminate; try lia.
    assert (x = y) by (apply u8_inj; lia). subst y.
    destruct (IH g (p ++ t) H1 H2) as (u & ->). { exists t. reflexivity. }
    exists u. reflexivity.
Qed.

(** ** Case-insensitive comparison *)

Lemma are_equal_chars_ci_spec : forall a b,
  are_equal_chars_ci a b = Ascii.eqb (lower_ascii a) (lower_ascii b).
Proof.
  intros a b. apply eqb_prop.
  apply (all_bytes_2 (fun a b => eqb (are_equal_chars_ci a b)
                         (Ascii.eqb (lower_ascii a) (lower_ascii b)))).
  vm_compute. reflexivity.
Qed.

Lemma equal_range_ci : forall p s,
  equal_range are_equal_chars_ci p s = equal_range Ascii.eqb (lower p) (lower s).
Proof.
  induction p as [|x p IH]; intros [|y s]; simpl; auto.
  rewrite are_equal_chars_ci_spec, IH. reflexivity.
Qed.

Lemma lower_length : forall s, length (lower s) = length s.
Proof. intros. apply map_length. Qed.

Lemma equal_range_same_length : forall a b, length a = length b ->
  equal_range Ascii.eqb a b = str_eqb a b.
Proof.
  induction a as [|x a IH]; intros [|y b] H; simpl in *; try lia; auto.
  rewrite IH by lia. reflexivity.
Qed.

Lemma are_equal_ci_spec : forall a b, are_equal_ci a b = str_eqb (lower a) (lower b).
Proof.
  intros a b. unfold are_equal_ci. destruct (Nat.eqb_spec (length a) (length b)) as [E|N]; simpl.
  - rewrite equal_range_ci, equal_range_same_length by (rewrite !lower_length; lia).
    apply str_eqb_sym.
  - symmetry. apply str_eqb_neq. intros E. apply N.
    rewrite <- (lower_length a), <- (lower_length b). congruence.
Qed.

Lemma starts_with_ci_spec : forall s p, starts_with_ci s p = starts_with_cs (lower s) (lower p).
Proof.
  intros. unfold starts_with_ci, starts_with_cs. rewrite !lower_length.
  destruct (length s <? length p); [reflexivity|]. apply equal_range_ci.
Qed.

Lemma compare_ci_safe : forall a b, safe_byte a = true -> safe_byte b = true ->
  (compare_ci a b <? 0)%Z = (u8 (lower_ascii a) <? u8 (lower_ascii b))%N /\
  (compare_ci a b =? 0)%Z = (u8 (lower_ascii a) =? u8 (lower_ascii b))%N.
Proof.
  intros a b Ha Hb.
  assert (X : implb (safe_byte a && safe_byte b)
    (eqb (compare_ci a b <? 0)%Z (u8 (lower_ascii a) <? u8 (lower_ascii b))%N &&
     eqb (compare_ci a b =? 0)%Z (u8 (lower_ascii a) =? u8 (lower_ascii b))%N) = true).
  { apply (all_bytes_2 (fun a b => implb (safe_byte a && safe_byte b)
    (eqb (compare_ci a b <? 0)%Z (u8 (lower_ascii a) <? u8 (lower_ascii b))%N &&
     eqb (compare_ci a b =? 0)%Z (u8 (lower_ascii a) =? u8 (lower_ascii b))%N))).
    vm_compute. reflexivity. }
  rewrite Ha, Hb in X. simpl in X. apply andb_true_iff in X. destruct X as (X & Y).
  split; apply eqb_prop; assumption.
Qed.

Lemma is_less_ci_safe : forall a b, safe a -> safe b ->
  is_less_ci a b = str_ltb (lower a) (lower b).
Proof.
  induction a as [|x a IH]; intros [|y b] Sa Sb; simpl; auto.
  destruct (compare_ci_safe x y) as (L & E).
  { apply Sa. left. reflexivity. } { apply Sb. left. reflexivity. }
  rewrite L, E.
  destruct (N.eqb_spec (u8 (lower_ascii x)) (u8 (lower_ascii y))) as [Q|Q]; simpl.
  - rewrite Q, N.ltb_irrefl. apply IH.
    + intros c Hc. apply Sa. right. exact Hc.
    + intros c Hc. apply Sb. right. exact Hc.
  - destruct (N.ltb_spec (u8 (lower_ascii x)) (u8 (lower_ascii y))); [reflexivity|].
    destruct (N.ltb_spec (u8 (lower_ascii y)) (u8 (lower_ascii x))); [reflexivity|lia].
Qed.

(** Apart from the backquote, two bytes are placed neither way iff they are equal
    without regard to case. *)
Definition backquote : ascii := "096"%char.

Lemma u8_nat : forall x y, (u8 x <? u8 y)%N = true <-> nat_of_ascii x < nat_of_ascii y.
Proof. intros x y. unfold u8, nat_of_ascii. rewrite N.ltb_lt. lia. Qed.

Lemma str_ltb_precedes : forall a b, str_ltb a b = true <-> precedes a b.
Proof.
  induction a as [|x a IH]; intros [|y b]; cbn [str_ltb].
  - split; [discriminate|]. intros ([|z p] & [(u & v & _ & E)|(u & v & a' & b' & E & _)]); discriminate.
  - split; [|reflexivity]. intros _. exists []. left. exists y, b. auto.
  - split; [discriminate|]. intros ([|z p] & [(u & v & _ & E)|(u & v & a' & b' & _ & E & _)]); discriminate.
  - destruct (u8 x <? u8 y)%N eqn:L.
    { split; [|reflexivity]. intros _. exists []. right. exists x, y, a, b. apply u8_nat in L. auto. }
    destruct (u8 y <? u8 x)%N eqn:G.
    { split; [discriminate|]. apply u8_nat in G. intros ([|z p] & [(u & v & E1 & E2)|(u & v & a' & b' & E1 & E2 & Lt)]); try discriminate.
      - injection E1 as -> ->. injection E2 as -> ->. lia.
      - injection E1 as -> ->. injection E2 as -> ->. lia.
      - injection E1 as -> ->. injection E2 as -> ->. lia. }
    assert (x = y).
    { apply N.ltb_ge in L, G. assert (E : u8 x = u8 y) by lia. unfold u8 in E.
      rewrite <- (ascii_N_embedding x), <- (ascii_N_embedding y), E. reflexivity. }
    subst y. rewrite IH. split.
    + intros (p & [(u & v & E1 & E2)|(u & v & a' & b' & E1 & E2 & Lt)]); exists (x :: p); [left|right]; subst.
      * exists u, v. auto.
      * exists u, v, a', b'. auto.
    + intros ([|z p] & [(u & v & E1 & E2)|(u & v & a' & b' & E1 & E2 & Lt)]); try discriminate.
      * injection E1 as -> ->. injection E2 as -> ->. lia.
      * injection E1 as -> ->. injection E2 as ->. exists p. left. eauto.
      * injection E1 as -> ->. injection E2 as ->. exists p. right. exists u, v, a', b'. auto.
Qed.

Lemma less_ci_precedes : forall a b, safe a -> safe b ->
  (is_less_ci a b = true <-> precedes (lower a) (lower b)).
Proof. intros a b Sa Sb. rewrite (is_less_ci_safe a b Sa Sb). apply str_ltb_precedes. Qed.

Lemma compare_ci_order : forall a b, a <> backquote -> b <> backquote ->
  ((compare_ci a b =? 0)%Z = (u8 (lower_ascii a) =? u8 (lower_ascii b))%N) /\
  ((compare_ci a b =? 0)%Z = (compare_ci b a =? 0)%Z) /\
  ((compare_ci a b =? 0)%Z = negb ((compare_ci a b <? 0)%Z || (compare_ci b a <? 0)%Z)).
Proof.
  intros a b Ha Hb.
  assert (X : (Ascii.eqb a backquote || Ascii.eqb b backquote) ||
    (eqb (compare_ci a b =? 0)%Z (u8 (lower_ascii a) =? u8 (lower_ascii b))%N &&
     (eqb (compare_ci a b =? 0)%Z (compare_ci b a =? 0)%Z &&
      eqb (compare_ci a b =? 0)%Z
        (negb ((compare_ci a b <? 0)%Z || (compare_ci b a <? 0)%Z)))) = true).
  { apply (all_bytes_2 (fun a b => (Ascii.eqb a backquote || Ascii.eqb b backquote) ||
    (eqb (compare_ci a b =? 0)%Z (u8 (lower_ascii a) =? u8 (lower_ascii b))%N &&
     (eqb (compare_ci a b =? 0)%Z (compare_ci b a =? 0)%Z &&
      eqb (compare_ci a b =? 0)%Z
        (negb ((compare_ci a b <? 0)%Z || (compare_ci b a <? 0)%Z)))))).
    vm_compute. reflexivity. }
  destruct (Ascii.eqb_spec a backquote) as [E|_]; [contradiction|].
  destruct (Ascii.eqb_spec b backquote) as [E|_]; [contradiction|].
  simpl in X. apply andb_true_iff in X. destruct X as (X & Y).
  apply andb_true_iff in Y. destruct Y as (Y & Z).
  apply eqb_prop in X. apply eqb_prop in Y. apply eqb_prop in Z. auto.
Qed.

Lemma order_ci_proof : forall a b, ~ In backquote a -> ~ In backquote b ->
  (is_less_ci a b = false /\ is_less_ci b a = false <-> lower a = lower b).
Proof.
  induction a as [|x a IH]; intros [|y b] Ha Hb; simpl.
  - intuition.
  - split; [intros (H & _)|intros H]; discriminate.
  - split; [intros (_ & H)|intros H]; discriminate.
  - destruct (compare_ci_order x y) as (E1 & E2 & E3).
    { intros E. apply Ha. left. exact E. } { intros E. apply Hb. left. exact E. }
    specialize (IH b (fun H => Ha (or_intror H)) (fun H => Hb (or_intror H))).
    rewrite <- E2. destruct (compare_ci x y =? 0)%Z; simpl.
    + symmetry in E1. apply N.eqb_eq in E1. apply u8_inj in E1.
      rewrite IH, E1. split; [intros ->; reflexivity|intros H; congruence].
    + symmetry in E3. apply negb_false_iff in E3. apply orb_true_iff in E3.
      split.
      * intros (H1 & H2). destruct E3; congruence.
      * intros H. exfalso. injection H as H _. symmetry in E1. apply N.eqb_neq in E1.
        apply E1. rewrite H. reflexivity.
Qed.

(** The key by which flags are compared. *)
Definition norm (ci : bool) (s : str) : str := if ci then lower s else s.

Lemma are_equal_norm : forall ci a b, are_equal a b ci = str_eqb (norm ci a) (norm ci b).
Proof. intros [] a b; simpl; [apply are_equal_ci_spec|reflexivity]. Qed.

Lemma starts_with_norm : forall ci s p,
  starts_with s p ci = starts_with_cs (norm ci s) (norm ci p).
Proof. intros [] s p; simpl; [apply starts_with_ci_spec|reflexivity]. Qed.

Lemma is_less_norm : forall ci a b, (ci = true -> safe a) -> (ci = true -> safe b) ->
  is_less a b ci = str_ltb (norm ci a) (norm ci b).
Proof. intros [] a b Sa Sb; simpl; [apply is_less_ci_safe; auto|reflexivity]. Qed.

(** ** Base name (C44) *)

Definition is_sep (c : ascii) : Prop := c = "/"%char \/ c = "\"%char.

Lemma find_last_of_none : forall set s,
  find_last_of set s = None <-> (forall c, In c s -> ~ In c set).
Proof.
  induction s as [|x s IH]; simpl.
  - split; [intros _ c []|reflexivity].
  - destruct (find_last_of set s) as [n|] eqn:F.
    + split; [discriminate|]. intros H. exfalso.
      assert (X : Some n = None).
      { apply IH. intros c Hc. apply H. auto. }
      discriminate X.
    + destruct (existsb (Ascii.eqb x) set) eqn:E.
      * apply existsb_eqb_in in E. split; [discriminate|].
        intros H. exfalso. apply (H x); auto.
      * split; [|reflexivity]. intros _ c [->|Hc].
        -- intros Hi. apply existsb_eqb_in in Hi. congruence.
        -- apply IH; auto.
Qed.

Lemma find_last_of_app : forall set d x b, In x set ->
  (forall c, In c b -> ~ In c set) ->
  find_last_of set (d ++ x :: b) = Some (length d).
Proof.
  induction d as [|y d IH]; intros x b Hx Hb; simpl.
  - rewrite (proj2 (find_last_of_none set b) Hb).
    rewrite (proj2 (existsb_eqb_in x set) Hx). reflexivity.
  - rewrite IH; auto.
Qed.

Lemma base_name_after_sep : forall d x b, is_sep x -> (forall c, In c b -> ~ is_sep c) ->
  get_base_name (d ++ x :: b) = b.
Proof.
  intros d x b Hx Hb. unfold get_base_name. rewrite find_last_of_app.
  - replace (length d + 1) with (length (d ++ [x])) by (rewrite app_length; reflexivity).
    change (x :: b) with ([x] ++ b). rewrite app_assoc.
    rewrite skipn_app, skipn_all, Nat.sub_diag. reflexivity.
  - simpl. destruct Hx; auto.
  - intros c Hc Hi. apply (Hb c Hc). simpl in Hi. unfold is_sep. intuition.
Qed.

Lemma base_name_no_sep : forall s, (forall c, In c s -> ~ is_sep c) -> get_base_name s = s.
Proof.
  intros s H. unfold get_base_name. rewrite (proj2 (find_last_of_none _ s)); [reflexivity|].
  intros c Hc Hi. apply (H c Hc). simpl in Hi. unfold is_sep. intuition.
Qed.

Lemma base_name_total : forall s,
  (forall c, In c s -> ~ is_sep c) \/
  exists d x b, s = d ++ x :: b /\ is_sep x /\ (forall c, In c b -> ~ is_sep c).
Proof.
  induction s as [|y s IH].
  - left. intros c [].
  - destruct IH as [N|(d & x & b & -> & Hx & Hb)].
    + destruct (Ascii.eqb_spec y "/"%char) as [->|N1].
      { right. exists [], "/"%char, s. repeat split; auto. left. reflexivity. }
      destruct (Ascii.eqb_spec y "\"%char) as [->|N2].
      { right. exists [], "\"%char, s. repeat split; auto. right. reflexivity. }
      left. intros c [->|Hc]; [|auto]. intros [?|?]; congruence.
    + right. exists (y :: d), x, b. auto.
Qed.

(** ** UTF-8 (C46) *)

Definition lead_len (c : ascii) : nat :=
  let n := nat_of_ascii c in
  if n <=? 127 then 1 else if (192 <=? n) && (n <=? 223) then 2
  else if (224 <=? n) && (n <=? 239) then 3
  else if (240 <=? n) && (n <=? 247) then 4 else 0.

Lemma code_point_length_spec : forall c, get_code_point_length c = lead_len c.
Proof.
  intros c. apply Nat.eqb_eq.
  apply (all_bytes_1 (fun c => get_code_point_length c =? lead_len c)).
  vm_compute. reflexivity.
Qed.

Lemma continuation_spec : forall c, is_utf8_continuation c = true <-> byte_between 128 191 c.
Proof.
  intros c.
  assert (E : is_utf8_continuation c =
              ((128 <=? nat_of_ascii c) && (nat_of_ascii c <=? 191))).
  { apply eqb_prop. apply (all_bytes_1 (fun c => eqb (is_utf8_continuation c)
      ((128 <=? nat_of_ascii c) && (nat_of_ascii c <=? 191)))). vm_compute. reflexivity. }
  rewrite E, andb_true_iff, !Nat.leb_le. unfold byte_between. lia.
Qed.

Ltac leb_cases :=
  repeat (match goal with
          | |- context [?a <=? ?b] => destruct (Nat.leb_spec a b)
          end; cbn [andb]; try lia); try reflexivity.

Lemma lead_len_inv : forall c,
  (lead_len c = 1 -> byte_between 0 127 c) /\
  (lead_len c = 2 -> byte_between 192 223 c) /\
  (lead_len c = 3 -> byte_between 224 239 c) /\
  (lead_len c = 4 -> byte_between 240 247 c) /\ lead_len c <= 4.
Proof.
  intros c. unfold lead_len, byte_between.
  repeat (match goal with
          | |- context [?a <=? ?b] => destruct (Nat.leb_spec a b)
          end; cbn [andb]); repeat split; try discriminate; try lia.
Qed.

(** A code point: lead byte and continuation bytes. *)
Lemma utf8_char_iff : forall s, utf8_char s <->
  exists c r, s = c :: r /\ lead_len c = S (length r) /\
    (forall x, In x r -> is_utf8_continuation x = true).
Proof.
  intros s. split.
  - assert (L : forall a, byte_between 0 127 a -> lead_len a = 1).
    { intros a H. unfold lead_len, byte_between in *. leb_cases. }
    assert (L2 : forall a, byte_between 192 223 a -> lead_len a = 2).
    { intros a H. unfold lead_len, byte_between in *. leb_cases. }
    assert (L3 : forall a, byte_between 224 239 a -> lead_len a = 3).
    { intros a H. unfold lead_len, byte_between in *. leb_cases. }
    assert (L4 : forall a, byte_between 240 247 a -> lead_len a = 4).
    { intros a H. unfold lead_len, byte_between in *. leb_cases. }
    intros H. inversion H; subst; do 2 eexists; (split; [reflexivity|]);
      (split; [simpl; auto|]); simpl; intros x Hx; apply continuation_spec;
      intuition; subst; auto.
  - intros (c & r & -> & L & C).
    assert (C' : forall x, In x r -> byte_between 128 191 x).
    { intros x Hx. apply continuation_spec. auto. }
    clear C. destruct (lead_len_inv c) as (I1 & I2 & I3 & I4 & I5).
    destruct r as [|b1 [|b2 [|b3 [|b4 r]]]]; simpl in L.
    + apply utf8_1; auto.
    + apply utf8_2; auto; apply C'; simpl; auto.
    + apply utf8_3; auto; apply C'; simpl; auto.
    + apply utf8_4; auto; apply C'; simpl; auto.
    + lia.
Qed.

Lemma count_cp_conts : forall r total count s,
  (forall x, In x r -> is_utf8_continuation x = true) ->
  count_cp_loop total count (length r) (r ++ s) = count_cp_loop total count 0 s.
Proof.
  induction r as [|x r IH]; intros total count s H; simpl; [reflexivity|].
  rewrite H by (left; reflexivity). apply IH. intros y Hy. apply H. right. exact Hy.
Qed.

Lemma count_cp_char : forall ch total count s, utf8_char ch ->
  count_cp_loop total count 0 (ch ++ s) = count_cp_loop total (S count) 0 s.
Proof.
  intros ch total count s H. apply utf8_char_iff in H.
  destruct H as (c & r & -> & L & C). simpl. rewrite code_point_length_spec, L.
  apply count_cp_conts. exact C.
Qed.

Lemma count_cp_chars : forall cs total count s, Forall utf8_char cs ->
  count_cp_loop total count 0 (concat cs ++ s) = count_cp_loop total (count + length cs) 0 s.
Proof.
  induction cs as [|ch cs IH]; intros total count s F; simpl.
  - rewrite Nat.add_0_r. reflexivity.
  - inversion F; subst. rewrite <- app_assoc, count_cp_char by assumption.
    rewrite IH by assumption. f_equal. lia.
Qed.

Lemma count_text_proof : forall s n, utf8_text s n -> count_code_points s = n.
Proof.
  intros s n (cs & F & -> & ->). unfold count_code_points.
  rewrite <- (app_nil_r (concat cs)) at 2. rewrite count_cp_chars by assumption.
  reflexivity.
Qed.

(** A partly read code point at the end of the text. *)
Lemma count_cp_conts_cut : forall r total count l,
  (forall x, In x r -> is_utf8_continuation x = true) -> length r <= l ->
  count_cp_loop total count l r = count.
Proof.
  induction r as [|x r IH]; intros total count l H L; simpl; [reflexivity|].
  destruct l; simpl in L; [lia|]. rewrite H by (left; reflexivity).
  apply IH; [|lia]. intros y Hy. apply H. right. exact Hy.
Qed.

Lemma truncated_iff : forall t, truncated_char t <->
  exists c r, t = c :: r /\ S (length r) < lead_len c /\
    (forall x, In x r -> is_utf8_continuation x = true).
Proof.
  intros t. split.
  - intros (NE & u & NU & H). apply utf8_char_iff in H.
    destruct H as (c & r & E & L & C).
    destruct t as [|c' r']; [congruence|]. inversion E; subst.
    exists c, r'. split; [reflexivity|]. split.
    + rewrite app_length in L. destruct u; [congruence|]. simpl in L. lia.
    + intros x Hx. apply C. apply in_or_app. auto.
  - intros (c & r & -> & L & C). split; [discriminate|].
    exists (repeat "128"%char (lead_len c - S (length r))). split.
    + destruct (lead_len c - S (length r)) eqn:E; [lia|discriminate].
    + apply utf8_char_iff. exists c, (r ++ repeat "128"%char (lead_len c - S (length r))).
      split; [reflexivity|]. split.
      * rewrite app_length, repeat_length. lia.
      * intros x Hx. apply in_app_or in Hx. destruct Hx as [Hx|Hx]; [auto|].
        apply repeat_spec in Hx. subst. reflexivity.
Qed.

Lemma count_truncated_proof : forall s n t, utf8_text s n -> truncated_char t ->
  count_code_points (s ++ t) = S n.
Proof.
  intros s n t (cs & F & -> & ->) T. apply truncated_iff in T.
  destruct T as (c & r & -> & L & C). unfold count_code_points.
  rewrite count_cp_chars by assumption. simpl.
  rewrite code_point_length_spec.
  destruct (lead_len c) as [|l] eqn:E; [lia|].
  rewrite count_cp_conts_cut; [reflexivity|exact C|lia].
Qed.

(** Every string is text, text with a cut-off end, or malformed. *)
Lemma count_cp_conts_bad : forall l total count s,
  (exists r s', s = r ++ s' /\ length r = l /\
     (forall x, In x r -> is_utf8_continuation x = true)) \/
  (length s < l /\ (forall x, In x s -> is_utf8_continuation x = true)) \/
  count_cp_loop total count l s = total.
Proof.
  induction l as [|l IH]; intros total count s.
  - left. exists [], s. repeat split; try (intros x []); auto. 
  - destruct s as [|x s].
    + right. left. split; [simpl; lia|]. intros x [].
    + destruct (is_utf8_continuation x) eqn:E.
      * destruct (IH total count s) as [(r & s' & -> & L & C)|[(L & C)|B]].
        -- left. exists (x :: r), s'. repeat split; simpl; auto.
           intros y [<-|Hy]; auto.
        -- right. left. split; [simpl; lia|]. intros y [<-|Hy]; auto.
        -- right. right. simpl. rewrite E. exact B.
      * right. right. simpl. rewrite E. reflexivity.
Qed.

Lemma count_cp_cases : forall k total count s, length s <= k ->
  (exists cs, Forall utf8_char cs /\ s = concat cs) \/
  (exists cs t, Forall utf8_char cs /\ truncated_char t /\ s = concat cs ++ t) \/
  count_cp_loop total count 0 s = total.
Proof.
  induction k as [|k IH]; intros total count s Hk.
  - destruct s; simpl in Hk; [|lia]. left. exists []. split; [constructor|reflexivity].
  - destruct s as [|c s].
    + left. exists []. split; [constructor|reflexivity].
    + simpl. rewrite code_point_length_spec. destruct (lead_len c) as [|l] eqn:E.
      { right. right. reflexivity. }
      destruct (count_cp_conts_bad l total (S count) s) as [(r & s' & -> & L & C)|[(L & C)|B]].
      * assert (U : utf8_char (c :: r)).
        { apply utf8_char_iff. exists c, r. split; [reflexivity|]. split; [congruence|exact C]. }
        rewrite <- L, count_cp_conts by exact C.
        destruct (IH total (S count) s') as [(cs & F & ->)|[(cs & t & F & T & ->)|B]].
        { simpl in Hk. rewrite app_length in Hk. lia. }
        -- left. exists ((c :: r) :: cs). split; [constructor; assumption|reflexivity].
        -- right. left. exists ((c :: r) :: cs), t.
           split; [constructor; assumption|]. split; [exact T|].
           simpl. rewrite <- app_assoc. reflexivity.
        -- right. right. exact B.
      * right. left. exists [], (c :: s). split; [constructor|]. split; [|reflexivity].
        apply truncated_iff. exists c, s. split; [reflexivity|]. split; [lia|exact C].
      * right. right. exact B.
Qed.

Lemma count_malformed_proof : forall s,
  (forall n, ~ utf8_text s n) ->
  (forall p n t, utf8_text p n -> truncated_char t -> s <> p ++ t) ->
  count_code_points s = length s.
Proof.
  intros s H1 H2. unfold count_code_points.
  destruct (count_cp_cases (length s) (length s) 0 s (le_n _))
    as [(cs & F & E)|[(cs & t & F & T & E)|B]]; [| |exact B]; exfalso.
  - apply (H1 (length cs)). exists cs. auto.
  - apply (H2 (concat cs) (length cs) t); auto. exists cs. auto.
Qed.

Lemma utf8_char_nonempty : forall ch, utf8_char ch -> 1 <= length ch.
Proof. intros ch H. inversion H; simpl; lia. Qed.

Lemma concat_length_ge : forall cs, Forall utf8_char cs -> length cs <= length (concat cs).
Proof.
  induction 1 as [|ch cs H F IH]; simpl; [lia|].
  rewrite app_length. pose proof (utf8_char_nonempty _ H). lia.
Qed.

Lemma count_le_length_proof : forall s, count_code_points s <= length s.
Proof.
  intros s. unfold count_code_points at 1.
  destruct (count_cp_cases (length s) (length s) 0 s (le_n _))
    as [(cs & F & E)|[(cs & t & F & T & E)|B]].
  - assert (X : count_code_points s = length cs).
    { apply count_text_proof. exists cs. auto. }
    unfold count_code_points in X. rewrite X, E. apply concat_length_ge. exact F.
  - assert (X : count_code_points (concat cs ++ t) = S (length cs)).
    { apply count_truncated_proof; [|exact T]. exists cs. auto. }
    rewrite <- E in X. unfold count_code_points in X. rewrite X, E, app_length.
    pose proof (concat_length_ge _ F). destruct T as (NE & _).
    destruct t; [congruence|]. simpl. lia.
  - rewrite B. lia.
Qed.

(** [find_nth_code_point]. *)
Lemma find_nth_conts : forall r n i count s,
  (forall x, In x r -> is_utf8_continuation x = true) ->
  find_nth_loop n i count (length r) (r ++ s) = find_nth_loop n (i + length r) count 0 s.
Proof.
  induction r as [|x r IH]; intros n i count s H; simpl.
  - rewrite Nat.add_0_r. reflexivity.
  - rewrite H by (left; reflexivity). rewrite IH.
    + f_equal. lia.
    + intros y Hy. apply H. right. exact Hy.
Qed.

Lemma find_nth_chars : forall cs n i count, Forall utf8_char cs -> count <= n ->
  find_nth_loop n i count 0 (concat cs) =
  if n - count <? length cs then Some (i + length (concat (firstn (n - count) cs))) else None.
Proof.
  induction cs as [|ch cs IH]; intros n i count F L; simpl.
  - destruct (n - count); reflexivity.
  - inversion F; subst. apply utf8_char_iff in H1.
    destruct H1 as (c & r & -> & Ll & C). simpl.
    destruct (Nat.eqb_spec count n) as [->|N].
    + rewrite Nat.sub_diag. simpl. f_equal. lia.
    + rewrite code_point_length_spec, Ll, find_nth_conts by exact C.
      rewrite IH by (auto; lia).
      replace (n - count) with (S (n - S count)) by lia.
      simpl firstn. simpl concat.
      replace (S (n - S count) <? S (length cs)) with (n - S count <? length cs) by reflexivity.
      destruct (n - S count <? length cs); [|reflexivity].
      f_equal. simpl. rewrite app_length. lia.
Qed.

Lemma find_nth_proof : forall cs n, Forall utf8_char cs ->
  find_nth_code_point (concat cs) n =
  if n <? length cs then Some (length (concat (firstn n cs))) else None.
Proof.
  intros cs n F. unfold find_nth_code_point.
  pose proof (concat_length_ge cs F).
  destruct (Nat.leb_spec (length (concat cs)) n).
  - destruct (Nat.ltb_spec n (length cs)); [lia|reflexivity].
  - rewrite find_nth_chars by (auto; lia). rewrite Nat.sub_0_r. reflexivity.
Qed.

Lemma find_nth_loop_range : forall n s i count char_len p, 
  find_nth_loop n i count char_len s = Some p -> p = n \/ (i <= p < i + length s).
Proof.
  induction s as [|c s IH]; intros i count char_len p H; simpl in *.
  - destruct char_len; inversion H; auto.
  - destruct char_len as [|l].
    + destruct (count =? n); [inversion H; subst; right; lia|].
      destruct (get_code_point_length c); [inversion H; auto|].
      apply IH in H. destruct H; [auto|right; lia].
    + destruct (is_utf8_continuation c); [|inversion H; auto].
      apply IH in H. destruct H; [auto|right; lia].
Qed.

Lemma find_nth_range_proof : forall s n p,
  find_nth_code_point s n = Some p -> p < length s.
Proof.
  intros s n p H. unfold find_nth_code_point in H.
  destruct (Nat.leb_spec (length s) n); [discriminate|].
  apply find_nth_loop_range in H. destruct H; lia.
Qed.

Lemma equal_ci_proof : forall a b,
  are_equal_ci a b = true <-> length a = length b /\ lower a = lower b.
Proof.
  intros a b. rewrite are_equal_ci_spec, str_eqb_eq. split; [|tauto].
  intros E. split; [|exact E]. rewrite <- (lower_length a), <- (lower_length b). congruence.
Qed.

Lemma equal_ci_equivalence_proof :
  (forall a, are_equal_ci a a = true) /\
  (forall a b, are_equal_ci a b = are_equal_ci b a) /\
  (forall a b c, are_equal_ci a b = true -> are_equal_ci b c = true ->
     are_equal_ci a c = true).
Proof.
  split; [|split].
  - intros a. rewrite are_equal_ci_spec. apply str_eqb_refl.
  - intros a b. rewrite !are_equal_ci_spec. apply str_eqb_sym.
  - intros a b c. rewrite !are_equal_ci_spec, !str_eqb_eq. congruence.
Qed.
