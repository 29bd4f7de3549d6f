(** Proofs for C68: conversion to floating point numbers. *)
From Verif Require Import Base BaseProofs MStrings MParseInt MData MValues MResults SValues SResults StrProofs IntProofs.
Open Scope nat_scope.

(** ** Digits *)

(** [r] does not begin with a digit of base [b]. *)
Definition stops (b : N) (r : str) : Prop :=
  match r with
  | c :: _ => forall d, digit_of c = Some d -> (b <= d)%N
  | [] => True
  end.

Lemma read_digits_sound : forall b s acc any n any' r, read_digits b acc any s = (n, any', r) ->
  exists ds, s = ds ++ r /\ digits_value b acc ds = Some n /\ any' = any || negb (is_empty ds).
Proof.
  intros b. induction s as [|c s IH]; intros acc any n any' r E; cbn [read_digits] in E.
  - injection E as <- <- <-. exists []. cbn. rewrite orb_false_r. auto.
  - destruct (digit_of c) as [d|] eqn:D; [destruct (d <? b)%N eqn:L|].
    + apply IH in E. destruct E as (ds & -> & V & ->). exists (c :: ds). split; [reflexivity|].
      split; [cbn [digits_value]; rewrite D, L; exact V|]. cbn. rewrite orb_true_r. reflexivity.
    + injection E as <- <- <-. exists []. cbn. rewrite orb_false_r. auto.
    + injection E as <- <- <-. exists []. cbn. rewrite orb_false_r. auto.
Qed.

Lemma read_digits_back : forall b ds acc any n r, digits_value b acc ds = Some n -> stops b r ->
  read_digits b acc any (ds ++ r) = (n, any || negb (is_empty ds), r).
Proof.
  intros b. induction ds as [|c ds IH]; intros acc any n r V S0; cbn [digits_value app] in *.
  - injection V as <-. cbn. rewrite orb_false_r. destruct r as [|c r]; [reflexivity|]. cbn [read_digits].
    destruct (digit_of c) as [d|] eqn:D; [|reflexivity]. rewrite (proj2 (N.ltb_ge _ _)); [reflexivity|apply S0; exact D].
  - cbn [read_digits]. destruct (digit_of c) as [d|]; [|discriminate]. destruct (d <? b)%N; [|discriminate].
    rewrite (IH _ true n r V S0). cbn. rewrite orb_true_r. reflexivity.
Qed.

Lemma digits_value_shift : forall b ds acc v, digits_value b 0 ds = Some v ->
  digits_value b acc ds = Some (acc * b ^ N.of_nat (length ds) + v)%N.
Proof.
  assert (G : forall b ds a1 a2 v, digits_value b a1 ds = Some v ->
    digits_value b (a1 + a2) ds = Some (v + a2 * b ^ N.of_nat (length ds))%N).
  { intros b. induction ds as [|c ds IH]; intros a1 a2 v E; cbn [digits_value] in *.
    - injection E as <-. cbn. f_equal. lia.
    - destruct (digit_of c) as [d|]; [|discriminate]. destruct (d <? b)%N; [|discriminate].
      replace ((a1 + a2) * b + d)%N with ((a1 * b + d) + a2 * b)%N by lia. rewrite (IH _ _ v E). f_equal.
      cbn [length]. rewrite Nat2N.inj_succ, N.pow_succ_r'. lia. }
  intros b ds acc v E. pose proof (G b ds 0%N acc v E) as X. rewrite N.add_0_l in X. rewrite X. f_equal. lia.
Qed.
Lemma digits_value_some : forall b ds acc m, digits_value b acc ds = Some m ->
  exists v, digits_value b 0 ds = Some v /\ m = (acc * b ^ N.of_nat (length ds) + v)%N.
Proof.
  intros b ds acc m E. assert (X : exists v, digits_value b 0 ds = Some v).
  { revert acc m E. generalize 0%N. induction ds as [|c ds IH]; intros z acc m E; [eexists; reflexivity|].
    cbn [digits_value] in *. destruct (digit_of c) as [d|]; [|discriminate]. destruct (d <? b)%N; [|discriminate].
    apply (IH _ _ _ E). }
  destruct X as (v & V). exists v. split; [exact V|]. rewrite (digits_value_shift b ds acc v V) in E. congruence.
Qed.

Lemma digits_iff : forall b ds n, digits b ds n <-> digits_value b 0 ds = Some n.
Proof.
  intros b ds n. unfold digits. rewrite number_value. destruct ds as [|c ds].
  - cbn. split; [intros [(_ & ->)|(X & _)]; [reflexivity|congruence]|]. intros E. injection E as <-. auto.
  - split; [intros [(X & _)|(_ & E)]; [discriminate|exact E]|]. intros E. right. split; [discriminate|exact E].
Qed.

Lemma read_fraction_sound : forall b s acc after any n after' any' r, read_fraction b acc after any s = (n, after', any', r) ->
  exists ds, s = ds ++ r /\ digits_value b acc ds = Some n /\ any' = any || negb (is_empty ds) /\
    after' = (after + Z.of_nat (length ds))%Z.
Proof.
  intros b. induction s as [|c s IH]; intros acc after any n after' any' r E; cbn [read_fraction] in E.
  - injection E as <- <- <- <-. exists []. cbn. rewrite orb_false_r, Z.add_0_r. auto.
  - destruct (digit_of c) as [d|] eqn:D; [destruct (d <? b)%N eqn:L|].
    + apply IH in E. destruct E as (ds & -> & V & -> & ->). exists (c :: ds). split; [reflexivity|].
      split; [cbn [digits_value]; rewrite D, L; exact V|]. split; [cbn; rewrite orb_true_r; reflexivity|]. cbn [length]. lia.
    + injection E as <- <- <- <-. exists []. cbn. rewrite orb_false_r, Z.add_0_r. auto.
    + injection E as <- <- <- <-. exists []. cbn. rewrite orb_false_r, Z.add_0_r. auto.
Qed.

Lemma read_fraction_back : forall b ds acc after any n r, digits_value b acc ds = Some n -> stops b r ->
  read_fraction b acc after any (ds ++ r) = (n, (after + Z.of_nat (length ds))%Z, any || negb (is_empty ds), r).
Proof.
  intros b. induction ds as [|c ds IH]; intros acc after any n r V S0; cbn [digits_value app] in *.
  - injection V as <-. cbn [length is_empty negb]. rewrite orb_false_r, Z.add_0_r. destruct r as [|c r]; [reflexivity|]. cbn [read_fraction].
    destruct (digit_of c) as [d|] eqn:D; [|reflexivity]. rewrite (proj2 (N.ltb_ge _ _)); [reflexivity|apply S0; exact D].
  - cbn [read_fraction]. destruct (digit_of c) as [d|]; [|discriminate]. destruct (d <? b)%N; [|discriminate].
    rewrite (IH _ _ true n r V S0). cbn [length is_empty negb]. rewrite orb_true_r. do 3 f_equal. lia.
Qed.

(** ** Mantissa *)

Lemma point_stops : forall b r, stops b ("."%char :: r).
Proof. intros b r d E. discriminate. Qed.

Lemma read_mantissa_sound : forall b s m after r, read_mantissa b s = (m, after, true, r) ->
  exists ms, s = ms ++ r /\ mantissa b ms m after.
Proof.
  intros b s m after r E. unfold read_mantissa in E.
  destruct (read_digits b 0 false s) as ((n & any) & r1) eqn:D. apply read_digits_sound in D.
  destruct D as (ds & -> & V & ->). cbn [orb] in E.
  assert (W : forall r', (n, 0%Z, negb (is_empty ds), r') = (m, after, true, r) ->
                exists ms, ds ++ r' = ms ++ r /\ mantissa b ms m after).
  { intros r' E'. injection E' as <- <- En <-. exists ds. split; [reflexivity|]. constructor. apply number_value.
    split; [destruct ds; [discriminate|congruence]|exact V]. }
  destruct r1 as [|c r1]; [apply W; exact E|].
  destruct (Ascii.eqb c "."%char) eqn:Ec; [|apply W; exact E]. clear W. apply Ascii.eqb_eq in Ec. subst c.
  destruct (read_fraction b n 0 (negb (is_empty ds)) r1) as (((m' & after') & any') & r2) eqn:F.
  destruct any'; [|discriminate]. injection E as <- <- <-. apply read_fraction_sound in F.
  destruct F as (fs & -> & Vf & Ea & ->). exists (ds ++ "."%char :: fs). split; [rewrite <- app_assoc; reflexivity|].
  apply digits_value_some in Vf. destruct Vf as (v & Vf & ->). cbn [Z.add].
  constructor; [apply digits_iff; exact V|apply digits_iff; exact Vf|].
  intros E. apply app_eq_nil in E. destruct E as (-> & ->). discriminate.
Qed.

Lemma read_mantissa_back : forall b ms m after r, mantissa b ms m after -> stops b r -> hd " "%char r <> "."%char ->
  read_mantissa b (ms ++ r) = (m, after, true, r).
Proof.
  intros b ms m after r H S0 P. unfold read_mantissa. destruct H as [ds n Hn|ds fs n m Hd Hf Ne].
  - apply number_value in Hn. destruct Hn as (Ne & V). rewrite (read_digits_back b ds 0 false n r V S0).
    destruct ds as [|c ds]; [congruence|]. cbn [is_empty negb orb].
    destruct r as [|x r]; [reflexivity|]. destruct (Ascii.eqb_spec x "."%char); [subst; cbn in P; congruence|reflexivity].
  - apply digits_iff in Hd, Hf. rewrite <- app_assoc. cbn [app].
    rewrite (read_digits_back b ds 0 false n _ Hd (point_stops b _)). rewrite Ascii.eqb_refl.
    rewrite (read_fraction_back b fs n 0 _ _ r (digits_value_shift b fs n m Hf) S0). cbn [orb].
    replace (negb (is_empty ds) || negb (is_empty fs)) with true; [reflexivity|].
    destruct ds, fs; try reflexivity. cbn in Ne. congruence.
Qed.

(** ** Letters *)

Lemma lower_iff : forall c x, (97 <= u8 c <= 122)%N ->
  (lower_ascii x = c <-> x = c \/ (97 <= u8 c <= 122)%N /\ u8 x = (u8 c - 32)%N).
Proof.
  intros c x Hc. assert (U : u8 (lower_ascii x) = if ((65 <=? u8 x) && (u8 x <=? 90))%N then (u8 x + 32)%N else u8 x).
  { assert (H : (u8 (lower_ascii x) =? if ((65 <=? u8 x) && (u8 x <=? 90))%N then (u8 x + 32)%N else u8 x)%N = true).
    { revert x. apply all_bytes_1. vm_compute. reflexivity. }
    apply N.eqb_eq in H. exact H. }
  destruct ((65 <=? u8 x) && (u8 x <=? 90))%N eqn:B.
  - apply andb_prop in B. destruct B as (B1 & B2). apply N.leb_le in B1, B2. split.
    + intros <-. right. lia.
    + intros [->|(_ & E)]; [lia|]. apply u8_inj. lia.
  - assert (~ (65 <= u8 x <= 90)%N) by (intros (B1 & B2); apply N.leb_le in B1, B2; rewrite B1, B2 in B; discriminate).
    split.
    + intros <-. left. apply u8_inj. rewrite U. reflexivity.
    + intros [->|(_ & E)]; [|lia]. apply u8_inj. exact U.
Qed.

Definition small (w : str) : Prop := forall c, In c w -> (97 <= u8 c <= 122)%N.

Lemma skip_word_iff : forall w s r, small w -> (skip_word w s = Some r <-> exists p, s = p ++ r /\ any_case w p).
Proof.
  induction w as [|c w IH]; intros s r Hw; cbn [skip_word].
  - split; [intros E; injection E as ->; exists []; split; [reflexivity|constructor]|].
    intros (p & -> & A). inversion A; subst. reflexivity.
  - assert (Hc : (97 <= u8 c <= 122)%N) by (apply Hw; left; reflexivity).
    assert (Hw' : small w) by (intros y Hy; apply Hw; right; exact Hy).
    destruct s as [|x s].
    + split; [discriminate|]. intros (p & E & A). inversion A; subst. discriminate.
    + destruct (Ascii.eqb_spec (lower_ascii x) c) as [E|E].
      * rewrite IH by exact Hw'. split.
        -- intros (p & -> & A). exists (x :: p). split; [reflexivity|]. constructor; [apply lower_iff; assumption|exact A].
        -- intros (p & Ep & A). inversion A; subst. cbn [app] in Ep. injection Ep as -> ->. eexists. split; [reflexivity|assumption].
      * split; [discriminate|]. intros (p & Ep & A). inversion A; subst. cbn [app] in Ep. injection Ep as -> ->.
        exfalso. apply E. apply lower_iff; assumption.
Qed.

Lemma any_case_length : forall w s, any_case w s -> length s = length w.
Proof. induction 1; cbn [length]; lia. Qed.

(** ** Exponent *)

Lemma read_sign_digits : forall sg neg ds n, sign sg neg -> number 10 ds n -> read_sign (sg ++ ds) = (neg, ds).
Proof.
  intros sg neg ds n S0 Hn. apply number_value in Hn. destruct Hn as (Ne & V). destruct ds as [|c ds]; [congruence|].
  cbn [digits_value] in V. destruct (digit_of c) as [d|] eqn:D; [|discriminate].
  destruct (digit_not_special _ _ D) as (_ & D2 & D3). destruct S0; cbn [app]; try reflexivity.
  cbn [read_sign]. destruct (Ascii.eqb_spec c "-"%char); [congruence|]. destruct (Ascii.eqb_spec c "+"%char); [congruence|]. reflexivity.
Qed.

Lemma read_exponent_iff : forall l u s e, (97 <= u8 l <= 122)%N -> u8 u = (u8 l - 32)%N ->
  (read_exponent l s = (e, []) <-> exponent l u s e).
Proof.
  intros l u s e Hl Hu.
  assert (L : forall c, lower_ascii c = l <-> c = l \/ c = u).
  { intros c. rewrite (lower_iff l c Hl). split; (intros [E|E]; [left; exact E|right]).
    - apply u8_inj. destruct E. congruence.
    - subst c. auto. }
  split.
  - destruct s as [|c s]; cbn [read_exponent]; intros E; [injection E as <-; constructor|].
    destruct (Ascii.eqb_spec (lower_ascii c) l) as [El|El]; [|discriminate].
    destruct (read_sign s) as (neg & r1) eqn:Es. destruct (read_digits 10 0 false r1) as ((n & any) & r2) eqn:Ed.
    destruct any; [|discriminate]. injection E as <- ->. apply read_sign_spec in Es. destruct Es as (sg & -> & Hsg).
    apply read_digits_all in Ed. destruct Ed as (V & Ne).
    change ((if neg then - Z.of_N n else Z.of_N n)%Z) with (signed neg n).
    constructor; [apply L; exact El|exact Hsg|]. apply number_value. split; [|exact V]. destruct r1; [discriminate|congruence].
  - intros [|c sg neg ds n Hc Hsg Hn]; [reflexivity|]. cbn [read_exponent].
    destruct (Ascii.eqb_spec (lower_ascii c) l) as [_|El]; [|destruct El; apply L; exact Hc].
    rewrite (read_sign_digits _ _ _ _ Hsg Hn). apply number_value in Hn. destruct Hn as (Ne & V).
    replace (read_digits 10 0 false ds) with (n, true, @nil ascii).
    + reflexivity.
    + symmetry. apply read_digits_all. split; [exact V|]. destruct ds; [congruence|reflexivity].
Qed.

Lemma exponent_stops : forall b l u s e, exponent l u s e ->
  (forall d, digit_of l = Some d \/ digit_of u = Some d -> (b <= d)%N) -> l <> "."%char -> u <> "."%char ->
  stops b s /\ hd " "%char s <> "."%char.
Proof.
  intros b l u s e H D L U. destruct H as [|c sg neg ds n Hc _ _]; [split; [exact Logic.I|discriminate]|].
  cbn. destruct Hc as [->|Hc]; [|subst c]; (split; [intros d E; apply D; auto|assumption]).
Qed.

(** ** Numbers *)

Lemma hex_prefix_iff : forall s, has_hex_float_prefix s = true <-> exists x t, s = "0"%char :: x :: t /\
  (x = "x"%char \/ x = "X"%char) /\
  (exists h r d, digit_of h = Some d /\ (d < 16)%N /\ (t = h :: r \/ t = "."%char :: h :: r)).
Proof.
  assert (Hx : forall x, lower_ascii x = "x"%char <-> x = "x"%char \/ x = "X"%char).
  { intros x. rewrite (lower_iff "x"%char x) by (vm_compute; split; discriminate). split; (intros [E|E]; [left; exact E|right]).
    - apply u8_inj. destruct E as (_ & ->). reflexivity.
    - subst x. split; [vm_compute; split; discriminate|reflexivity]. }
  assert (Hh : forall h, hex_digit h = true <-> exists d, digit_of h = Some d /\ (d < 16)%N).
  { intros h. unfold hex_digit. destruct (digit_of h) as [d|].
    - rewrite N.ltb_lt. split; [intros L; exists d; auto|]. intros (d' & E & L). injection E as ->. exact L.
    - split; [discriminate|]. intros (d & E & _). discriminate. }
  intros s. split.
  - intros E. destruct s as [|z [|x [|h r]]]; try discriminate. cbn [has_hex_float_prefix] in E.
    apply andb_prop in E. destruct E as (E & E3). apply andb_prop in E. destruct E as (E1 & E2).
    apply Ascii.eqb_eq in E1, E2. subst z. exists x, (h :: r). split; [reflexivity|]. split; [apply Hx; exact E2|].
    apply orb_prop in E3. destruct E3 as [E3|E3].
    + apply Hh in E3. destruct E3 as (d & D & L). exists h, r, d. auto.
    + apply andb_prop in E3. destruct E3 as (Ep & E3). apply Ascii.eqb_eq in Ep. subst h. destruct r as [|c r]; [discriminate|].
      apply Hh in E3. destruct E3 as (d & D & L). exists c, r, d. auto.
  - intros (x & t & -> & Xx & h & r & d & D & L & [-> | ->]); cbn [has_hex_float_prefix]; apply Hx in Xx; rewrite Xx.
    + replace (hex_digit h) with true; [reflexivity|]. symmetry. apply Hh. exists d. auto.
    + replace (hex_digit h) with true; [rewrite orb_true_r; reflexivity|]. symmetry. apply Hh. exists d. auto.
Qed.

Lemma mantissa_head : forall b ms m after, mantissa b ms m after ->
  exists h r d, digit_of h = Some d /\ (d < b)%N /\ (ms = h :: r \/ ms = "."%char :: h :: r).
Proof.
  assert (G : forall b ds n, digits_value b 0 ds = Some n -> ds <> [] ->
            exists h r d, digit_of h = Some d /\ (d < b)%N /\ ds = h :: r).
  { intros b ds n V Ne. destruct ds as [|c ds]; [congruence|]. cbn [digits_value] in V.
    destruct (digit_of c) as [d|] eqn:D; [|discriminate]. destruct (d <? b)%N eqn:L; [|discriminate].
    apply N.ltb_lt in L. exists c, ds, d. auto. }
  intros b ms m after [ds n Hn|ds fs n k Hd Hf Ne].
  - apply number_value in Hn. destruct Hn as (Ne & V). destruct (G _ _ _ V Ne) as (h & r & d & D & L & E). exists h, r, d. auto.
  - apply digits_iff in Hd, Hf. destruct ds as [|c ds].
    + destruct (G _ _ _ Hf Ne) as (h & r & d & D & L & E). exists h, r, d. subst fs. auto.
    + destruct (G _ _ _ Hd) as (h & r & d & D & L & E); [discriminate|]. exists h, (r ++ "."%char :: fs), d. rewrite E. auto.
Qed.

Lemma scan_number_sound : forall neg s t, scan_number neg s = Some (t, []) -> unsigned_float s neg t.
Proof.
  intros neg s t E. unfold scan_number in E. destruct (has_hex_float_prefix s) eqn:Hp.
  - apply hex_prefix_iff in Hp. destruct Hp as (x & r & -> & Hx & _). cbn [skipn] in E.
    destruct (read_mantissa 16 r) as (((m & after) & any) & r1) eqn:M. destruct (read_exponent "p"%char r1) as (e & r2) eqn:Ee.
    destruct any; [|discriminate]. injection E as <- ->. apply read_mantissa_sound in M. destruct M as (ms & -> & M).
    apply (read_exponent_iff "p"%char "P"%char) in Ee; [|vm_compute; split; discriminate|reflexivity].
    apply uf_hex; assumption.
  - destruct (read_mantissa 10 s) as (((m & after) & any) & r1) eqn:M. destruct (read_exponent "e"%char r1) as (e & r2) eqn:Ee.
    destruct any; [|discriminate]. injection E as <- ->. apply read_mantissa_sound in M. destruct M as (ms & -> & M).
    apply (read_exponent_iff "e"%char "E"%char) in Ee; [|vm_compute; split; discriminate|reflexivity].
    apply uf_decimal; assumption.
Qed.

Lemma scan_decimal : forall neg ms m after es e, mantissa 10 ms m after -> exponent "e" "E" es e ->
  scan_number neg (ms ++ es) = Some (FNum neg m 10 (e - after), []).
Proof.
  intros neg ms m after es e M Ex. unfold scan_number.
  destruct (exponent_stops 10 _ _ _ _ Ex) as (S1 & S2); [|discriminate|discriminate|].
  { intros d [E|E]; vm_compute in E; injection E as <-; vm_compute; discriminate. }
  assert (Hp : has_hex_float_prefix (ms ++ es) = false).
  { apply not_true_is_false. intros Hp. apply hex_prefix_iff in Hp. destruct Hp as (x & t & E & Hx & _).
    assert (Dx : forall d, digit_of x = Some d -> (10 <= d)%N).
    { intros d D. destruct Hx; subst x; vm_compute in D; injection D as <-; vm_compute; discriminate. }
    assert (Ex' : x <> "."%char /\ x <> "e"%char /\ x <> "E"%char) by (destruct Hx; subst x; repeat split; discriminate).
    destruct Ex' as (X1 & X2 & X3).
    assert (G : forall b ds n r, digits_value b 0 ds = Some n -> ds ++ r = "0"%char :: x :: t -> b = 10%N -> (ds = [] \/ ds = ["0"%char])).
    { intros b ds n r V E1 ->. destruct ds as [|c0 [|c1 ds]]; [auto| |].
      - cbn [app] in E1. injection E1 as -> _. auto.
      - cbn [app] in E1. injection E1 as -> -> _. cbn [digits_value] in V. cbn in V.
        destruct (digit_of x) as [d|] eqn:D; [|discriminate]. rewrite (proj2 (N.ltb_ge _ _)) in V; [discriminate|apply Dx; reflexivity]. }
    destruct M as [ds n Hn|ds fs n k Hd Hf Ne].
    - apply number_value in Hn. destruct Hn as (Ne & V). destruct (G _ _ _ _ V E eq_refl) as [-> | ->]; [congruence|].
      cbn [app] in E. injection E as E. destruct Ex as [|c sg neg' ds n' Hc _ _]; [discriminate|]. cbn [app] in E. injection E as -> _. destruct Hc; congruence.
    - apply digits_iff in Hd. rewrite <- app_assoc in E. destruct (G _ _ _ _ Hd E eq_refl) as [-> | ->]; cbn [app] in E; [discriminate|].
      injection E as E _. congruence. }
  rewrite Hp, (read_mantissa_back _ _ _ _ _ M S1 S2).
  apply (read_exponent_iff "e"%char "E"%char) in Ex; [|vm_compute; split; discriminate|reflexivity]. rewrite Ex. reflexivity.
Qed.

Lemma scan_hex : forall neg x ms m after es e, x = "x"%char \/ x = "X"%char -> mantissa 16 ms m after -> exponent "p" "P" es e ->
  scan_number neg ("0"%char :: x :: ms ++ es) = Some (FNum neg m 2 (e - 4 * after), []).
Proof.
  intros neg x ms m after es e Hx M Ex. unfold scan_number.
  destruct (exponent_stops 16 _ _ _ _ Ex) as (S1 & S2); [|discriminate|discriminate|].
  { intros d [E|E]; vm_compute in E; injection E as <-; vm_compute; discriminate. }
  replace (has_hex_float_prefix ("0"%char :: x :: ms ++ es)) with true.
  2:{ symmetry. apply hex_prefix_iff. exists x, (ms ++ es). split; [reflexivity|]. split; [exact Hx|].
      destruct (mantissa_head _ _ _ _ M) as (h & r & d & D & L & [-> | ->]); exists h, (r ++ es), d; auto. }
  cbn [skipn]. rewrite (read_mantissa_back _ _ _ _ _ M S1 S2).
  apply (read_exponent_iff "p"%char "P"%char) in Ex; [|vm_compute; split; discriminate|reflexivity]. rewrite Ex. reflexivity.
Qed.

(** ** The whole text *)

Lemma nan_chars_sound : forall s r, skip_nan_chars s = r -> exists cs, s = cs ++ r /\
  forall c, In c cs -> (exists d, SValues.is_digit c d) \/ c = "_"%char.
Proof.
  assert (C : forall c, nan_char c = true <-> (exists d, SValues.is_digit c d) \/ c = "_"%char).
  { intros c. unfold nan_char. destruct (digit_of c) as [d|] eqn:D.
    - split; [|reflexivity]. intros _. left. exists d. apply digit_of_spec. exact D.
    - split.
      + intros E. right. apply Ascii.eqb_eq. exact E.
      + intros [(d & E)| ->]; [|reflexivity]. apply digit_of_spec in E. congruence. }
  induction s as [|c s IH]; intros r E; cbn [skip_nan_chars] in E.
  - subst r. exists []. split; [reflexivity|intros c []].
  - destruct (nan_char c) eqn:Ec.
    + destruct (IH r E) as (cs & -> & H). exists (c :: cs). split; [reflexivity|]. intros x [<-|Hx]; [apply C; exact Ec|auto].
    + subst r. exists []. split; [reflexivity|intros x []].
Qed.

Lemma nan_chars_back : forall cs r, (forall c, In c cs -> (exists d, SValues.is_digit c d) \/ c = "_"%char) ->
  skip_nan_chars (cs ++ ")"%char :: r) = ")"%char :: r.
Proof.
  induction cs as [|c cs IH]; intros r H; [reflexivity|]. cbn [app skip_nan_chars].
  replace (nan_char c) with true; [apply IH; intros; apply H; right; assumption|].
  symmetry. unfold nan_char. destruct (H c (or_introl eq_refl)) as [(d & E)| ->]; [|reflexivity].
  apply digit_of_spec in E. rewrite E. reflexivity.
Qed.

Lemma small_infinity : small ($"infinity").
Proof. intros c H. cbn in H. repeat (destruct H as [<-|H]; [vm_compute; split; discriminate|]). destruct H. Qed.
Lemma small_inf : small ($"inf").
Proof. intros c H. cbn in H. repeat (destruct H as [<-|H]; [vm_compute; split; discriminate|]). destruct H. Qed.
Lemma small_nan : small ($"nan").
Proof. intros c H. cbn in H. repeat (destruct H as [<-|H]; [vm_compute; split; discriminate|]). destruct H. Qed.

Lemma skip_word_none : forall w s, small w -> (forall p r, s = p ++ r -> ~ any_case w p) -> skip_word w s = None.
Proof.
  intros w s Hw H. destruct (skip_word w s) as [r|] eqn:E; [|reflexivity].
  apply skip_word_iff in E; [|exact Hw]. destruct E as (p & -> & A). destruct (H p r eq_refl A).
Qed.
Lemma skip_word_whole : forall w p r, small w -> any_case w p -> skip_word w (p ++ r) = Some r.
Proof. intros w p r Hw A. apply skip_word_iff; [exact Hw|]. exists p. auto. Qed.

(** What remains after the sign. *)
Definition scan_unsigned (neg : bool) (s1 : str) : option (float_text * str) :=
  match skip_word ($"infinity") s1 with
  | Some r => Some (FInf neg, r)
  | None =>
      match skip_word ($"inf") s1 with
      | Some r => Some (FInf neg, r)
      | None =>
          match skip_word ($"nan") s1 with
          | Some r =>
              match r with
              | c :: r1 =>
                  if Ascii.eqb c "("%char then
                    match skip_nan_chars r1 with
                    | c2 :: r2 => if Ascii.eqb c2 ")"%char then Some (FNan neg, r2)
                                  else Some (FNan neg, r)
                    | [] => Some (FNan neg, r)
                    end
                  else Some (FNan neg, r)
              | [] => Some (FNan neg, r)
              end
          | None => scan_number neg s1
          end
      end
  end.

Lemma scan_unsigned_sound : forall neg s t, scan_unsigned neg s = Some (t, []) -> unsigned_float s neg t.
Proof.
  intros neg s t E. unfold scan_unsigned in E.
  destruct (skip_word ($"infinity") s) as [r|] eqn:E1.
  { injection E as <- ->. apply skip_word_iff in E1; [|apply small_infinity]. destruct E1 as (p & -> & A).
    rewrite app_nil_r. apply uf_inf. auto. }
  destruct (skip_word ($"inf") s) as [r|] eqn:E2.
  { injection E as <- ->. apply skip_word_iff in E2; [|apply small_inf]. destruct E2 as (p & -> & A).
    rewrite app_nil_r. apply uf_inf. auto. }
  destruct (skip_word ($"nan") s) as [r|] eqn:E3; [|apply scan_number_sound; exact E].
  apply skip_word_iff in E3; [|apply small_nan]. destruct E3 as (p & -> & A).
  destruct r as [|c r1]; [injection E as <-; rewrite app_nil_r; apply uf_nan; exact A|].
  destruct (Ascii.eqb_spec c "("%char) as [->|]; [|discriminate].
  destruct (skip_nan_chars r1) as [|c2 r2] eqn:En; [discriminate|].
  destruct (Ascii.eqb_spec c2 ")"%char) as [->|]; [|discriminate]. injection E as <- ->.
  apply nan_chars_sound in En. destruct En as (cs & -> & H). apply uf_nan_chars; assumption.
Qed.

Lemma number_head : forall c w s r p, (exists d, digit_of c = Some d /\ (d < 10)%N) \/ c = "."%char ->
  c :: s = p ++ r -> any_case w p -> w = $"infinity" \/ w = $"inf" \/ w = $"nan" -> False.
Proof.
  assert (G : forall c x w, (exists d, digit_of c = Some d /\ (d < 10)%N) \/ c = "."%char -> x = "i"%char \/ x = "n"%char ->
             c = x \/ (97 <= u8 x <= 122)%N /\ u8 c = (u8 x - 32)%N -> w = w :> str -> False).
  { intros c x w Hc Hx H _.
    assert (U : c = "i"%char \/ c = "n"%char \/ c = "I"%char \/ c = "N"%char).
    { destruct H as [->|(_ & H)]; [destruct Hx; auto|]. destruct Hx; subst x; [right; right; left|right; right; right]; apply u8_inj; exact H. }
    destruct Hc as [(d & D & L)| ->].
    - destruct U as [->|[->|[->| ->]]]; vm_compute in D; injection D as <-; vm_compute in L; discriminate.
    - destruct U as [X|[X|[X|X]]]; discriminate. }
  intros c w s r p Hc E A Hw.
  assert (X : exists x w', w = x :: w' /\ (x = "i"%char \/ x = "n"%char)).
  { destruct Hw as [->|[->| ->]]; do 2 eexists; split; reflexivity || auto. }
  destruct X as (x & w' & -> & Hx). inversion A; subst. cbn [app] in E. injection E as <- _. eapply (G c x []); eauto.
Qed.

Lemma scan_unsigned_number : forall neg c s, (exists d, digit_of c = Some d /\ (d < 10)%N) \/ c = "."%char ->
  scan_unsigned neg (c :: s) = scan_number neg (c :: s).
Proof.
  intros neg c s Hc. unfold scan_unsigned.
  rewrite (skip_word_none ($"infinity")), (skip_word_none ($"inf")), (skip_word_none ($"nan")); [reflexivity| | | | | |];
    try (apply small_nan || apply small_inf || apply small_infinity);
    intros p r E A; eapply number_head; eauto.
Qed.

Lemma nan_not_inf : forall s r p q w, any_case ($"nan") s -> s ++ r = p ++ q -> any_case ("i"%char :: w) p -> False.
Proof.
  intros s r p q w A E B. inversion A as [|? x ? s0 Hx A']; subst. inversion B as [|? y ? p0 Hy B']; subst.
  cbn [app] in E. injection E as -> _. destruct Hx as [->|(_ & Hx)], Hy as [E|(_ & Hy)]; try discriminate.
  - rewrite E in Hx. discriminate.
  - rewrite Hx in Hy. discriminate.
Qed.

Lemma scan_unsigned_back : forall neg s t, unsigned_float s neg t -> scan_unsigned neg s = Some (t, []).
Proof.
  intros neg s t H. inversion H as [ms m after es e neg' M Ex|x ms m after es e neg' Hx M Ex|s' neg' A|s' neg' A|s' cs neg' A Hcs]; subst.
  - destruct (mantissa_head _ _ _ _ M) as (h & r & d & D & L & Eh).
    replace (scan_unsigned neg (ms ++ es)) with (scan_number neg (ms ++ es)); [apply scan_decimal; assumption|].
    symmetry. destruct Eh as [-> | ->]; cbn [app]; apply scan_unsigned_number; eauto.
  - rewrite scan_unsigned_number; [apply scan_hex; assumption|]. left. exists 0%N. split; [reflexivity|vm_compute; reflexivity].
  - unfold scan_unsigned. destruct A as [A|A].
    + rewrite (skip_word_none ($"infinity") s small_infinity).
      * rewrite <- (app_nil_r s), (skip_word_whole _ _ _ small_inf A). reflexivity.
      * intros p r -> A'. apply any_case_length in A, A'. rewrite app_length in A. cbn in A, A'. lia.
    + rewrite <- (app_nil_r s), (skip_word_whole _ _ _ small_infinity A). reflexivity.
  - unfold scan_unsigned.
    rewrite (skip_word_none ($"infinity") _ small_infinity), (skip_word_none ($"inf") _ small_inf).
    + rewrite <- (app_nil_r s), (skip_word_whole _ _ _ small_nan A). reflexivity.
    + intros p r E B. rewrite <- (app_nil_r s) in E. eapply nan_not_inf; eassumption.
    + intros p r E B. rewrite <- (app_nil_r s) in E. eapply nan_not_inf; eassumption.
  - unfold scan_unsigned.
    rewrite (skip_word_none ($"infinity") _ small_infinity), (skip_word_none ($"inf") _ small_inf).
    + rewrite (skip_word_whole _ _ _ small_nan A). rewrite Ascii.eqb_refl.
      rewrite (nan_chars_back cs [] Hcs), Ascii.eqb_refl. reflexivity.
    + intros p r E B. eapply nan_not_inf; eassumption.
    + intros p r E B. eapply nan_not_inf; eassumption.
Qed.

Lemma unsigned_head : forall s neg t, unsigned_float s neg t ->
  exists c r, s = c :: r /\ ((exists d, digit_of c = Some d) \/ c = "."%char).
Proof.
  assert (W : forall w s, any_case w s -> w = $"infinity" \/ w = $"inf" \/ w = $"nan" ->
            exists c r, s = c :: r /\ exists d, digit_of c = Some d).
  { intros w s A Hw. assert (X : exists x w', w = x :: w' /\ (x = "i"%char \/ x = "n"%char)).
    { destruct Hw as [->|[->| ->]]; do 2 eexists; split; reflexivity || auto. }
    destruct X as (x & w' & -> & Hx). inversion A as [|? y ? s0 Hy A']; subst. exists y, s0. split; [reflexivity|].
    destruct Hx; subst x; (destruct Hy as [->|(_ & Hy)]; [eexists; reflexivity|]).
    - assert (y = "I"%char) by (apply u8_inj; exact Hy). subst y. eexists. reflexivity.
    - assert (y = "N"%char) by (apply u8_inj; exact Hy). subst y. eexists. reflexivity. }
  intros s neg t H. inversion H as [ms m after es e neg' M Ex|x ms m after es e neg' Hx M Ex|s' neg' A|s' neg' A|s' cs neg' A Hcs]; subst.
  - destruct (mantissa_head _ _ _ _ M) as (h & r & d & D & L & [-> | ->]); cbn [app]; do 2 eexists; (split; [reflexivity|]); eauto.
  - do 2 eexists. split; [reflexivity|]. left. eexists. reflexivity.
  - destruct A as [A|A]; destruct (W _ _ A) as (c & r & -> & D); auto; do 2 eexists; split; eauto.
  - destruct (W _ _ A) as (c & r & -> & D); auto; do 2 eexists; split; eauto.
  - destruct (W _ _ A) as (c & r & -> & D); auto; do 2 eexists; (split; [reflexivity|]); eauto.
Qed.

Lemma scan_float_eq : forall s, scan_float s = let (neg, s1) := read_sign (skip_spaces s) in scan_unsigned neg s1.
Proof. reflexivity. Qed.

Lemma scan_float_iff : forall s t, scan_float s = Some (t, []) <-> whole_float s t.
Proof.
  intros s t. rewrite scan_float_eq. split.
  - destruct (skip_spaces_spec s) as (ws & Es & Hws). destruct (read_sign (skip_spaces s)) as (neg & s1) eqn:Esg.
    intros E. apply scan_unsigned_sound in E. apply read_sign_spec in Esg. destruct Esg as (sg & Eg & Hsg).
    exists ws, sg, neg, s1. rewrite <- Eg. auto.
  - intros (ws & sg & neg & u & -> & Hws & Hsg & Hu). rewrite skip_spaces_app by exact Hws.
    destruct (unsigned_head _ _ _ Hu) as (c & r & -> & Hc).
    assert (C : is_space c = false /\ c <> "-"%char /\ c <> "+"%char).
    { destruct Hc as [(d & D)| ->]; [apply (digit_not_special _ _ D)|]. split; [reflexivity|split; discriminate]. }
    destruct C as (C1 & C2 & C3).
    assert (R : read_sign (skip_spaces (sg ++ c :: r)) = (neg, c :: r)).
    { destruct Hsg; cbn [app]; try reflexivity. cbn [skip_spaces]. rewrite C1. cbn [read_sign].
      destruct (Ascii.eqb_spec c "-"%char); [congruence|]. destruct (Ascii.eqb_spec c "+"%char); [congruence|]. reflexivity. }
    rewrite R. apply scan_unsigned_back. exact Hu.
Qed.

Lemma float_proof : forall F (convert : float_text -> F * bool) s x,
  parse_floating_point convert s = Some x <-> exists t, whole_float s t /\ convert t = (x, true).
Proof.
  intros F convert s x. unfold parse_floating_point. split.
  - destruct (is_empty s); [discriminate|]. destruct (scan_float s) as [(t & r)|] eqn:E; [|discriminate].
    destruct r; [|discriminate]. destruct (convert t) as (y & ok) eqn:Ec. destruct ok; [|discriminate].
    intros X. injection X as <-. exists t. split; [apply scan_float_iff; exact E|exact Ec].
  - intros (t & W & Ec). apply scan_float_iff in W.
    destruct s as [|c s]; [vm_compute in W; discriminate|]. cbn [is_empty]. rewrite W, Ec. reflexivity.
Qed.

Lemma whole_float_unique : forall s t1 t2, whole_float s t1 -> whole_float s t2 -> t1 = t2.
Proof. intros s t1 t2 H1 H2. apply scan_float_iff in H1, H2. congruence. Qed.
