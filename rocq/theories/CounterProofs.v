(** Proofs for PCounter.v. *)
From Verif Require Import Base MData MCounter SCounter BaseProofs.

Open Scope N_scope.

(* ------------------------------------------------------------------------ *)
(** ** Sums *)

Lemma sum_app : forall a b, sum (a ++ b) = sum a + sum b.
Proof. induction a as [|x a IH]; intros b; simpl; [reflexivity|]. rewrite IH. lia. Qed.

Lemma minima_le_maxima : forall args, (forall a, In a args -> a_min a <= a_max a) ->
  minima args <= maxima args.
Proof.
  unfold minima, maxima. induction args as [|a r IH]; intros H; simpl; [lia|].
  assert (a_min a <= a_max a) by (apply H; left; reflexivity).
  assert (sum (map a_min r) <= sum (map a_max r)) by (apply IH; intros x Hx; apply H; right; exact Hx).
  lia.
Qed.

Lemma sum_cons : forall x l, sum (x :: l) = x + sum l.
Proof. reflexivity. Qed.

Lemma min_max_fold : forall args lo hi, hi <= SIZE_MAX ->
  fold_left (fun (acc : N * N) a =>
    let (lo, hi) := acc in
    ((lo + a_min a)%N,
     if negb (hi =? SIZE_MAX)%N then
       if (SIZE_MAX - hi <? a_max a)%N then SIZE_MAX else (hi + a_max a)%N
     else hi)) args (lo, hi) =
  (lo + minima args, N.min SIZE_MAX (hi + maxima args)).
Proof.
  unfold minima, maxima.
  induction args as [|a r IH]; intros lo hi H; cbn [fold_left map].
  - change (sum []) with 0. f_equal; lia.
  - rewrite !sum_cons. destruct (N.eqb_spec hi SIZE_MAX) as [E|E]; cbn [negb].
    + rewrite IH by exact H. f_equal; lia.
    + destruct (N.ltb_spec (SIZE_MAX - hi) (a_max a)).
      * rewrite IH by lia. f_equal; lia.
      * rewrite IH by lia. f_equal; lia.
Qed.

Lemma min_max_proof : forall args,
  get_min_max_count args = (minima args, N.min (2 ^ 64 - 1) (maxima args)).
Proof.
  intros. unfold get_min_max_count. rewrite min_max_fold by (unfold SIZE_MAX; lia).
  reflexivity.
Qed.

(* ------------------------------------------------------------------------ *)
(** ** Distribution *)

Lemma distribute_args : forall args n, map snd (distribute args n) = args.
Proof.
  induction args as [|a r IH]; intros n; simpl; [reflexivity|].
  destruct ((n =? 0) || (a_min a =? a_max a))%N; simpl; [rewrite IH; reflexivity|].
  destruct (a_min a + n <=? a_max a)%N; simpl; rewrite IH; reflexivity.
Qed.

Lemma distribute_zero : forall args, map fst (distribute args 0) = map a_min args.
Proof.
  induction args as [|a r IH]; simpl; [reflexivity|]. rewrite IH. reflexivity.
Qed.

(** [fair] for a longer list. *)
Lemma fair_cons : forall a r n k ks, a_min a <= k <= a_max a -> fair r n ks ->
  (k = a_max a \/ ks = map a_min r) -> fair (a :: r) (k + n) (k :: ks).
Proof.
  intros a r n k ks Hk (L & Sm & B & F) O. split; [simpl; lia|]. split; [simpl; lia|]. split.
  - intros [|i] a' k' Ha Hk'; simpl in *.
    + injection Ha as <-. injection Hk' as <-. exact Hk.
    + eapply B; eauto.
  - intros [|i] [|j] a' b k' m Lt Ha Hk' Hb Hm Gt; try lia; simpl in *.
    + injection Ha as <-. injection Hk' as <-. destruct O as [O|O]; [exact O|].
      exfalso. subst ks. rewrite nth_error_map, Hb in Hm. simpl in Hm. injection Hm as <-. lia.
    + eapply (F i j); eauto. lia.
Qed.

Lemma fair_minima : forall args, proper args -> fair args (minima args) (map a_min args).
Proof.
  induction args as [|a r IH]; intros P.
  - split; [reflexivity|]. split; [reflexivity|]. split; intros [|i]; simpl; discriminate.
  - apply (fair_cons a r (minima r) (a_min a) (map a_min r)).
    + destruct (P a (or_introl eq_refl)). lia.
    + apply IH. intros x Hx. apply P. right. exact Hx.
    + right. reflexivity.
Qed.

Lemma distribute_fair : forall args n, proper args -> n <= maxima args - minima args ->
  fair args (minima args + n) (map fst (distribute args n)).
Proof.
  induction args as [|a r IH]; intros n P H.
  - unfold maxima, minima in *. simpl in *. assert (n = 0) as -> by lia.
    apply (fair_minima []). exact P.
  - assert (Pr : proper r) by (intros x Hx; apply P; right; exact Hx).
    assert (Pa : a_min a <= a_max a) by (destruct (P a (or_introl eq_refl)); lia).
    pose proof (minima_le_maxima r (fun x Hx => proj1 (Pr x Hx))) as Le.
    unfold minima, maxima in *. simpl in *.
    destruct (N.eqb_spec n 0) as [->|Hn]; simpl.
    + rewrite distribute_zero. replace (a_min a + sum (map a_min r) + 0)
        with (a_min a + sum (map a_min r)) by lia.
      apply fair_cons; [lia| |right; reflexivity]. apply fair_minima. exact Pr.
    + destruct (N.eqb_spec (a_min a) (a_max a)) as [E|E]; simpl.
      * replace (a_min a + sum (map a_min r) + n) with (a_min a + (sum (map a_min r) + n)) by lia.
        apply fair_cons; [lia| |left; exact E]. apply IH; [exact Pr|lia].
      * destruct (N.leb_spec (a_min a + n) (a_max a)); simpl.
        -- rewrite distribute_zero.
           replace (a_min a + sum (map a_min r) + n) with (a_min a + n + sum (map a_min r)) by lia.
           apply fair_cons; [lia| |right; reflexivity]. apply fair_minima. exact Pr.
        -- replace (a_min a + sum (map a_min r) + n)
             with (a_max a + (sum (map a_min r) + (n - (a_max a - a_min a)))) by lia.
           apply fair_cons; [lia| |left; reflexivity]. apply IH; [exact Pr|lia].
Qed.

Lemma fair_all_max : forall args ks, proper args -> fair args (maxima args) ks ->
  ks = map a_max args.
Proof.
  induction args as [|a r IH]; intros ks P (L & Sm & B & F).
  - destruct ks; [reflexivity|discriminate].
  - destruct ks as [|k ks]; [discriminate|]. simpl.
    assert (Pr : proper r) by (intros x Hx; apply P; right; exact Hx).
    assert (Bk : a_min a <= k <= a_max a) by (apply (B 0%nat); reflexivity).
    unfold maxima in *. simpl in Sm.
    assert (LE : sum ks <= sum (map a_max r)).
    { assert (B' : forall i x y, nth_error r i = Some x -> nth_error ks i = Some y -> y <= a_max x)
        by (intros i x y Hx Hy; apply (B (S i) x y); assumption).
      assert (L' : length ks = length r) by (simpl in L; lia). clear - B' L'.
      revert ks B' L'. induction r as [|x r IH]; intros [|y ks] B' L'; try discriminate; simpl; try lia.
      assert (y <= a_max x) by (apply (B' 0%nat); reflexivity).
      assert (sum ks <= sum (map a_max r)).
      { apply IH; [|simpl in L'; lia]. intros i x' y' Hx Hy. apply (B' (S i)); assumption. }
      lia. }
    assert (k = a_max a) as -> by lia. f_equal. apply IH; [exact Pr|].
    split; [simpl in L; lia|]. split; [lia|]. split.
    + intros i x y Hx Hy. apply (B (S i) x y); assumption.
    + intros i j x y k m Lt H1 H2 H3 H4. apply (F (S i) (S j) x y k m); try assumption. lia.
Qed.

Lemma distribution_proof : forall args n, proper args -> n < 2 ^ 64 ->
  map snd (make_counters_n args n) = args /\
  let ks := map fst (make_counters_n args n) in
  (minima args <= n <= maxima args -> fair args n ks) /\
  (n < minima args -> ks = map a_min args) /\
  (maxima args < n -> ks = map a_max args).
Proof.
  intros args n P Hn. unfold make_counters_n. rewrite min_max_proof.
  split; [apply distribute_args|]. cbv zeta.
  pose proof (minima_le_maxima args (fun x Hx => proj1 (P x Hx))) as Le.
  split; [|split]; intros H.
  - destruct (N.ltb_spec n (minima args)); [lia|].
    destruct (N.ltb_spec (N.min (2 ^ 64 - 1) (maxima args)) n); [lia|].
    replace n with (minima args + (n - minima args)) at 1 by lia.
    apply distribute_fair; [exact P|lia].
  - destruct (N.ltb_spec n (minima args)); [|lia]. apply distribute_zero.
  - destruct (N.ltb_spec n (minima args)); [lia|].
    destruct (N.ltb_spec (N.min (2 ^ 64 - 1) (maxima args)) n); [|lia].
    apply fair_all_max; [exact P|].
    replace (maxima args) with (minima args + (N.min (2 ^ 64 - 1) (maxima args) - minima args)) at 1 by lia.
    apply distribute_fair; [exact P|lia].
Qed.

(** A fair distribution is unique. *)
Lemma fair_unique_proof : forall args n ks ks', fair args n ks -> fair args n ks' -> ks = ks'.
Proof.
  induction args as [|a r IH]; intros n ks ks' H H'.
  - destruct H as (L & _), H' as (L' & _). destruct ks, ks'; try discriminate. reflexivity.
  - destruct H as (L & Sm & B & F), H' as (L' & Sm' & B' & F').
    destruct ks as [|k ks]; [discriminate|]. destruct ks' as [|k' ks']; [discriminate|].
    simpl in L, L', Sm, Sm'.
    assert (T : forall k ks, length (k :: ks) = length (a :: r) ->
      (forall i x y, nth_error (a :: r) i = Some x -> nth_error (k :: ks) i = Some y -> a_min x <= y <= a_max x) ->
      (forall i j x y k' m, (i < j)%nat -> nth_error (a :: r) i = Some x -> nth_error (k :: ks) i = Some k' ->
         nth_error (a :: r) j = Some y -> nth_error (k :: ks) j = Some m -> a_min y < m -> k' = a_max x) ->
      fair r (sum ks) ks /\ (k = a_max a \/ ks = map a_min r) /\ a_min a <= k <= a_max a /\
      sum (map a_min r) <= sum ks).
    { clear. intros k ks L B F.
      assert (Fr : fair r (sum ks) ks).
      { split; [simpl in L; lia|]. split; [reflexivity|]. split.
        - intros i x y Hx Hy. apply (B (S i) x y); assumption.
        - intros i j x y k0 m Lt H1 H2 H3 H4. apply (F (S i) (S j) x y k0 m); try assumption. lia. }
      split; [exact Fr|].
      assert (G : (forall j y m, nth_error r j = Some y -> nth_error ks j = Some m -> a_min y < m -> k = a_max a))
        by (intros j y m Hy Hm; apply (F 0%nat (S j) a y k m); auto; lia).
      assert (Br : forall i x y, nth_error r i = Some x -> nth_error ks i = Some y -> a_min x <= y)
        by (intros i x y Hx Hy; apply (B (S i) x y Hx Hy)).
      assert (L' : length ks = length r) by (simpl in L; lia).
      split; [|split].
      - clear - G Br L'.
        revert ks Br L' G. induction r as [|x r IH]; intros [|y ks] Br L' G; try discriminate; try solve [auto].
        assert (a_min x <= y) by (apply (Br 0%nat); reflexivity).
        destruct (N.eq_dec y (a_min x)) as [->|Ny].
        + destruct (IH ks) as [E|E].
          * intros i x' y' Hx Hy. apply (Br (S i)); assumption.
          * simpl in L'. lia.
          * intros j y' m Hy Hm. apply (G (S j) y' m); assumption.
          * left. exact E.
          * right. simpl. f_equal. exact E.
        + left. apply (G 0%nat x y); auto. lia.
      - apply (B 0%nat); reflexivity.
      - clear - Br L'. revert ks Br L'. induction r as [|x r IH]; intros [|y ks] Br L'; try discriminate;
          simpl; try lia.
        assert (a_min x <= y) by (apply (Br 0%nat); reflexivity).
        assert (sum (map a_min r) <= sum ks).
        { apply IH; [|simpl in L'; lia]. intros i x' y' Hx Hy. apply (Br (S i)); assumption. }
        lia. }
    destruct (T k ks L B F) as (Fr & O & Bk & M).
    destruct (T k' ks' L' B' F') as (Fr' & O' & Bk' & M').
    assert (E : sum ks = sum ks' /\ k = k').
    { destruct O as [O|O], O' as [O'|O']; try subst ks; try subst ks'; try lia. }
    destruct E as (E & ->). f_equal. rewrite E in Fr. eapply IH; eauto.
Qed.

(* ------------------------------------------------------------------------ *)
(** ** Handing out the arguments *)

(** [n] calls of [next_argument]. *)
Fixpoint calls (n : nat) (ac : arg_counter) : list (option arg_data) * arg_counter :=
  match n with
  | O => ([], ac)
  | S n' => let (a, ac') := next_argument ac in
            let (l, ac'') := calls n' ac' in (a :: l, ac'')
  end.

Lemma skip_empty_spec : forall l i, exists j,
  skip_empty l i = (i + j)%nat /\ order (skipn j l) = order l /\ (j <= length l)%nat /\
  (forall x, In x (firstn j l) -> fst x = 0) /\
  (forall k a, nth_error l j = Some (k, a) -> 0 < k).
Proof.
  induction l as [|(k, a) r IH]; intros i; simpl.
  - exists 0%nat. split; [lia|]. split; [reflexivity|]. split; [lia|].
    split; [intros x []|]. intros; discriminate.
  - destruct (N.eqb_spec k 0) as [->|Hk].
    + destruct (IH (S i)) as (j & E & O & L & Z & N). exists (S j).
      split; [lia|]. split; [exact O|]. split; [lia|]. split; [|exact N].
      intros x [<-|Hx]; [reflexivity|auto].
    + exists 0%nat. split; [lia|]. split; [reflexivity|]. split; [lia|].
      split; [intros x []|]. simpl. intros k' a' E. injection E as <- <-. lia.
Qed.

Lemma decrement_length : forall l i, length (decrement_at l i) = length l.
Proof.
  induction l as [|(k, a) r IH]; intros [|i]; simpl; try reflexivity. rewrite IH. reflexivity.
Qed.

Lemma decrement_skipn : forall l i k a r, skipn i l = (k, a) :: r ->
  skipn i (decrement_at l i) = (k - 1, a) :: r.
Proof.
  induction l as [|(k, a) l IH]; intros [|i] k' a' r E; simpl in *; try discriminate.
  - injection E as -> -> ->. reflexivity.
  - apply IH. exact E.
Qed.

Lemma decrement_nth : forall l i j, i <> j -> nth_error (decrement_at l i) j = nth_error l j.
Proof.
  induction l as [|(k, a) l IH]; intros [|i] [|j] H; simpl; try reflexivity; try congruence.
  apply IH. congruence.
Qed.

Lemma decrement_nth_same : forall l i k a, nth_error l i = Some (k, a) ->
  nth_error (decrement_at l i) i = Some (k - 1, a).
Proof.
  induction l as [|(k, a) l IH]; intros [|i] k' a' H; simpl in *; try discriminate.
  - injection H as -> ->. reflexivity.
  - apply IH. exact H.
Qed.

(** What a counter will still hand out. *)
Definition left_over (ac : arg_counter) : list arg_data :=
  order (skipn (ac_index ac) (ac_counters ac)).

Lemma nth_error_skipn : forall {A} (l : list A) i j,
  nth_error (skipn i l) j = nth_error l (i + j).
Proof.
  induction l as [|x l IH]; intros [|i] j; simpl; try reflexivity.
  - destruct j; reflexivity.
  - apply IH.
Qed.

Lemma skipn_skipn' : forall {A} (l : list A) i j, skipn j (skipn i l) = skipn (i + j) l.
Proof.
  induction l as [|x l IH]; intros [|i] j; simpl; try reflexivity.
  - apply skipn_nil.
  - apply IH.
Qed.

Lemma next_argument_spec : forall ac,
  match left_over ac with
  | [] => fst (next_argument ac) = None /\ left_over (snd (next_argument ac)) = []
  | a :: r => fst (next_argument ac) = Some a /\ left_over (snd (next_argument ac)) = r
  end.
Proof.
  intros ac. unfold next_argument, left_over.
  destruct (skip_empty_spec (skipn (ac_index ac) (ac_counters ac)) (ac_index ac))
    as (j & -> & O & L & Z & Nz). rewrite <- O. rewrite skipn_skipn'.
  set (i := (ac_index ac + j)%nat).
  destruct (nth_error (ac_counters ac) i) as [(k, a)|] eqn:E.
  - pose proof (nth_error_skipn_cons _ _ _ E) as C. rewrite C. simpl.
    assert (K : 0 < k) by (apply (Nz k a); rewrite nth_error_skipn; exact E).
    rewrite (decrement_skipn _ _ _ _ _ C). unfold order. simpl flat_map.
    replace (N.to_nat k) with (S (N.to_nat (k - 1))) by lia. simpl. auto.
  - apply nth_error_None in E. rewrite skipn_all2 by exact E. simpl.
    rewrite skipn_all2 by exact E. auto.
Qed.

Lemma calls_spec : forall n ac,
  fst (calls n ac) = map Some (firstn n (left_over ac)) ++ repeat None (n - length (left_over ac)) /\
  left_over (snd (calls n ac)) = skipn n (left_over ac).
Proof.
  induction n as [|n IH]; intros ac; [split; reflexivity|].
  pose proof (next_argument_spec ac) as H. simpl calls.
  destruct (next_argument ac) as (a, ac'). specialize (IH ac').
  destruct (calls n ac') as (l, ac''). simpl in *. destruct IH as (-> & I2).
  destruct (left_over ac) as [|x r].
  - destruct H as (-> & E). rewrite E in *. rewrite I2. simpl.
    rewrite firstn_nil, skipn_nil. simpl. rewrite Nat.sub_0_r. split; reflexivity.
  - destruct H as (-> & <-). rewrite I2. split; reflexivity.
Qed.

Lemma order_app : forall a b, order (a ++ b) = order a ++ order b.
Proof. intros. unfold order. apply flat_map_app. Qed.

Lemma repeat_app' : forall {A} (x : A) n m, repeat x n ++ repeat x m = repeat x (n + m).
Proof. intros. symmetry. apply repeat_app. Qed.

Lemma make_counters_order : forall args i fo, (forall a, In a args -> a_min a <= a_max a) ->
  order (make_counters_loop args i fo) = order (map (fun a => (a_max a, a)) args).
Proof.
  induction args as [|a r IH]; intros i fo H; [reflexivity|]. simpl make_counters_loop.
  rewrite order_app, IH by (intros x Hx; apply H; right; exact Hx).
  simpl map. change (order ((a_max a, a) :: map (fun a => (a_max a, a)) r)) with
    (repeat a (N.to_nat (a_max a)) ++ order (map (fun a => (a_max a, a)) r)).
  f_equal. assert (L : a_min a <= a_max a) by (apply H; left; reflexivity).
  destruct ((i + 1 =? fo)%nat && negb (a_min a =? a_max a)%N); unfold order; simpl;
    rewrite app_nil_r; [|reflexivity].
  rewrite repeat_app'. f_equal. lia.
Qed.

Lemma plain_order_proof : forall args n, proper args ->
  fst (calls n (plain_counter args)) =
  let o := order (map (fun a => (a_max a, a)) args) in
  map Some (firstn n o) ++ repeat None (n - length o).
Proof.
  intros args n P. destruct (calls_spec n (plain_counter args)) as (-> & _).
  unfold left_over, plain_counter. simpl.
  rewrite make_counters_order by (intros a Ha; apply (P a Ha)). reflexivity.
Qed.

Lemma consume_left : forall k ac,
  left_over (consume_initial k ac) = skipn k (left_over ac).
Proof.
  induction k as [|k IH]; intros ac; [reflexivity|]. simpl.
  pose proof (next_argument_spec ac) as H. destruct (next_argument ac) as ([a|], ac').
  - destruct (left_over ac) as [|x r]; simpl in H; [destruct H; discriminate|].
    destruct H as (_ & H). rewrite IH, H. reflexivity.
  - destruct (left_over ac) as [|x r]; simpl in H; [|destruct H; discriminate].
    destruct H as (_ & ->). reflexivity.
Qed.

Lemma counted_order_proof : forall args total initial n,
  fst (calls n (counted_counter args total initial)) =
  let o := skipn (N.to_nat initial) (order (make_counters_n args total)) in
  map Some (firstn n o) ++ repeat None (n - length o).
Proof.
  intros. destruct (calls_spec n (counted_counter args total initial)) as (-> & _).
  unfold counted_counter. rewrite consume_left. reflexivity.
Qed.

(** The number of arguments handed out so far. *)
Lemma calls_count : forall n ac, (n <= length (left_over ac))%nat ->
  ac_counter (snd (calls n ac)) = ac_counter ac + N.of_nat n.
Proof.
  induction n as [|n IH]; intros ac H; [simpl; lia|]. simpl calls.
  pose proof (next_argument_spec ac) as S. destruct (next_argument ac) as (a, ac') eqn:E.
  specialize (IH ac'). destruct (calls n ac') as (l, ac''). simpl in *.
  destruct (left_over ac) as [|x r]; simpl in H; [lia|]. destruct S as (Sa & Sr). subst a r.
  rewrite IH by lia. unfold next_argument in E.
  destruct (nth_error _ _) as [(k, b)|]; [|discriminate]. injection E as <- <-. simpl. lia.
Qed.

(* ------------------------------------------------------------------------ *)
(** ** Completeness *)

Fixpoint take_sum (n : nat) (l : list (N * arg_data)) : N :=
  match n, l with
  | S n', (k, _) :: r => k + take_sum n' r
  | _, _ => 0
  end.

(** The number of arguments before [first_optional] that are still missing. *)
Definition missing (ac : arg_counter) : N :=
  take_sum (ac_first_optional ac - ac_index ac) (skipn (ac_index ac) (ac_counters ac)).

(** The counters behind the current one are untouched, thus not 0. *)
Definition fresh (ac : arg_counter) : Prop :=
  forall j k a, (ac_index ac < j)%nat -> nth_error (ac_counters ac) j = Some (k, a) -> 0 < k.

Lemma take_sum_nil : forall n, take_sum n [] = 0.
Proof. intros [|n]; reflexivity. Qed.

Lemma take_sum_skip : forall j n l, (forall x, In x (firstn j l) -> fst x = 0) ->
  take_sum n l = take_sum (n - j) (skipn j l).
Proof.
  induction j as [|j IH]; intros n l H; simpl; [rewrite Nat.sub_0_r; reflexivity|].
  destruct l as [|(k, a) l]; [rewrite !take_sum_nil; reflexivity|].
  destruct n as [|n]; [destruct (skipn j l) as [|(k', a') ?]; reflexivity|].
  assert (k = 0) as -> by (apply (H (k, a)); left; reflexivity).
  simpl take_sum. simpl Nat.sub. rewrite (IH n l); [lia|]. intros x Hx. apply H. right. exact Hx.
Qed.

Lemma take_sum_zero : forall n l, take_sum n l = 0 ->
  forall j k a, (j < n)%nat -> nth_error l j = Some (k, a) -> k = 0.
Proof.
  induction n as [|n IH]; intros [|(k, a) l] H j k' a' L E; try lia.
  - destruct j; discriminate.
  - simpl in H. destruct j as [|j].
    + simpl in E. injection E as <- <-. lia.
    + apply (IH l ltac:(lia) j k' a'); [lia|exact E].
Qed.

Lemma next_missing : forall ac a, fst (next_argument ac) = Some a -> fresh ac ->
  let ac' := snd (next_argument ac) in
  missing ac' = missing ac - 1 /\ fresh ac' /\
  ac_first_optional ac' = ac_first_optional ac /\
  length (ac_counters ac') = length (ac_counters ac).
Proof.
  intros ac a. unfold next_argument.
  destruct (skip_empty_spec (skipn (ac_index ac) (ac_counters ac)) (ac_index ac))
    as (j & -> & O & L & Z & Nz).
  remember (ac_index ac + j)%nat as i eqn:Ei.
  destruct (nth_error (ac_counters ac) i) as [(k, b)|] eqn:E; [|discriminate].
  intros H F. cbv zeta. cbn [fst snd] in *. injection H as ->.
  assert (K : 0 < k) by (apply (Nz k a); rewrite nth_error_skipn, <- Ei; exact E).
  split; [|split; [|split]].
  - unfold missing. cbn [ac_first_optional ac_index ac_counters].
    pose proof (nth_error_skipn_cons _ _ _ E) as C.
    rewrite (decrement_skipn _ _ _ _ _ C).
    rewrite (take_sum_skip j (ac_first_optional ac - ac_index ac)) by exact Z.
    rewrite skipn_skipn', <- Ei, C.
    replace (ac_first_optional ac - ac_index ac - j)%nat with (ac_first_optional ac - i)%nat by lia.
    destruct (ac_first_optional ac - i)%nat; simpl; lia.
  - intros j' k' a' Lt E'. cbn [ac_index ac_counters] in *. rewrite decrement_nth in E' by lia.
    apply (F j' k' a'); [lia|exact E'].
  - reflexivity.
  - apply decrement_length.
Qed.

Lemma calls_missing : forall n ac, (n <= length (left_over ac))%nat -> fresh ac ->
  let ac' := snd (calls n ac) in
  missing ac' = missing ac - N.of_nat n /\ fresh ac' /\
  ac_first_optional ac' = ac_first_optional ac /\
  length (ac_counters ac') = length (ac_counters ac).
Proof.
  induction n as [|n IH]; intros ac L F; [simpl; split; [lia|auto]|]. simpl calls.
  pose proof (next_argument_spec ac) as S. pose proof (next_missing ac) as M.
  destruct (next_argument ac) as (a, ac'). specialize (IH ac').
  destruct (calls n ac') as (l, ac''). simpl in *.
  destruct (left_over ac) as [|x r]; simpl in L; [lia|]. destruct S as (-> & <-).
  destruct (M x eq_refl F) as (M1 & M2 & M3 & M4).
  destruct (IH ltac:(lia) M2) as (I1 & I2 & I3 & I4). rewrite I1, M1, I3, M3, I4, M4.
  split; [lia|auto].
Qed.

Lemma complete_missing : forall ac, fresh ac ->
  (ac_first_optional ac <= length (ac_counters ac))%nat ->
  (is_complete ac = true <-> missing ac = 0).
Proof.
  intros ac F L. unfold is_complete, missing. split.
  - intros H. apply orb_prop in H. destruct H as [H|H].
    + apply Nat.leb_le in H. replace (ac_first_optional ac - ac_index ac)%nat with 0%nat by lia.
      reflexivity.
    + apply andb_prop in H. destruct H as (H1 & H2). apply Nat.eqb_eq in H1.
      replace (ac_first_optional ac - ac_index ac)%nat with 1%nat by lia.
      destruct (nth_error (ac_counters ac) (ac_index ac)) as [(k, a)|] eqn:E; [|discriminate].
      rewrite (nth_error_skipn_cons _ _ _ E). apply N.eqb_eq in H2. subst. reflexivity.
  - intros H. destruct (Nat.leb_spec (ac_first_optional ac) (ac_index ac)) as [|Lt]; [reflexivity|].
    simpl. assert (Z := take_sum_zero _ _ H).
    assert (Q : (ac_index ac + 1)%nat = ac_first_optional ac).
    { destruct (Nat.eq_dec (ac_index ac + 1) (ac_first_optional ac)) as [|Ne]; [assumption|].
      exfalso. destruct (nth_error (ac_counters ac) (ac_index ac + 1)) as [(k, a)|] eqn:E.
      - pose proof (F (ac_index ac + 1)%nat k a ltac:(lia) E).
        specialize (Z 1%nat k a ltac:(lia)). rewrite nth_error_skipn in Z. specialize (Z E). lia.
      - apply nth_error_None in E. lia. }
    rewrite Q, Nat.eqb_refl. simpl.
    destruct (nth_error (ac_counters ac) (ac_index ac)) as [(k, a)|] eqn:E.
    + specialize (Z 0%nat k a ltac:(lia)). rewrite nth_error_skipn, Nat.add_0_r in Z.
      rewrite (Z E). reflexivity.
    + apply nth_error_None in E. lia.
Qed.

(** *** The plain counter *)

Lemma first_optional_loop_spec : forall args i result,
  (result <= i)%nat ->
  let fo := find_first_optional_loop args i result in
  (fo = result /\ (forall a, In a args -> a_min a = 0)) \/
  ((i < fo <= i + length args)%nat /\
   exists a, nth_error args (fo - i - 1) = Some a /\ 0 < a_min a /\
     forall j b, (fo - i <= j)%nat -> nth_error args j = Some b -> a_min b = 0).
Proof.
  induction args as [|a r IH]; intros i result L; simpl.
  - left. split; [reflexivity|]. intros a [].
  - destruct (N.ltb_spec 0 (a_min a)) as [P|P].
    + destruct (IH (S i) (i + 1)%nat ltac:(lia)) as [(E & Z)|(B & a' & E & P' & Z)].
      * right. rewrite E. split; [lia|]. exists a. replace (i + 1 - i - 1)%nat with 0%nat by lia.
        split; [reflexivity|]. split; [exact P|]. intros [|j] b Hj Hb; [lia|].
        apply Z. eapply nth_error_In. exact Hb.
      * right. split; [lia|]. exists a'.
        replace (find_first_optional_loop r (S i) (i + 1) - i - 1)%nat
          with (S (find_first_optional_loop r (S i) (i + 1) - S i - 1))%nat by lia.
        split; [exact E|]. split; [exact P'|]. intros [|j] b Hj Hb; [lia|].
        apply (Z j b); [lia|exact Hb].
    + destruct (IH (S i) result ltac:(lia)) as [(E & Z)|(B & a' & E & P' & Z)].
      * left. split; [exact E|]. intros x [<-|Hx]; [lia|auto].
      * right. split; [lia|]. exists a'.
        replace (find_first_optional_loop r (S i) result - i - 1)%nat
          with (S (find_first_optional_loop r (S i) result - S i - 1))%nat by lia.
        split; [exact E|]. split; [exact P'|]. intros [|j] b Hj Hb; [lia|].
        apply (Z j b); [lia|exact Hb].
Qed.

Lemma requires_count_false : forall args, requires_argument_count args = false <->
  predictable args.
Proof.
  unfold requires_argument_count, predictable.
  assert (G : forall args d, requires_count_loop args d = false <->
    (args = [] \/ d = true /\ forall front final, args = front ++ [final] ->
       forall a, In a front -> a_min a = a_max a)).
  { induction args as [|a r IH]; intros d; simpl; [tauto|].
    destruct d; simpl.
    - rewrite IH. split.
      + intros [->|(E & H)].
        * right. split; [reflexivity|]. intros front final E x Hx.
          destruct front as [|y front]; [destruct Hx|]. destruct front; discriminate.
        * right. split; [reflexivity|]. intros [|y front] final E' x Hx; [destruct Hx|].
          injection E' as <- E'. destruct Hx as [<-|Hx]; [apply N.eqb_eq; exact E|].
          apply (H front final E' x Hx).
      + intros [X|(_ & H)]; [discriminate|]. destruct r as [|b r]; [left; reflexivity|right].
        destruct (exists_last (l := b :: r)) as (front & final & E); [discriminate|].
        split.
        * apply N.eqb_eq. apply (H (a :: front) final); [rewrite E; reflexivity|left; reflexivity].
        * intros front' final' E' x Hx.
          apply (H (a :: front') final'); [rewrite E'; reflexivity|right; exact Hx].
    - split; [discriminate|]. intros [X|(X & _)]; discriminate. }
  intros args. rewrite G. split.
  - intros [->|(_ & H)]; [|exact H]. intros [|? front] final E; discriminate.
  - intros H. right. split; [reflexivity|exact H].
Qed.

Lemma counters_length : forall args i fo,
  (length args <= length (make_counters_loop args i fo))%nat.
Proof.
  induction args as [|a r IH]; intros i fo; simpl; [lia|]. rewrite app_length.
  specialize (IH (S i) fo).
  destruct ((i + 1 =? fo)%nat && negb (a_min a =? a_max a)%N); simpl; lia.
Qed.

(** With fixed numbers in front, the counters before [fo] hold the minima. *)
Lemma counters_take : forall args i fo, proper args -> predictable args ->
  (fo <= i + length args)%nat ->
  (forall j a, (fo - i <= j)%nat -> nth_error args j = Some a -> a_min a = 0) ->
  (forall a, (i < fo)%nat -> nth_error args (fo - i - 1) = Some a -> 0 < a_min a) ->
  take_sum (fo - i) (make_counters_loop args i fo) = minima args.
Proof.
  induction args as [|a r IH]; intros i fo P D L Z Q.
  - simpl. destruct (fo - i)%nat; reflexivity.
  - assert (Pr : proper r) by (intros x Hx; apply P; right; exact Hx).
    assert (Dr : predictable r).
    { intros front final E x Hx. apply (D (a :: front) final); [rewrite E; reflexivity|right; exact Hx]. }
    unfold minima in *. simpl make_counters_loop. simpl map. simpl sum.
    destruct (le_lt_dec fo i) as [Le|Lt].
    + (* all optional *)
      replace (fo - i)%nat with 0%nat by lia. simpl take_sum.
      assert (A : forall l : list arg_data, (forall x, In x l -> a_min x = 0) -> sum (map a_min l) = 0).
      { clear. induction l as [|x l IH]; intros H; simpl; [reflexivity|].
        rewrite (H x) by (left; reflexivity). rewrite IH; [reflexivity|].
        intros y Hy. apply H. right. exact Hy. }
      rewrite (Z 0%nat a) by (simpl; auto; lia). rewrite A; [reflexivity|].
      intros x Hx. apply In_nth_error in Hx. destruct Hx as (j & Hj).
      apply (Z (S j) x); [lia|exact Hj].
    + destruct (Nat.eqb_spec (i + 1) fo) as [E|E].
      * (* the last mandatory one *)
        assert (R : sum (map a_min r) = 0).
        { assert (A : forall l : list arg_data, (forall x, In x l -> a_min x = 0) -> sum (map a_min l) = 0).
          { clear. induction l as [|x l IH]; intros H; simpl; [reflexivity|].
            rewrite (H x) by (left; reflexivity). rewrite IH; [reflexivity|].
            intros y Hy. apply H. right. exact Hy. }
          apply A. intros x Hx. apply In_nth_error in Hx. destruct Hx as (j & Hj).
          apply (Z (S j) x); [lia|exact Hj]. }
        rewrite R. replace (fo - i)%nat with 1%nat by lia.
        destruct (N.eqb_spec (a_min a) (a_max a)) as [Em|Em]; simpl; lia.
      * simpl. replace (fo - i)%nat with (S (fo - S i)) by lia. simpl take_sum.
        rewrite IH; [|exact Pr|exact Dr|simpl in L; lia| |].
        -- f_equal. destruct r as [|b r]; [simpl in L; lia|].
           destruct (exists_last (l := b :: r)) as (front & final & El); [discriminate|].
           symmetry. apply (D (a :: front) final); [rewrite El; reflexivity|left; reflexivity].
        -- intros j x Hj Hx. apply (Z (S j) x); [lia|exact Hx].
        -- intros x Hi Hx. apply Q; [lia|].
           replace (fo - i - 1)%nat with (S (fo - S i - 1)) by lia. exact Hx.
Qed.

Lemma counters_positive : forall args i fo, proper args ->
  (forall a, (i < fo)%nat -> nth_error args (fo - i - 1) = Some a -> 0 < a_min a) ->
  forall x, In x (make_counters_loop args i fo) -> 0 < fst x.
Proof.
  induction args as [|a r IH]; intros i fo P Q x H; [destruct H|]. simpl in H.
  assert (Pa : a_min a <= a_max a /\ 1 <= a_max a) by (apply P; left; reflexivity).
  apply in_app_or in H. destruct H as [H|H].
  - destruct (Nat.eqb_spec (i + 1) fo) as [E|E]; simpl in H.
    + destruct (N.eqb_spec (a_min a) (a_max a)); simpl in H.
      * destruct H as [<-|[]]. simpl. lia.
      * assert (0 < a_min a) by (apply (Q a); [lia|replace (fo - i - 1)%nat with 0%nat by lia; reflexivity]).
        destruct H as [<-|[<-|[]]]; simpl; lia.
    + destruct H as [<-|[]]. simpl. lia.
  - apply (IH (S i) fo); auto.
    + intros y Hy. apply P. right. exact Hy.
    + intros y Hi Hy. apply Q; [lia|]. replace (fo - i - 1)%nat with (S (fo - S i - 1)) by lia. exact Hy.
Qed.

Lemma first_optional_facts : forall args, let fo := find_first_optional args in
  (fo <= length args)%nat /\
  (forall j a, (fo <= j)%nat -> nth_error args j = Some a -> a_min a = 0) /\
  (forall a, (0 < fo)%nat -> nth_error args (fo - 1) = Some a -> 0 < a_min a).
Proof.
  intros args. unfold find_first_optional.
  destruct (first_optional_loop_spec args 0 0 ltac:(lia)) as [(E & Z)|(B & a & E & P & Z)];
    cbv zeta in *.
  - rewrite E. split; [lia|]. split; [|lia]. intros j a _ H. apply Z. eapply nth_error_In; eauto.
  - rewrite Nat.sub_0_r in *. split; [lia|]. split; [exact Z|]. intros b _ Hb. congruence.
Qed.

Lemma plain_fresh : forall args, proper args -> fresh (plain_counter args).
Proof.
  intros args P j k a _ E. unfold plain_counter in E. simpl in E.
  destruct (first_optional_facts args) as (_ & _ & Q).
  apply (counters_positive args 0 (find_first_optional args) P) with (x := (k, a)).
  - intros b Hi Hb. rewrite Nat.sub_0_r in Hb. apply Q; assumption.
  - eapply nth_error_In. exact E.
Qed.

Lemma plain_in_range : forall args,
  (ac_first_optional (plain_counter args) <= length (ac_counters (plain_counter args)))%nat.
Proof.
  intros args. unfold plain_counter. simpl.
  pose proof (counters_length args 0 (find_first_optional args)).
  destruct (first_optional_facts args). lia.
Qed.

Lemma order_length : forall l, N.of_nat (length (order l)) = sum (map fst l).
Proof.
  unfold order. induction l as [|(k, a) r IH]; [reflexivity|]. simpl.
  rewrite app_length, repeat_length, <- IH. lia.
Qed.

Lemma plain_complete_proof : forall args n, proper args ->
  requires_argument_count args = false -> N.of_nat n <= maxima args ->
  (is_complete (snd (calls n (plain_counter args))) = true <-> minima args <= N.of_nat n).
Proof.
  intros args n P R L. apply requires_count_false in R.
  pose proof (plain_fresh args P) as F.
  assert (Ll : (n <= length (left_over (plain_counter args)))%nat).
  { unfold left_over, plain_counter. simpl.
    rewrite make_counters_order by (intros a Ha; apply (P a Ha)).
    pose proof (order_length (map (fun a => (a_max a, a)) args)) as O.
    rewrite map_map in O. simpl in O. fold (maxima args) in O.
    change (sum (map (fun x => a_max x) args)) with (maxima args) in O. lia. }
  destruct (calls_missing n _ Ll F) as (M1 & M2 & M3 & M4).
  pose proof (plain_in_range args) as IR.
  rewrite complete_missing by (try assumption; rewrite M3, M4; exact IR).
  rewrite M1. assert (M0 : missing (plain_counter args) = minima args).
  { unfold missing, plain_counter. cbn [ac_first_optional ac_index ac_counters skipn].
    destruct (first_optional_facts args) as (F1 & F2 & F3).
    apply counters_take; auto.
    - intros j a Hj Ha. apply (F2 j a); [lia|exact Ha].
    - intros a Hi Ha. rewrite Nat.sub_0_r in Ha. apply F3; assumption. }
  rewrite M0. lia.
Qed.

(** *** The counter for a known number of arguments *)

Definition counted_inv (cs : list (N * arg_data)) (ac : arg_counter) : Prop :=
  length (ac_counters ac) = length cs /\
  ac_first_optional ac = length cs /\
  (forall j, (ac_index ac < j)%nat -> nth_error (ac_counters ac) j = nth_error cs j) /\
  (forall j k a, nth_error (ac_counters ac) j = Some (k, a) ->
     exists k', nth_error cs j = Some (k', a) /\ k <= k') /\
  (ac_index ac = 0%nat \/
   exists k a, nth_error cs (ac_index ac) = Some (k, a) /\ 0 < k).

Lemma next_counted : forall cs ac a, fst (next_argument ac) = Some a -> counted_inv cs ac ->
  let ac' := snd (next_argument ac) in
  missing ac' = missing ac - 1 /\ counted_inv cs ac'.
Proof.
  intros cs ac a. unfold next_argument.
  destruct (skip_empty_spec (skipn (ac_index ac) (ac_counters ac)) (ac_index ac))
    as (j & -> & O & L & Z & Nz).
  remember (ac_index ac + j)%nat as i eqn:Ei.
  destruct (nth_error (ac_counters ac) i) as [(k, b)|] eqn:E; [|discriminate].
  intros H (I1 & I2 & I3 & I4 & I5). cbv zeta. cbn [fst snd] in *. injection H as ->.
  assert (K : 0 < k) by (apply (Nz k a); rewrite nth_error_skipn, <- Ei; exact E).
  split.
  - unfold missing. cbn [ac_first_optional ac_index ac_counters].
    pose proof (nth_error_skipn_cons _ _ _ E) as C.
    rewrite (decrement_skipn _ _ _ _ _ C).
    rewrite (take_sum_skip j (ac_first_optional ac - ac_index ac)) by exact Z.
    rewrite skipn_skipn', <- Ei, C.
    replace (ac_first_optional ac - ac_index ac - j)%nat with (ac_first_optional ac - i)%nat by lia.
    destruct (ac_first_optional ac - i)%nat; simpl; lia.
  - unfold counted_inv. cbn [ac_first_optional ac_index ac_counters].
    split; [rewrite decrement_length; exact I1|]. split; [exact I2|]. split; [|split].
    + intros j' Lt. rewrite decrement_nth by lia. apply I3. lia.
    + intros j' k' a' E'. destruct (Nat.eq_dec i j') as [<-|Ne].
      * rewrite (decrement_nth_same _ _ _ _ E) in E'. injection E' as <- <-.
        destruct (I4 _ _ _ E) as (k' & E' & Le). exists k'. split; [exact E'|lia].
      * rewrite decrement_nth in E' by exact Ne. apply (I4 _ _ _ E').
    + right. destruct (I4 _ _ _ E) as (k' & E' & Le). exists k', a. split; [exact E'|lia].
Qed.

Lemma calls_counted : forall cs n ac, (n <= length (left_over ac))%nat -> counted_inv cs ac ->
  let ac' := snd (calls n ac) in
  missing ac' = missing ac - N.of_nat n /\ counted_inv cs ac'.
Proof.
  intros cs. induction n as [|n IH]; intros ac L F; [simpl; split; [lia|exact F]|]. simpl calls.
  pose proof (next_argument_spec ac) as S. pose proof (next_counted cs ac) as M.
  destruct (next_argument ac) as (a, ac'). specialize (IH ac').
  destruct (calls n ac') as (l, ac''). simpl in *.
  destruct (left_over ac) as [|x r]; simpl in L; [lia|]. destruct S as (-> & <-).
  destruct (M x eq_refl F) as (M1 & M2).
  destruct (IH ltac:(lia) M2) as (I1 & I2). rewrite I1, M1. split; [lia|exact I2].
Qed.

Lemma last_nth : forall (l : list N) d, l <> [] ->
  nth_error l (length l - 1) = Some (last l d).
Proof.
  induction l as [|x l IH]; intros d H; [congruence|]. destruct l as [|y l]; [reflexivity|].
  replace (length (x :: y :: l) - 1)%nat with (S (length (y :: l) - 1)) by (simpl; lia).
  simpl nth_error at 1. change (last (x :: y :: l) d) with (last (y :: l) d).
  apply IH. discriminate.
Qed.

Lemma take_sum_all : forall l, take_sum (length l) l = sum (map fst l).
Proof. induction l as [|(k, a) l IH]; [reflexivity|]. simpl. rewrite IH. reflexivity. Qed.

Lemma counted_inv_complete : forall cs ac, counted_inv cs ac ->
  (is_complete ac = true <->
   missing ac = 0 /\ ((length cs <= 1)%nat \/ last (map fst cs) 0 <> 0)).
Proof.
  intros cs ac (I1 & I2 & I3 & I4 & I5). unfold is_complete. rewrite I2.
  assert (IL : cs <> [] -> (ac_index ac < length cs)%nat).
  { intros Hc. destruct I5 as [->|(k & a & E & _)]; [destruct cs; [congruence|simpl; lia]|].
    apply nth_error_Some. congruence. }
  assert (LN : cs <> [] -> exists k a, nth_error cs (length cs - 1) = Some (k, a) /\
                 k = last (map fst cs) 0).
  { intros Hc. pose proof (last_nth (map fst cs) 0) as X. rewrite map_length in X.
    rewrite nth_error_map in X. specialize (X ltac:(destruct cs; [congruence|discriminate])).
    destruct (nth_error cs (length cs - 1)) as [(k, a)|]; [|discriminate].
    simpl in X. injection X as <-. eauto. }
  destruct cs as [|c0 cs0] eqn:Ecs.
  - split; [|reflexivity]. intros _. split; [|left; simpl; lia].
    unfold missing. rewrite I2. simpl. reflexivity.
  - rewrite <- Ecs in *. assert (Hc : cs <> []) by (rewrite Ecs; discriminate).
    specialize (IL Hc). specialize (LN Hc).
    destruct (Nat.leb_spec (length cs) (ac_index ac)); [lia|]. rewrite orb_false_l.
    destruct (nth_error (ac_counters ac) (ac_index ac)) as [(k, a)|] eqn:E;
      [|apply nth_error_None in E; lia].
    assert (Mq : missing ac = k + take_sum (length cs - S (ac_index ac))
                     (skipn (S (ac_index ac)) (ac_counters ac))).
    { unfold missing. rewrite I2, (nth_error_skipn_cons _ _ _ E).
      replace (length cs - ac_index ac)%nat with (S (length cs - S (ac_index ac))) by lia.
      reflexivity. }
    split.
    + intros H1. apply andb_prop in H1. destruct H1 as (H1 & H2).
      apply Nat.eqb_eq in H1. apply N.eqb_eq in H2. subst k. split.
      * rewrite Mq. replace (length cs - S (ac_index ac))%nat with 0%nat by lia. reflexivity.
      * destruct I5 as [I5|(k & a' & E' & Pk)]; [left; lia|right].
        destruct LN as (k2 & a2 & E2 & <-). replace (length cs - 1)%nat with (ac_index ac) in E2 by lia.
        assert (k = k2) by congruence. lia.
    + intros (M0 & C). rewrite Mq in M0. assert (k = 0) as -> by lia.
      rewrite N.eqb_refl, andb_true_r. apply Nat.eqb_eq.
      destruct (Nat.eq_dec (ac_index ac + 1) (length cs)) as [|Ne]; [assumption|exfalso].
      destruct C as [C|C]; [lia|]. destruct LN as (k2 & a2 & E2 & Ek); rewrite <- Ek in C.
      rewrite <- I3 in E2 by lia. apply C.
      apply (take_sum_zero _ _ ltac:(rewrite N.add_0_l in M0; exact M0)
               (length cs - 1 - S (ac_index ac))%nat k2 a2); [lia|].
      rewrite nth_error_skipn. replace (S (ac_index ac) + (length cs - 1 - S (ac_index ac)))%nat
        with (length cs - 1)%nat by lia. exact E2.
Qed.

Lemma counted_initial : forall args total,
  counted_inv (make_counters_n args total) (counted_counter args total 0).
Proof.
  intros. unfold counted_counter. cbn. split; [reflexivity|]. split; [reflexivity|].
  split; [reflexivity|]. split; [|left; reflexivity].
  intros j k a E. exists k. split; [exact E|lia].
Qed.

Lemma counted_complete_proof : forall args total n,
  let ks := map fst (make_counters_n args total) in
  N.of_nat n <= sum ks ->
  (is_complete (snd (calls n (counted_counter args total 0))) = true <->
   N.of_nat n = sum ks /\ ((length ks <= 1)%nat \/ last ks 0 <> 0)).
Proof.
  intros args total n ks L.
  assert (Ll : (n <= length (left_over (counted_counter args total 0)))%nat).
  { unfold left_over, counted_counter. simpl.
    pose proof (order_length (make_counters_n args total)). unfold ks in L. lia. }
  destruct (calls_counted _ n _ Ll (counted_initial args total)) as (M & Inv).
  rewrite (counted_inv_complete _ _ Inv). rewrite M.
  assert (M0 : missing (counted_counter args total 0) = sum ks).
  { unfold missing, counted_counter. cbn [consume_initial N.to_nat ac_first_optional ac_index ac_counters skipn].
    rewrite Nat.sub_0_r. apply take_sum_all. }
  rewrite M0. unfold ks in *. rewrite map_length. split; intros (A & B); (split; [lia|exact B]).
Qed.

(** The element that [is_complete] looks at always exists. *)
Lemma next_keeps_range : forall ac,
  (ac_first_optional ac <= length (ac_counters ac))%nat ->
  (ac_first_optional (snd (next_argument ac)) <=
   length (ac_counters (snd (next_argument ac))))%nat.
Proof.
  intros ac H. unfold next_argument.
  destruct (nth_error _ _) as [(k, a)|]; simpl; [rewrite decrement_length|]; exact H.
Qed.

Lemma calls_keep_range : forall n ac,
  (ac_first_optional ac <= length (ac_counters ac))%nat ->
  (ac_first_optional (snd (calls n ac)) <= length (ac_counters (snd (calls n ac))))%nat.
Proof.
  induction n as [|n IH]; intros ac H; [exact H|]. simpl.
  pose proof (next_keeps_range ac H) as N1. destruct (next_argument ac) as (a, ac').
  specialize (IH ac' N1). destruct (calls n ac') as (l, ac''). exact IH.
Qed.

Lemma consume_keeps_range : forall k ac,
  (ac_first_optional ac <= length (ac_counters ac))%nat ->
  (ac_first_optional (consume_initial k ac) <= length (ac_counters (consume_initial k ac)))%nat.
Proof.
  induction k as [|k IH]; intros ac H; [exact H|]. simpl.
  pose proof (next_keeps_range ac H) as N1. destruct (next_argument ac) as ([a|], ac').
  - apply IH. exact N1.
  - exact N1.
Qed.

Lemma in_range_proof : forall ac args total initial n,
  ac = plain_counter args \/ ac = counted_counter args total initial \/ ac = empty_counter ->
  let ac' := snd (calls n ac) in
  (ac_index ac' + 1)%nat = ac_first_optional ac' ->
  exists x, nth_error (ac_counters ac') (ac_index ac') = Some x.
Proof.
  intros ac args total initial n H ac' E.
  assert (R : (ac_first_optional ac' <= length (ac_counters ac'))%nat).
  { apply calls_keep_range. destruct H as [->|[->| ->]].
    - apply plain_in_range.
    - apply consume_keeps_range. simpl. lia.
    - simpl. lia. }
  destruct (nth_error (ac_counters ac') (ac_index ac')) eqn:X; [eauto|].
  apply nth_error_None in X. lia.
Qed.

Lemma counted_refuted_proof : exists args total n,
  proper args /\ minima args <= total <= maxima args /\
  requires_argument_count args = true /\ N.of_nat n = total /\
  is_complete (snd (calls n (counted_counter args total 0))) = false.
Proof.
  exists [mk_arg ($"A") [] [] [] None 0 1 vis_normal 0 0;
          mk_arg ($"B") [] [] [] None 0 1 vis_normal 0 0], 0, 0%nat.
  split.
  - intros a [<-|[<-|[]]]; simpl; lia.
  - vm_compute. repeat split; congruence.
Qed.

Lemma next_count : forall ac,
  ac_counter (snd (next_argument ac)) =
  ac_counter ac + match fst (next_argument ac) with Some _ => 1 | None => 0 end.
Proof.
  intros ac. unfold next_argument. destruct (nth_error _ _) as [(k, a)|]; simpl; lia.
Qed.

Lemma count_proof : forall n args total initial ac,
  ac = plain_counter args \/ ac = counted_counter args total initial ->
  ac_counter (snd (calls n ac)) =
  ac_counter ac + N.of_nat (length (filter (fun x => match x with Some _ => true | None => false end)
                                      (fst (calls n ac)))).
Proof.
  intros n args total initial ac _. revert ac.
  induction n as [|n IH]; intros ac; [simpl; lia|]. simpl calls.
  pose proof (next_count ac) as H. destruct (next_argument ac) as (a, ac').
  specialize (IH ac'). destruct (calls n ac') as (l, ac''). simpl in *.
  destruct a; simpl; lia.
Qed.

Lemma counted_mandatory_proof : forall front final total n,
  let args := front ++ [final] in
  proper args -> total < 2 ^ 64 -> minima args <= total <= maxima args -> 1 <= a_min final ->
  N.of_nat n <= total ->
  (is_complete (snd (calls n (counted_counter args total 0))) = true <-> N.of_nat n = total).
Proof.
  intros front final total n args P T R M L.
  destruct (distribution_proof args total P T) as (A & F & _).
  specialize (F R). destruct F as (Fl & Fs & Fb & _).
  rewrite counted_complete_proof by (rewrite Fs; exact L). rewrite Fs.
  assert (X : last (map fst (make_counters_n args total)) 0 <> 0).
  { pose proof (last_nth (map fst (make_counters_n args total)) 0) as Y.
    rewrite Fl in Y. assert (La : length args = S (length front))
      by (unfold args; rewrite app_length; simpl; lia).
    assert (Ne : map fst (make_counters_n args total) <> []).
    { intros E. rewrite E in Fl. simpl in Fl. lia. }
    specialize (Y Ne). rewrite La in Y. replace (S (length front) - 1)%nat with (length front) in Y by lia.
    assert (Ef : nth_error args (length front) = Some final).
    { unfold args. rewrite nth_error_app2 by lia. rewrite Nat.sub_diag. reflexivity. }
    pose proof (Fb _ _ _ Ef Y). lia. }
  split; [tauto|]. intros E. split; [exact E|right; exact X].
Qed.
