(** An invariant of argument counters during parsing. *)
From Verif Require Import Base MData MCounter SCounter CounterProofs.

Open Scope N_scope.

(** [k] arguments have been received. *)
Definition counter_ok (args : list arg_data) (ac : arg_counter) (k : N) : Prop :=
  ac_counter ac = k /\ k + N.of_nat (length (left_over ac)) <= maxima args /\
  incl (left_over ac) args /\
  forall n, is_complete (snd (calls n ac)) = true -> minima args <= ac_counter (snd (calls n ac)).

Lemma calls_count_min : forall n ac,
  ac_counter (snd (calls n ac)) = ac_counter ac + N.of_nat (Nat.min n (length (left_over ac))).
Proof.
  induction n as [|n IH]; intros ac; simpl; [lia|].
  pose proof (next_argument_spec ac) as H. pose proof (next_count ac) as C.
  destruct (next_argument ac) as (a, ac'). specialize (IH ac').
  destruct (calls n ac') as (l, ac''). simpl in *. rewrite IH, C.
  destruct (left_over ac) as [|x r]; destruct H as (-> & ->); simpl; lia.
Qed.

Lemma counted_sum : forall args n, proper args ->
  minima args <= sum (map fst (make_counters_n args n)) <= maxima args /\
  (n < minima args -> sum (map fst (make_counters_n args n)) = minima args) /\
  (minima args <= n -> N.min n (2 ^ 64 - 1) <= maxima args ->
     N.min n (2 ^ 64 - 1) <= sum (map fst (make_counters_n args n))).
Proof.
  intros args n P. unfold make_counters_n. rewrite min_max_proof.
  assert (Mm : minima args <= maxima args).
  { apply minima_le_maxima. intros a H. apply P in H. lia. }
  remember (2 ^ 64 - 1) as B eqn:EB. clear EB.
  set (n' := if n <? minima args then 0
             else if N.min B (maxima args) <? n then N.min B (maxima args) - minima args
             else n - minima args).
  assert (L : n' <= maxima args - minima args).
  { unfold n'. destruct (N.ltb_spec n (minima args)); [lia|].
    destruct (N.ltb_spec (N.min B (maxima args)) n); lia. }
  destruct (distribute_fair args n' P L) as (_ & -> & _).
  split; [lia|]. split.
  - intros H. unfold n'. apply N.ltb_lt in H. rewrite H. lia.
  - intros H1 H2. unfold n'. destruct (N.ltb_spec n (minima args)); [lia|].
    destruct (N.ltb_spec (N.min B (maxima args)) n); lia.
Qed.

Lemma counted_left : forall args total initial,
  left_over (counted_counter args total initial) =
  skipn (N.to_nat initial) (order (make_counters_n args total)).
Proof. intros. unfold counted_counter. rewrite consume_left. reflexivity. Qed.

Lemma order_incl : forall l, incl (order l) (map snd l).
Proof.
  intros l x H. unfold order in H. apply in_flat_map in H. destruct H as (p & Hp & Hx).
  apply repeat_spec in Hx. subst x. apply in_map. exact Hp.
Qed.

Lemma counted_args : forall args n, map snd (make_counters_n args n) = args.
Proof.
  intros. unfold make_counters_n. destruct (get_min_max_count args). apply distribute_args.
Qed.

Lemma consume_calls : forall i ac, (i <= length (left_over ac))%nat ->
  consume_initial i ac = snd (calls i ac).
Proof.
  induction i as [|i IH]; intros ac L; simpl; [reflexivity|].
  pose proof (next_argument_spec ac) as H. destruct (next_argument ac) as (a, ac').
  specialize (IH ac'). destruct (calls i ac') as (l, ac''). simpl in *.
  destruct (left_over ac) as [|x r]; simpl in L; [lia|]. destruct H as (-> & E).
  apply IH. rewrite E. lia.
Qed.

Lemma calls_add : forall i n ac, snd (calls n (snd (calls i ac))) = snd (calls (i + n) ac).
Proof.
  induction i as [|i IH]; intros n ac; simpl; [reflexivity|].
  destruct (next_argument ac) as (a, ac'). specialize (IH n ac').
  destruct (calls i ac') as (l, ac''). destruct (calls (i + n) ac') as (l', ac'''). exact IH.
Qed.

Lemma counter_ok_calls : forall args ac k i, counter_ok args ac k ->
  (i <= length (left_over ac))%nat -> counter_ok args (snd (calls i ac)) (k + N.of_nat i).
Proof.
  intros args ac k i (C & Mx & I & Cp) L. split; [|split; [|split]].
  - rewrite calls_count_min. lia.
  - rewrite (proj2 (calls_spec i ac)). rewrite skipn_length. lia.
  - rewrite (proj2 (calls_spec i ac)). intros x Hx. apply I.
    rewrite <- (firstn_skipn i). apply in_or_app. right. exact Hx.
  - intros n. rewrite calls_add. apply Cp.
Qed.

Lemma counter_ok_counted0 : forall args total, proper args ->
  counter_ok args (counted_counter args total 0) 0.
Proof.
  intros args total P. destruct (counted_sum args total P) as (B & _ & _).
  split; [reflexivity|]. rewrite counted_left. simpl.
  split; [rewrite order_length; lia|]. split.
  - intros x Hx. apply order_incl in Hx. rewrite counted_args in Hx. exact Hx.
  - intros n H. pose proof (counted_complete_proof args total n) as C. cbv zeta in C.
    rewrite calls_count_min. rewrite counted_left. simpl.
    pose proof (order_length (make_counters_n args total)) as OL.
    destruct (N.le_gt_cases (N.of_nat n) (sum (map fst (make_counters_n args total)))) as [L|L].
    + destruct (proj1 (C L) H) as (E & _). change (ac_counter (counted_counter args total 0)) with 0. lia.
    + change (ac_counter (counted_counter args total 0)) with 0. lia.
Qed.

Lemma counted_as_calls : forall args total initial, proper args ->
  initial <= sum (map fst (make_counters_n args total)) ->
  counted_counter args total initial =
  snd (calls (N.to_nat initial) (counted_counter args total 0)).
Proof.
  intros args total i P L. unfold counted_counter at 1. rewrite consume_calls; [reflexivity|].
  change (left_over _) with (left_over (counted_counter args total 0)).
  rewrite counted_left. simpl. pose proof (order_length (make_counters_n args total)). lia.
Qed.

Lemma counter_ok_recount : forall args ac k n, proper args -> maxima args < 2 ^ 64 ->
  counter_ok args ac k -> counter_ok args (counted_counter args (k + n) k) k.
Proof.
  intros args ac k n P B (C & Mx & _).
  assert (L : k <= sum (map fst (make_counters_n args (k + n)))).
  { destruct (counted_sum args (k + n) P) as (B1 & B2 & B3).
    destruct (N.lt_ge_cases (k + n) (minima args)) as [L|L]; [rewrite (B2 L); lia|].
    unfold make_counters_n. rewrite min_max_proof.
    assert (Mm : minima args <= maxima args).
    { apply minima_le_maxima. intros a H. apply P in H. lia. }
    remember (2 ^ 64 - 1) as Q eqn:EQ. assert (maxima args <= Q) by lia.
    rewrite N.min_r by assumption. clear B EQ.
    destruct (N.ltb_spec (k + n) (minima args)); [lia|].
    destruct (N.ltb_spec (maxima args) (k + n)).
    - destruct (distribute_fair args (maxima args - minima args) P ltac:(lia)) as (_ & -> & _). lia.
    - destruct (distribute_fair args (k + n - minima args) P ltac:(lia)) as (_ & -> & _). lia. }
  rewrite counted_as_calls by assumption.
  replace k with (0 + N.of_nat (N.to_nat k)) at 3 by lia.
  apply counter_ok_calls; [apply counter_ok_counted0; exact P|].
  rewrite counted_left. simpl. pose proof (order_length (make_counters_n args (k + n))). lia.
Qed.

Lemma counter_ok_plain : forall args, proper args -> requires_argument_count args = false ->
  counter_ok args (plain_counter args) 0.
Proof.
  intros args P R.
  assert (E : left_over (plain_counter args) = order (map (fun a => (a_max a, a)) args)).
  { unfold left_over, plain_counter. simpl. apply make_counters_order. intros a H. apply P in H. lia. }
  assert (E2 : N.of_nat (length (left_over (plain_counter args))) = maxima args).
  { rewrite E, order_length, map_map. reflexivity. }
  split; [reflexivity|]. split; [lia|]. split.
  - rewrite E. intros x Hx. apply order_incl in Hx. rewrite map_map in Hx. simpl in Hx.
    rewrite map_id in Hx. exact Hx.
  - intros n H. rewrite calls_count_min. change (ac_counter (plain_counter args)) with 0.
    destruct (N.le_gt_cases (N.of_nat n) (maxima args)) as [L|L].
    + apply (proj1 (plain_complete_proof args n P R L)) in H. lia.
    + assert (minima args <= maxima args).
      { apply minima_le_maxima. intros a Ha. apply P in Ha. lia. }
      lia.
Qed.

Lemma counter_ok_empty : counter_ok [] empty_counter 0.
Proof.
  split; [reflexivity|]. split; [simpl; unfold maxima; simpl; lia|]. split; [intros x []|].
  intros n _. unfold minima. simpl. lia.
Qed.

Lemma counter_ok_next : forall args ac k, counter_ok args ac k ->
  match next_argument ac with
  | (Some a, ac') => In a args /\ counter_ok args ac' (k + 1)
  | (None, ac') => counter_ok args ac' k
  end.
Proof.
  intros args ac k (C & Mx & I & Cp).
  pose proof (next_argument_spec ac) as H. pose proof (next_count ac) as NC.
  assert (Cp' : forall n, is_complete (snd (calls n (snd (next_argument ac)))) = true ->
            minima args <= ac_counter (snd (calls n (snd (next_argument ac))))).
  { intros n. specialize (Cp (S n)). simpl in Cp. destruct (next_argument ac) as (a, ac').
    destruct (calls n ac') as (l, ac'') eqn:Ec. simpl in *. rewrite Ec. exact Cp. }
  destruct (next_argument ac) as ([a|], ac'); simpl in *.
  - destruct (left_over ac) as [|x r]; [destruct H; discriminate|]. destruct H as (Ea & Er).
    injection Ea as <-. split; [apply I; left; reflexivity|].
    split; [lia|]. rewrite Er. simpl in Mx. split; [lia|]. split; [|exact Cp'].
    intros y Hy. apply I. right. exact Hy.
  - destruct (left_over ac) as [|x r]; [|destruct H; discriminate]. destruct H as (_ & Er).
    split; [lia|]. rewrite Er. simpl in *. split; [lia|]. split; [|exact Cp'].
    intros y [].
Qed.

Lemma counter_ok_complete : forall args ac k, counter_ok args ac k ->
  is_complete ac = true -> minima args <= k <= maxima args.
Proof.
  intros args ac k (C & Mx & _ & Cp) H. specialize (Cp 0%nat H). simpl in Cp. lia.
Qed.

(** All arguments of the counter are among [args]. *)
Definition counter_from (args : list arg_data) (ac : arg_counter) : Prop :=
  incl (map snd (ac_counters ac)) args.

Lemma decrement_args : forall l i, map snd (decrement_at l i) = map snd l.
Proof.
  induction l as [|(k, a) r IH]; intros [|i]; simpl; [reflexivity..|]. rewrite IH. reflexivity.
Qed.

Lemma next_from : forall ac,
  map snd (ac_counters (snd (next_argument ac))) = map snd (ac_counters ac) /\
  forall a, fst (next_argument ac) = Some a -> In a (map snd (ac_counters ac)).
Proof.
  intros ac. unfold next_argument.
  destruct (nth_error (ac_counters ac) _) as [(k, a)|] eqn:E; simpl.
  - split; [apply decrement_args|]. intros a' H. injection H as <-.
    apply nth_error_In in E. apply (in_map snd) in E. exact E.
  - split; [reflexivity|discriminate].
Qed.

Lemma counter_from_next : forall args ac, counter_from args ac ->
  counter_from args (snd (next_argument ac)) /\
  forall a, fst (next_argument ac) = Some a -> In a args.
Proof.
  intros args ac H. destruct (next_from ac) as (E & I). unfold counter_from. rewrite E.
  split; [exact H|]. intros a Ea. apply H, I, Ea.
Qed.

Lemma consume_from : forall k ac,
  map snd (ac_counters (consume_initial k ac)) = map snd (ac_counters ac).
Proof.
  induction k as [|k IH]; intros ac; simpl; [reflexivity|].
  destruct (next_from ac) as (E & _). destruct (next_argument ac) as ([a|], ac'); simpl in E.
  - rewrite IH. exact E.
  - exact E.
Qed.

Lemma counter_from_counted : forall args n k, counter_from args (counted_counter args n k).
Proof.
  intros args n k. unfold counter_from, counted_counter. rewrite consume_from. simpl.
  rewrite counted_args. intros x Hx. exact Hx.
Qed.

Lemma counters_from : forall args i fo, incl (map snd (make_counters_loop args i fo)) args.
Proof.
  induction args as [|a r IH]; intros i fo x Hx; simpl in *; [exact Hx|].
  rewrite map_app in Hx. apply in_app_or in Hx. destruct Hx as [Hx|Hx].
  - left. destruct (_ && _); simpl in Hx; tauto.
  - right. eapply IH. exact Hx.
Qed.

Lemma counter_from_plain : forall args, counter_from args (plain_counter args).
Proof. intros args. apply counters_from. Qed.

Lemma counter_from_empty : forall args, counter_from args empty_counter.
Proof. intros args x []. Qed.
