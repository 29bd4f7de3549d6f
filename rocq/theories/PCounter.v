(** Properties of counting and distributing positional arguments: C26-C29. The
    specification is in SCounter.v; [calls n] (CounterProofs.v) calls the model's
    [next_argument] [n] times and returns the results. *)
From Verif Require Import Base MData MCounter SCounter CounterProofs.

Open Scope N_scope.

(** C26. Distribution of [n] arguments over the definitions. *)
Theorem C26_distribution : forall args n, proper args -> n < 2 ^ 64 ->
  map snd (make_counters_n args n) = args /\
  let ks := map fst (make_counters_n args n) in
  (minima args <= n <= maxima args -> fair args n ks) /\
  (n < minima args -> ks = map a_min args) /\
  (maxima args < n -> ks = map a_max args).
Proof. exact distribution_proof. Qed.
Print Assumptions C26_distribution.

(** There is only one fair distribution. *)
Theorem C26_unique : forall args n ks ks', fair args n ks -> fair args n ks' -> ks = ks'.
Proof. exact fair_unique_proof. Qed.
Print Assumptions C26_unique.

Definition arg (name : str) (lo hi : N) : arg_data :=
  mk_arg name [] [] [] None lo hi vis_normal 0 0.
Definition ex_args : list arg_data := [arg ($"A") 1 2; arg ($"B") 0 3; arg ($"C") 2 2].

Example C26_example : proper ex_args /\ minima ex_args = 3 /\ maxima ex_args = 7 /\
  map fst (make_counters_n ex_args 5) = [2; 1; 2] /\
  map fst (make_counters_n ex_args 1) = [1; 0; 2] /\
  map fst (make_counters_n ex_args 9) = [2; 3; 2] /\
  fair ex_args 5 [2; 1; 2].
Proof.
  assert (P : proper ex_args) by (intros a [<-|[<-|[<-|[]]]]; simpl; lia).
  split; [exact P|]. do 5 (split; [reflexivity|]).
  destruct (C26_distribution ex_args 5 P ltac:(reflexivity)) as (_ & F & _).
  apply F. vm_compute. split; discriminate.
Qed.

(** C27. The reported minimum and maximum. *)
Theorem C27_min_max : forall args,
  get_min_max_count args = (minima args, N.min (2 ^ 64 - 1) (maxima args)).
Proof. exact min_max_proof. Qed.
Print Assumptions C27_min_max.

Example C27_example :
  get_min_max_count ex_args = (3, 7) /\
  get_min_max_count [arg ($"A") 1 (2 ^ 64 - 2); arg ($"B") 0 1; arg ($"C") 0 5] =
    (1, 2 ^ 64 - 1).
Proof. split; reflexivity. Qed.

(** C28. Values go to the definitions in order; after the last one nothing is
    handed out. First for a command whose arguments need not be counted, where
    every definition takes as many as it can. *)
Theorem C28_order_plain : forall args n, proper args ->
  fst (calls n (plain_counter args)) =
  let o := order (map (fun a => (a_max a, a)) args) in
  map Some (firstn n o) ++ repeat None (n - length o).
Proof. exact plain_order_proof. Qed.
Print Assumptions C28_order_plain.

(** For a command whose arguments have been counted, where [initial] of them have
    been handed out earlier. *)
Theorem C28_order_counted : forall args total initial n,
  fst (calls n (counted_counter args total initial)) =
  let o := skipn (N.to_nat initial) (order (make_counters_n args total)) in
  map Some (firstn n o) ++ repeat None (n - length o).
Proof. exact counted_order_proof. Qed.
Print Assumptions C28_order_counted.

(** The arguments are counted only if needed: not if all definitions but the last
    have a fixed number of values. *)
Theorem C28_when_counted : forall args,
  requires_argument_count args = false <-> predictable args.
Proof. exact requires_count_false. Qed.
Print Assumptions C28_when_counted.

(** The counter's own count is the number of values handed out. *)
Theorem C28_count : forall n args total initial ac,
  ac = plain_counter args \/ ac = counted_counter args total initial ->
  ac_counter (snd (calls n ac)) =
  ac_counter ac + N.of_nat (length (filter (fun x => match x with Some _ => true | None => false end)
                                      (fst (calls n ac)))).
Proof. exact count_proof. Qed.
Print Assumptions C28_count.

Example C28_example :
  map (option_map a_name) (fst (calls 4 (plain_counter [arg ($"A") 1 1; arg ($"B") 1 2]))) =
    [Some ($"A"); Some ($"B"); Some ($"B"); None] /\
  map (option_map a_name) (fst (calls 4 (counted_counter ex_args 4 1))) =
    [Some ($"A"); Some ($"C"); Some ($"C"); None] /\
  requires_argument_count ex_args = true /\
  requires_argument_count [arg ($"A") 1 1; arg ($"B") 1 2] = false.
Proof. vm_compute. repeat split; reflexivity. Qed.

(** C29. Completeness, for a command whose arguments need not be counted. *)
Theorem C29_complete_plain : forall args n, proper args ->
  requires_argument_count args = false -> N.of_nat n <= maxima args ->
  (is_complete (snd (calls n (plain_counter args))) = true <-> minima args <= N.of_nat n).
Proof. exact plain_complete_proof. Qed.
Print Assumptions C29_complete_plain.

(** For a command whose arguments have been counted: all of them must have been
    received and, unless there is only one definition, the last definition must
    have received at least one. *)
Theorem C29_complete_counted : forall args total n,
  let ks := map fst (make_counters_n args total) in
  N.of_nat n <= sum ks ->
  (is_complete (snd (calls n (counted_counter args total 0))) = true <->
   N.of_nat n = sum ks /\ ((length ks <= 1)%nat \/ last ks 0 <> 0)).
Proof. exact counted_complete_proof. Qed.
Print Assumptions C29_complete_counted.

(** Hence a counted command may never become complete although all mandatory
    arguments (here: none) have been received. *)
Theorem C29_complete_counted_refuted : exists args total n,
  proper args /\ minima args <= total <= maxima args /\
  requires_argument_count args = true /\ N.of_nat n = total /\
  is_complete (snd (calls n (counted_counter args total 0))) = false.
Proof. exact counted_refuted_proof. Qed.
Print Assumptions C29_complete_counted_refuted.

(** With a mandatory last definition and enough arguments the counted command is
    complete exactly when all of them have been received. *)
Theorem C29_complete_counted_mandatory : forall front final total n,
  let args := front ++ [final] in
  proper args -> total < 2 ^ 64 -> minima args <= total <= maxima args -> 1 <= a_min final ->
  N.of_nat n <= total ->
  (is_complete (snd (calls n (counted_counter args total 0))) = true <-> N.of_nat n = total).
Proof. exact counted_mandatory_proof. Qed.
Print Assumptions C29_complete_counted_mandatory.

(** Asking whether a command is complete never reads outside the counters. *)
Theorem C29_in_range : forall ac args total initial n,
  ac = plain_counter args \/ ac = counted_counter args total initial \/ ac = empty_counter ->
  let ac' := snd (calls n ac) in
  (ac_index ac' + 1)%nat = ac_first_optional ac' ->
  exists x, nth_error (ac_counters ac') (ac_index ac') = Some x.
Proof. exact in_range_proof. Qed.
Print Assumptions C29_in_range.

Example C29_example :
  let args := [arg ($"A") 2 2; arg ($"B") 1 3] in
  proper args /\ requires_argument_count args = false /\ minima args = 3 /\
  map (fun n => is_complete (snd (calls n (plain_counter args)))) [2; 3; 4]%nat
    = [false; true; true] /\
  map (fun n => is_complete (snd (calls n (counted_counter ex_args 4 0)))) [3; 4]%nat
    = [false; true].
Proof.
  split; [intros a [<-|[<-|[]]]; simpl; lia|]. vm_compute. repeat split; reflexivity.
Qed.
