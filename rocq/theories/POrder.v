(** C86: the order of options and arguments. *)
From Verif Require Import Base MStrings MOptIter MData MCounter MValues MParser
  SIndex SDef SValues SCounter SParser SStep SLook SEquiv SApi SLine SOrder SExamples
  LineProofs LineProofs2 LineProofs3 LineExamples OrderProofs PLine.
Open Scope nat_scope.

(** Two command lines with the same arguments and the same options, such that the words
    that concern any one value are in the same order: one is accepted if and only if the
    other one is, and then all values are the same. How the words are spelled and what
    is between them does not matter. *)
Theorem C86_accepted : forall p q args ws subs e args' ws' subs' e' left hs,
  let cfg := d_settings q in let top := d_command q in
  finish_parser p = Val q -> regular cfg top ->
  reading cfg false top (Fresh args) ws subs e -> all_foreseen cfg ((top, ws) :: subs) ->
  reading cfg false top (Fresh args') ws' subs' e' -> all_foreseen cfg ((top, ws') :: subs') ->
  left_of e = Some left -> left_of e' = Some left ->
  all_reordered ((top, ws) :: subs) ((top, ws') :: subs') ->
  (succeeds cfg top args hs left <-> succeeds cfg top args' hs left).
Proof.
  intros p q args ws subs e args' ws' subs' e' left hs cfg top H Rg R F R' F' E E' O. split; intros S.
  - exact (order_success p q H Rg _ _ _ _ _ _ _ _ _ _ _ R F E R' F' E' O S).
  - exact (order_success p q H Rg _ _ _ _ _ _ _ _ _ _ _ R' F' E' R F E (all_reordered_sym _ _ O) S).
Qed.
Print Assumptions C86_accepted.

(** If something is missing, and no option has the value of an argument, then both are
    refused with the same message about the same command. *)
Theorem C86_refused : forall p q args ws subs e args' ws' subs' e' left m hs left0,
  let cfg := d_settings q in let top := d_command q in
  finish_parser p = Val q -> regular cfg top ->
  reading cfg false top (Fresh args) ws subs e -> all_foreseen cfg ((top, ws) :: subs) ->
  reading cfg false top (Fresh args') ws' subs' e' -> all_foreseen cfg ((top, ws') :: subs') ->
  left_of e = Some left -> left_of e' = Some left ->
  all_reordered ((top, ws) :: subs) ((top, ws') :: subs') ->
  room ((top, ws) :: subs) -> Forall (fun sg => separate (fst sg)) ((top, ws) :: subs) ->
  refuses cfg top args m hs left0 ->
  exists hs', last (map fst hs') top = last (map fst hs) top /\ refuses cfg top args' m hs' left.
Proof.
  intros p q args ws subs e args' ws' subs' e' left m hs left0 cfg top H Rg R F R' F' E E' O Rm Sp Rf.
  exact (order_refused p q H Rg _ _ _ _ _ _ _ _ _ _ _ _ R F E R' F' E' O Rm Sp Rf).
Qed.
Print Assumptions C86_refused.

(** Two parts of a command line that have nothing to do with each other can change
    places: [a] leads to command [c], and [x] and [y] are options with their values or
    arguments of [c]. *)
Theorem C86_swap : forall p q front c a wa x wx y wy b wb wsa subsa subsb e left hs,
  let cfg := d_settings q in let top := d_command q in
  finish_parser p = Val q -> regular cfg top ->
  reading cfg false top (Fresh a) wsa subsa AtEnd -> (top, wsa) :: subsa = front ++ [(c, wa)] ->
  reading cfg false c (Fresh x) wx [] AtEnd -> reading cfg false c (Fresh y) wy [] AtEnd ->
  reading cfg false c (Fresh b) wb subsb e -> left_of e = Some left ->
  no_last_option ((top, wsa) :: subsa) -> no_last_option [(c, wx)] -> no_last_option [(c, wy)] ->
  all_foreseen cfg (front ++ (c, wa ++ wx ++ wy ++ wb) :: subsb) -> independent c wx wy ->
  (succeeds cfg top (a ++ x ++ y ++ b) hs left <-> succeeds cfg top (a ++ y ++ x ++ b) hs left).
Proof.
  intros p q front c a wa x wx y wy b wb wsa subsa subsb e left hs cfg top H Rg Ra Ea Rx Ry Rb El Na Nx Ny Fs I.
  assert (Fs' : all_foreseen cfg (front ++ (c, wa ++ wy ++ wx ++ wb) :: subsb)).
  { unfold all_foreseen in Fs |- *. rewrite Forall_app in Fs |- *. destruct Fs as (F1 & F2). split; [exact F1|].
    inversion F2 as [|? ? F3 F4]; subst. constructor; [|exact F4]. cbn [fst snd] in F3 |- *.
    rewrite !Forall_app in F3 |- *. tauto. }
  split; intros S.
  - exact (swap_success p q H Rg _ _ _ _ _ _ _ _ _ _ _ _ _ _ _ _ _ Ra Ea Rx Ry Rb Na Nx Ny El Fs I S).
  - exact (swap_success p q H Rg _ _ _ _ _ _ _ _ _ _ _ _ _ _ _ _ _ Ra Ea Ry Rx Rb Na Ny Nx El Fs' (independent_sym _ _ _ I) S).
Qed.
Print Assumptions C86_swap.

(* ------------------------------------------------------------------------ *)
(** ** Examples *)

(** "-v a --out=x b" and "a b -ox -v". *)
Example ex_order :
  let ws := [Optional (copy_o 0) []; Positional ($"a"); Optional (copy_o 1) ($"x"); Positional ($"b")] in
  let ws' := [Positional ($"a"); Positional ($"b"); Optional (copy_o 1) ($"x"); Optional (copy_o 0) []] in
  finish_parser copy_p = Val copy_q /\
  sensible copy_q [$"-v"; $"a"; $"--out=x"; $"b"] ws [] AtEnd /\
  sensible copy_q [$"a"; $"b"; $"-ox"; $"-v"] ws' [] AtEnd /\
  all_reordered [(d_command copy_q, ws)] [(d_command copy_q, ws')] /\
  exists hs, succeeds (d_settings copy_q) (d_command copy_q) [$"-v"; $"a"; $"--out=x"; $"b"] hs [].
Proof.
  cbv zeta. split; [vm_compute; reflexivity|]. split; [solve_sensible copy_p|]. split; [solve_sensible copy_p|]. split.
  - repeat constructor. cbn [fst snd]. intros id.
    destruct (N.eq_dec id 1) as [->|N1]; [vm_compute; reflexivity|].
    destruct (N.eq_dec id 2) as [->|N2]; [vm_compute; reflexivity|].
    destruct (N.eq_dec id 3) as [->|N3]; [vm_compute; reflexivity|].
    destruct (N.eq_dec id 4) as [->|N4]; [vm_compute; reflexivity|].
    rewrite !filter_none; [reflexivity| |];
      intros w [<-|[<-|[<-|[<-|[]]]]]; apply not_true_iff_false; intros X; revert X;
      [idtac|idtac|idtac|idtac|idtac|idtac|idtac|idtac];
      try (change (N.eqb 3 id = true -> False); intros X; apply N.eqb_eq in X; auto; fail);
      try (change (N.eqb 4 id = true -> False); intros X; apply N.eqb_eq in X; auto; fail);
      (change (N.eqb 1 id || (N.eqb 2 id || false) = true -> False); rewrite orb_false_r, orb_true_iff, !N.eqb_eq; intros [X|X]; auto).
  - exists [(d_command copy_q, begin (at_first (d_command copy_q)) [] ++
      meant (order (combine [1%N; 1%N] (c_arguments (d_command copy_q))))
        [Optional (copy_o 0) []; Positional ($"a"); Optional (copy_o 1) ($"x"); Positional ($"b")])].
    apply (C71_success copy_p copy_q _ [Optional (copy_o 0) []; Positional ($"a"); Optional (copy_o 1) ($"x"); Positional ($"b")] [] AtEnd); [vm_compute; reflexivity|apply regular_check_sound; vm_compute; reflexivity| | |reflexivity|].
    + apply (read_line copy_p _ ltac:(vm_compute; reflexivity) ltac:(vm_compute; reflexivity) 50). vm_compute. reflexivity.
    + apply all_foreseen_check. vm_compute. reflexivity.
    + exists [], (d_command copy_q). eexists _, _. split; [reflexivity|]. split; [|reflexivity].
      apply (accept_check_sound _ _ _ [1%N; 1%N]). vm_compute. reflexivity.
Qed.

(** "-v a" and "a -v": --out is missing in both. *)
Example ex_order_refused :
  let ws := [Optional (copy_o 0) []; Positional ($"a")] in
  let ws' := [Positional ($"a"); Optional (copy_o 0) []] in
  sensible copy_q [$"-v"; $"a"] ws [] AtEnd /\ sensible copy_q [$"a"; $"-v"] ws' [] AtEnd /\
  all_reordered [(d_command copy_q, ws)] [(d_command copy_q, ws')] /\
  room [(d_command copy_q, ws)] /\ separate (d_command copy_q) /\
  exists m hs left, refuses (d_settings copy_q) (d_command copy_q) [$"-v"; $"a"] m hs left.
Proof.
  cbv zeta. assert (Se : sensible copy_q [$"-v"; $"a"] [Optional (copy_o 0) []; Positional ($"a")] [] AtEnd) by solve_sensible copy_p.
  assert (Rm : room [(d_command copy_q, [Optional (copy_o 0) []; Positional ($"a")])]).
  { intros [|x front] c w E; [injection E as <- <-; vm_compute; discriminate|destruct front; discriminate]. }
  split; [exact Se|]. split; [solve_sensible copy_p|]. split; [|split; [exact Rm|split]].
  - constructor; [|constructor]. split; [reflexivity|]. cbn [fst snd].
    apply (independent_swap (d_command copy_q) [] [Optional (copy_o 0) []] [Positional ($"a")] []).
    split; [left; reflexivity|]. intros id w w' [<-|[]] [<-|[]] X.
    change (N.eqb 3 id = true) in X. apply N.eqb_eq in X. subst id. vm_compute. reflexivity.
  - assert (X : forallb (fun o => forallb (fun a => negb (N.eqb (o_value_id o) (a_value_id a))) (c_arguments (d_command copy_q)))
      (c_options (d_command copy_q)) = true) by (vm_compute; reflexivity).
    intros o a Io Ia E. rewrite forallb_forall in X. specialize (X o Io). rewrite forallb_forall in X. specialize (X a Ia).
    rewrite E, N.eqb_refl in X. discriminate.
  - assert (X : exists st, run_parser (d_settings copy_q) 50 (d_command copy_q) [$"-v"; $"a"] = Ret tt st /\
      l_result (toplevel st) = RC_FAILURE) by (eexists; split; vm_compute; reflexivity).
    destruct X as (st & E & Rs). destruct Se as (Rg & _ & _ & Rd & Fs).
    assert (Hf : finish_parser copy_p = Val copy_q) by (vm_compute; reflexivity).
    destruct (C71_incomplete copy_p copy_q _ _ _ _ [] Hf Rg Rd Fs Rm eq_refl) as (f & c & w & h & m & _ & _ & _ & R); [|eauto].
    intros hs A. destruct (C71_success copy_p copy_q _ _ _ _ [] hs Hf Rg Rd Fs eq_refl A) as (st' & (f & E') & _ & T).
    pose proof (run_one copy_q _ _ _ _ _ E E' ltac:(discriminate) ltac:(discriminate)) as X. injection X as <-.
    apply tells_result in T. destruct T; congruence.
Qed.

(** "-v" "--out=x" "a" "b": the option and the argument in the middle can change places. *)
Example ex_order_swap :
  let c := d_command copy_q in
  sensible copy_q [$"-v"] [Optional (copy_o 0) []] [] AtEnd /\
  sensible copy_q [$"--out=x"] [Optional (copy_o 1) ($"x")] [] AtEnd /\
  sensible copy_q [$"a"] [Positional ($"a")] [] AtEnd /\ sensible copy_q [$"b"] [Positional ($"b")] [] AtEnd /\
  no_last_option [(c, [Optional (copy_o 0) []])] /\ no_last_option [(c, [Optional (copy_o 1) ($"x")])] /\
  no_last_option [(c, [Positional ($"a")])] /\
  independent c [Optional (copy_o 1) ($"x")] [Positional ($"a")].
Proof.
  cbv zeta. do 4 (split; [solve_sensible copy_p|]).
  do 3 (split; [intros c ws o v [E|[]] I; injection E as <- <-; destruct I as [I|[]]; try discriminate;
    injection I as <- <-; vm_compute; discriminate|]).
  split; [left; reflexivity|]. intros id w w' [<-|[]] [<-|[]] X.
  change (N.eqb 4 id = true) in X. apply N.eqb_eq in X. subst id. vm_compute. reflexivity.
Qed.
