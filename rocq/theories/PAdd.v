(** C87: options can be added, and declared in any order. *)
From Coq Require Import Permutation.
From Verif Require Import Base MStrings MOptIter MData MCounter MValues MParser
  SIndex SDef SValues SCounter SParser SStep SLook SEquiv SApi SLine SAdd SExamples
  LineProofs LineProofs2 LineProofs3 LineExamples OrderProofs AddProofs PLine.
Open Scope nat_scope.

(** A command line whose flags are written in full, and which is read to its end: if it is
    accepted then it is still accepted after options have been added to the definition, or
    the options have been declared in another order, and the values of all arguments and
    of all options that were there before are the same. *)
Theorem C87_values : forall p q p' q' args ws subs e left hs,
  let cfg := d_settings q in let cfg' := d_settings q' in let top := d_command q in let top' := d_command q' in
  finish_parser p = Val q -> finish_parser p' = Val q' -> regular cfg top -> regular cfg' top' ->
  like_settings cfg cfg' -> extends (s_case_insensitive cfg) top top' ->
  reading (with_abbreviations false cfg) false top (Fresh args) ws subs e -> left_of e = Some left ->
  all_foreseen (with_abbreviations true cfg) ((top, ws) :: subs) ->
  succeeds cfg top args hs left ->
  exists hs', succeeds cfg' top' args hs' left /\ Forall2 like_values hs hs'.
Proof.
  intros p q p' q' args ws subs e left hs cfg cfg' top top' H H' Rg Rg' Ls X R El Fs.
  exact (proj1 (extended_success p q p' q' args ws subs e left H H' Rg Rg' Ls X R El Fs) hs left).
Qed.
Print Assumptions C87_values.

(** And if it was not accepted before then it is not accepted now. *)
Theorem C87_accepted : forall p q p' q' args ws subs e left,
  let cfg := d_settings q in let cfg' := d_settings q' in let top := d_command q in let top' := d_command q' in
  finish_parser p = Val q -> finish_parser p' = Val q' -> regular cfg top -> regular cfg' top' ->
  like_settings cfg cfg' -> extends (s_case_insensitive cfg) top top' ->
  reading (with_abbreviations false cfg) false top (Fresh args) ws subs e -> left_of e = Some left ->
  all_foreseen (with_abbreviations true cfg) ((top, ws) :: subs) ->
  ((exists hs left0, succeeds cfg top args hs left0) <-> (exists hs' left0, succeeds cfg' top' args hs' left0)).
Proof.
  intros p q p' q' args ws subs e left cfg cfg' top top' H H' Rg Rg' Ls X R El Fs.
  destruct (extended_success p q p' q' args ws subs e left H H' Rg Rg' Ls X R El Fs) as (A & B). split; [|exact B].
  intros (hs & left0 & S). destruct (A hs left0 S) as (hs' & S' & _). eauto.
Qed.
Print Assumptions C87_accepted.

(* ------------------------------------------------------------------------ *)
(** ** Examples *)

(** The program copy with an option -q, and with the options in another order. *)
Definition more_cmd : cmd_data := ex_command ($"copy")
  [ex_argument ($"SRC") 1 1 None; ex_argument ($"DST") 0 2 None]
  [ex_option [$"-o"; $"--out="] ($"FILE") [] OP_ASSIGN OT_NORMAL false None;
   ex_option [$"-q"; $"--quiet"] [] ($"1") OP_ASSIGN OT_NORMAL true None;
   ex_option [$"-v"; $"--verbose"] [] ($"1") OP_APPEND OT_NORMAL true None;
   ex_option [$"-s"; $"--stop"] [] [] OP_NONE OT_STOP true None;
   ex_option [$"-e"; $"--exit"] [] [] OP_NONE OT_EXIT true None;
   ex_option [$"--"] [] [] OP_NONE OT_LAST_OPTION true None;
   ex_option [$"--end"] [] [] OP_NONE OT_LAST_ARGUMENT true None]
  [] false.
Definition more_p := ex_data false false more_cmd.
Definition more_q := completed more_p.
Definition more_o (i : nat) := nth i (c_options (d_command more_q)) no_option.

Definition same_pair (x y : N * N) : bool := Bool.eqb (N.eqb (fst x) (fst y)) (N.eqb (snd x) (snd y)).
Lemma bijective_check : forall vs, forallb (fun x => forallb (same_pair x) vs) vs = true ->
  forall v1 v1' v2 v2', In (v1, v1') vs -> In (v2, v2') vs -> (v1 = v2 <-> v1' = v2').
Proof.
  intros vs B v1 v1' v2 v2' I1 I2. rewrite forallb_forall in B. specialize (B _ I1). rewrite forallb_forall in B.
  specialize (B _ I2). unfold same_pair in B. cbn [fst snd] in B. apply Bool.eqb_prop in B. rewrite <- !N.eqb_eq, B. tauto.
Qed.
Lemma begins_check : forall fs fs',
  forallb (fun f => forallb (fun f' => negb (if list_eq_dec ascii_dec (firstn (S (length f)) f') (f ++ ["="%char]) then true else false)) fs') fs = true ->
  forall f f', In f fs -> In f' fs' -> ~ begins_with (folded false f') (folded false f ++ ["="%char]).
Proof.
  intros fs fs' B f f' I I' (t & E). rewrite forallb_forall in B. specialize (B _ I). rewrite forallb_forall in B.
  specialize (B _ I'). unfold folded in E. revert B. cbv beta.
  destruct (list_eq_dec ascii_dec (firstn (S (length f)) f') (f ++ ["="%char])) as [Q|Q]; [discriminate|intros _]. apply Q. rewrite E.
  rewrite firstn_app. replace (S (length f) - length (f ++ ["="%char])) with 0 by (rewrite app_length; cbn [length]; lia).
  rewrite firstn_all2 by (rewrite app_length; cbn [length]; lia). cbn [firstn]. rewrite app_nil_r. reflexivity.
Qed.

Lemma more_extends : extends false (d_command copy_q) (d_command more_q).
Proof.
  apply (extended false (d_command copy_q) (d_command more_q)
    [more_o 2; more_o 0; more_o 3; more_o 4; more_o 5; more_o 6; more_o 7] [more_o 1]); [|vm_compute; constructor].
  unfold extended_by. split; [reflexivity|]. split; [reflexivity|].
  split; [vm_compute; repeat constructor|]. split; [vm_compute; repeat constructor|]. split.
  { change (c_options (d_command more_q)) with [more_o 0; more_o 1; more_o 2; more_o 3; more_o 4; more_o 5; more_o 6; more_o 7].
    cbn [app]. apply Permutation_sym.
    transitivity [more_o 0; more_o 2; more_o 1; more_o 3; more_o 4; more_o 5; more_o 6; more_o 7]; [apply perm_skip, perm_swap|].
    transitivity [more_o 2; more_o 0; more_o 1; more_o 3; more_o 4; more_o 5; more_o 6; more_o 7]; [apply perm_swap|].
    do 2 apply perm_skip. apply (Permutation_cons_append [more_o 3; more_o 4; more_o 5; more_o 6; more_o 7] (more_o 1)). }
  split; [intros o [<-|[]]; reflexivity|]. split; [apply bijective_check; vm_compute; reflexivity|]. split.
  { intros v v' I. vm_compute in I. repeat (destruct I as [I|I]; [injection I as <- <-; vm_compute; reflexivity|]). destruct I. }
  split; [apply begins_check; vm_compute; reflexivity|]. intros X. discriminate X.
Qed.

(** "-v a --out=x b" is accepted by both. *)
Example ex_extended :
  let ws := [Optional (copy_o 0) []; Positional ($"a"); Optional (copy_o 1) ($"x"); Positional ($"b")] in
  let args := [$"-v"; $"a"; $"--out=x"; $"b"] in
  finish_parser copy_p = Val copy_q /\ finish_parser more_p = Val more_q /\
  regular (d_settings copy_q) (d_command copy_q) /\ regular (d_settings more_q) (d_command more_q) /\
  like_settings (d_settings copy_q) (d_settings more_q) /\
  extends (s_case_insensitive (d_settings copy_q)) (d_command copy_q) (d_command more_q) /\
  reading (with_abbreviations false (d_settings copy_q)) false (d_command copy_q) (Fresh args) ws [] AtEnd /\
  all_foreseen (with_abbreviations true (d_settings copy_q)) [(d_command copy_q, ws)] /\
  exists hs, succeeds (d_settings copy_q) (d_command copy_q) args hs [].
Proof.
  cbv zeta. do 2 (split; [vm_compute; reflexivity|]). do 2 (split; [apply regular_check_sound; vm_compute; reflexivity|]).
  split; [split; vm_compute; reflexivity|]. split; [exact more_extends|].
  assert (E : with_abbreviations false (d_settings copy_q) = d_settings copy_q) by (vm_compute; reflexivity).
  rewrite E. split.
  { apply (read_line copy_p _ ltac:(vm_compute; reflexivity) ltac:(vm_compute; reflexivity) 50). vm_compute. reflexivity. }
  split.
  { apply Forall_cons; [|apply Forall_nil]. cbn [fst snd]. repeat apply Forall_cons; [| | | |apply Forall_nil].
    - intros X. destruct X. vm_compute. reflexivity.
    - right. left. split; discriminate.
    - intros _. split; [left|]; vm_compute; reflexivity.
    - right. left. split; discriminate. }
  eexists. eapply (C71_success copy_p copy_q _ [Optional (copy_o 0) []; Positional ($"a"); Optional (copy_o 1) ($"x"); Positional ($"b")] [] AtEnd);
    [vm_compute; reflexivity|apply regular_check_sound; vm_compute; reflexivity| | |reflexivity|].
  - apply (read_line copy_p _ ltac:(vm_compute; reflexivity) ltac:(vm_compute; reflexivity) 50). vm_compute. reflexivity.
  - apply all_foreseen_check. vm_compute. reflexivity.
  - exists [], (d_command copy_q). eexists _, _. split; [reflexivity|]. split; [|reflexivity].
    apply (accept_check_sound _ _ _ [1%N; 1%N]). vm_compute. reflexivity.
Qed.

(** An abbreviation can become ambiguous: "--ver" is accepted instead of "--verbose"
    only as long as there is no option --version. *)
Definition short_cmd (opts : list opt_data) : cmd_data := ex_command ($"p") [] opts [] false.
Definition short_p (opts : list opt_data) : parser_data := mk_data (short_cmd opts)
  (mk_settings None None STANDARD false true false false false true 0 64) [] 0 [].
Definition verbose_o := ex_option [$"--verbose"] [] ($"1") OP_ASSIGN OT_NORMAL true None.
Definition version_o := ex_option [$"--version"] [] ($"1") OP_ASSIGN OT_NORMAL true None.
Theorem C87_abbreviation_refuted : exists p q p' q' args st st',
  finish_parser p = Val q /\ finish_parser p' = Val q' /\
  extends (s_case_insensitive (d_settings q)) (d_command q) (d_command q') /\ d_settings q = d_settings q' /\
  parsed (d_settings q) (d_command q) args st /\ l_result (toplevel st) = RC_SUCCESS /\
  parsed (d_settings q') (d_command q') args st' /\ l_result (toplevel st') = RC_FAILURE.
Proof.
  exists (short_p [verbose_o]). eexists. exists (short_p [verbose_o; version_o]). eexists. exists [$"--ver"]. do 2 eexists.
  split; [vm_compute; reflexivity|]. split; [vm_compute; reflexivity|]. split.
  - vm_compute s_case_insensitive. vm_compute d_command.
    match goal with |- extends _ ?c ?d => 
      apply (extended false c d [nth 0 (c_options d) no_option; nth 2 (c_options d) no_option] [nth 1 (c_options d) no_option]) end;
      [|constructor].
    unfold extended_by. split; [reflexivity|]. split; [reflexivity|].
    split; [vm_compute; repeat constructor|]. split; [vm_compute; repeat constructor|].
    split; [cbn; apply perm_skip, perm_swap|].
    split; [intros o [<-|[]]; reflexivity|]. split; [apply bijective_check; vm_compute; reflexivity|]. split.
    { intros v v' I. vm_compute in I. repeat (destruct I as [I|I]; [injection I as <- <-; vm_compute; reflexivity|]). destruct I. }
    split; [apply begins_check; vm_compute; reflexivity|]. intros X. discriminate X.
  - split; [reflexivity|]. split; [exists 20; vm_compute; reflexivity|]. split; [reflexivity|].
    split; [exists 20; vm_compute; reflexivity|reflexivity].
Qed.
Print Assumptions C87_abbreviation_refuted.

(** The flags --out and --out= are not considered the same: after the second one has been
    added, "--out=x" is no longer a value of the first one. *)
Definition out_o (f : str) := ex_option [f] ($"FILE") [] OP_ASSIGN OT_NORMAL true None.
Theorem C87_equals_refuted : exists p q p' q' o o' args st st',
  finish_parser p = Val q /\ finish_parser p' = Val q' /\ d_settings q = d_settings q' /\
  In o (c_options (d_command q)) /\ In o' (c_options (d_command q')) /\ o_flags o = o_flags o' /\
  parsed (d_settings q) (d_command q) args st /\ l_result (toplevel st) = RC_SUCCESS /\
  map fst (get_values (l_values (toplevel st)) (o_value_id o)) = [$"x"] /\
  parsed (d_settings q') (d_command q') args st' /\ l_result (toplevel st') = RC_SUCCESS /\
  get_values (l_values (toplevel st')) (o_value_id o') = [].
Proof.
  exists (short_p [out_o ($"--out")]). eexists. exists (short_p [out_o ($"--out"); out_o ($"--out=")]). do 3 eexists.
  exists [$"--out=x"]. do 2 eexists.
  split; [vm_compute; reflexivity|]. split; [vm_compute; reflexivity|]. split; [reflexivity|].
  split; [left; reflexivity|]. split; [left; reflexivity|]. split; [reflexivity|].
  split; [exists 20; vm_compute; reflexivity|]. split; [reflexivity|]. split; [reflexivity|].
  split; [exists 20; vm_compute; reflexivity|]. split; reflexivity.
Qed.
Print Assumptions C87_equals_refuted.
