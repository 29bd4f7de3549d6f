(** Examples for PApi.v. *)
From Verif Require Import Base BaseProofs MStrings MOptIter MData MCounter MValues MParser MText MHelp MApi
  SStrings StrProofs SIndex SDef SValues SCounter SParser SStep SApi SExamples ExProofs ApiProofs.
Open Scope nat_scope.

Definition ex_parser : parser_data := ex_data false false ex_copy.

Lemma ex_version : exists d args st st',
  fst (parse_vector 100 (Some d) args) = PReturn st /\ l_result (toplevel st) = RC_STOP /\
  parse_vector_const 100 (Some d) args = PReturn st' /\ l_result (toplevel st') = RC_FAILURE.
Proof.
  exists (mk_data ex_copy (ex_settings false false) ($"1.0") 0 []), [$"--version"]. do 2 eexists.
  split; [vm_compute; reflexivity|]. split; [vm_compute; reflexivity|]. split; vm_compute; reflexivity.
Qed.

Lemma ex_copy_from : exists fuel s d d' e,
  call_parser fuel (P_copy_from (Some s)) (Some d) = (R_call (Raised e), Some d') /\
  c_options (d_command d') <> c_options (d_command d).
Proof.
  exists 0, (cmd_update (C_about ($"one")) ex_copy), (mk_data (cmd_update (C_about ($"two")) (new_command ($"prog"))) default_settings [] 0 []).
  do 2 eexists. split; [vm_compute; reflexivity|]. discriminate.
Qed.

Lemma ex_style : exists fuel d s c d', In c (c_commands (d_command d)) /\ c_options c <> [] /\
  call_parser fuel (P_style s) (Some d) = (R_call (Done tt), Some d') /\ s_style (d_settings d') <> s_style (d_settings d).
Proof.
  exists 0, (ex_data false false (ex_command ($"prog") [] [] [ex_copy] false)), SLASH, ex_copy. eexists.
  split; [left; reflexivity|]. split; [discriminate|]. split; [vm_compute; reflexivity|]. discriminate.
Qed.

Lemma ex_made_argument : exists a, made_argument a /\ a_min a = 0%N /\ a_max a = 3%N.
Proof.
  eexists. split; [exists ($"X"), [A_counts 5 2; A_count 0; A_counts 2 3; A_optional true]; vm_compute; reflexivity|]. split; reflexivity.
Qed.

Lemma ex_made_parser : exists d, made_parser d /\ map c_name (c_commands (d_command d)) = [$"add"] /\
     map a_max (flat_map c_arguments (c_commands (d_command d))) = [3%N].
Proof.
  destruct ex_made_argument as (a0 & _).
  pose (a := arg_counts 2 3 (new_argument ($"FILE"))). pose (c := set_c_items (new_command ($"add")) [a] [] []).
  assert (Ha : made_argument a) by (exists ($"FILE"), [A_counts 2 3]; reflexivity).
  assert (Hc : made_command c).
  { apply (made_add_argument a (new_command ($"add")) (Done tt) None c Ha (made_new _)). reflexivity. }
  eexists. split.
  - exists 0, ($"prog"), false, [P_add_command (Some c); P_parse_const [$"x"]; P_add_option None]. eexists. split; [vm_compute; reflexivity|].
    repeat constructor. exact Hc.
  - split; reflexivity.
Qed.

Lemma file_part_base : forall path b, file_part path b -> get_base_name path = b.
Proof.
  intros path b (Hb & [->|(d & x & Hx & ->)]); [apply base_name_no_sep, Hb|apply base_name_after_sep; assumption].
Qed.

Lemma C62_name_proof : forall fuel d argv0 b args, c_name (d_command d) = DEFAULT_NAME -> argv0 <> [] -> file_part argv0 b ->
  call_parsers fuel [P_parse_argv (argv0 :: args)] (Some d) =
  (tl (fst (call_parsers fuel [P_command (C_name b); P_parse args] (Some d))), None).
Proof.
  intros fuel d argv0 b args Hn Ha Hb. apply file_part_base in Hb. subst b. rewrite !calls_cons. cbn [call_parsers fst snd tl call_parser parse_argv parse_vector set_data].
  rewrite Hn, BaseProofs.str_eqb_refl. destruct argv0; [congruence|]. cbn [is_empty negb andb].
  assert (E : forall n, set_d_name d n = set_d_command d (cmd_update (C_name n) (d_command d))) by (intros n; destruct d as [[] ? ? ? ?]; reflexivity).
  rewrite E. reflexivity.
Qed.

Lemma C62_ignored_proof : forall fuel d argv0 args, c_name (d_command d) <> DEFAULT_NAME \/ argv0 = [] ->
  call_parser fuel (P_parse_argv (argv0 :: args)) (Some d) = call_parser fuel (P_parse args) (Some d).
Proof.
  intros fuel d argv0 args Ho. cbn [call_parser parse_argv].
  assert (E : str_eqb (c_name (d_command d)) DEFAULT_NAME && negb (is_empty argv0) = false).
  { destruct Ho as [Ho| ->]; [|apply andb_false_r]. destruct (str_eqb _ _) eqn:E; [|reflexivity]. apply str_eqb_eq in E. congruence. }
  rewrite E. reflexivity.
Qed.

Lemma ex_iterator : exists d args cfg st0 l st,
  make_argument_iterator d args = Done (cfg, st0) /\ iterate cfg 100 st0 = Ret l st /\
  c_name (l_command (ps_cur st)) = $"add" /\ c_name (l_command (toplevel st)) = $"tool".
Proof.
  exists (ex_data false false ex_tool), [$"-Cx"; $"add"; $"-mt"; $"f"]. do 4 eexists.
  split; [vm_compute; reflexivity|]. split; [vm_compute; reflexivity|]. split; reflexivity.
Qed.

Lemma ex_items : let q := completed ex_parser in
  finish_parser ex_parser = Val q /\ no_interference (d_settings q) (d_command q) /\ c_commands (d_command q) = [] /\
  exists st0 rs st, start_counter (d_settings q) (initial_state (d_settings q) (d_command q) [$"-v"; $"-ox"; $"a"; $"--out=y"]) = Ret tt st0 /\
    steps (d_settings q) st0 rs st /\ (forall r, In r rs -> ir_code r <> IC_ERROR) /\
    map (fun c => match c with Assigned _ t _ => (0, t) | Appended _ t _ => (1, t) | Cleared _ => (2, []) end) (given_changes item_change rs) =
    [(1, $"1"); (0, $"x"); (1, $"a"); (0, $"y")].
Proof.
  cbv zeta. split; [vm_compute; reflexivity|]. split.
  { intros f Cf. exfalso. revert Cf. eapply (no_callbacks_sound 5); vm_compute; reflexivity. }
  split; [reflexivity|]. do 3 eexists. split; [vm_compute; reflexivity|]. split.
  { do 4 (eapply steps_more; [vm_compute; reflexivity|]). apply steps_none. }
  split; [|vm_compute; reflexivity]. intros r Hr. repeat (destruct Hr as [<-|Hr]; [discriminate|]). destruct Hr.
Qed.

(** An account without the data that matters to the computer only. *)
Inductive short_account := Short (name : str) (given : list str) (subs : list short_account).
Fixpoint shortened (a : account) : short_account :=
  let (c, cs, subs) := a in
  Short (c_name c) (map (fun x => match x with Assigned _ t _ | Appended _ t _ => t | Cleared _ => [] end) cs) (map shortened subs).

Lemma ex_items_all : let q := completed (ex_data false false ex_tool) in
  let args := [$"-C"; $"d"; $"add"; $"x"; $"-m"; $"t"; $"remote"; $"-q"; $"list"; $"add"; $"y"] in
  finish_parser (ex_data false false ex_tool) = Val q /\ no_interference (d_settings q) (d_command q) /\
  exists st0 rs st, start_counter (d_settings q) (initial_state (d_settings q) (d_command q) args) = Ret tt st0 /\
    steps (d_settings q) st0 rs st /\ (forall r, In r rs -> ir_code r <> IC_ERROR) /\ length rs = 9 /\
    let (cur, above) := booked (Acc (d_command q) [] [], []) rs in
    shortened (total cur above) =
    Short ($"tool") [$"d"] [Short ($"add") [$"x"; $"t"] []; Short ($"remote") [$"1"] [Short ($"list") [] []]; Short ($"add") [$"y"] []] /\
    shortened cur = Short ($"add") [$"y"] [].
Proof.
  cbv zeta. split; [vm_compute; reflexivity|]. split.
  { intros f Cf. exfalso. revert Cf. eapply (no_callbacks_sound 5); vm_compute; reflexivity. }
  do 3 eexists. split; [vm_compute; reflexivity|]. split.
  { do 9 (eapply steps_more; [vm_compute; reflexivity|]). apply steps_none. }
  split; [intros r Hr; repeat (destruct Hr as [<-|Hr]; [discriminate|]); destruct Hr|].
  split; [reflexivity|]. vm_compute. split; reflexivity.
Qed.
