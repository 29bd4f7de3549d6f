(** The properties C30 to C34, C37, C40 and C50 of whole parses. In all of them
    [p] is any definition that the library accepts and [q] the definition after
    parse() has completed it. *)
From Verif Require Import Base BaseProofs MStrings MOptIter MData MCounter MValues MParser
  SDef SValues SCounter SParser SExamples CounterProofs InvProofs NextProofs ParseProofs.
Open Scope nat_scope.

(** C30. Without callbacks that insert arguments parse() ends within a number of
    steps given by the length of the command line. *)
Theorem C30_terminates : forall p q args fuel, finish_parser p = Val q ->
  no_insertions (d_settings q) (d_command q) ->
  list_sum (map (fun a => length a + 2) args) + 2 <= fuel ->
  run_parser (d_settings q) fuel (d_command q) args <> NoFuel.
Proof.
  exact (fun p q args fuel H Q L =>
    run_quiet _ _ (finish_parser_prepared p q H) fuel args Q
      (eq_ind _ (fun x => x <= fuel) L _ (Nat.add_comm _ 2))).
Qed.
Print Assumptions C30_terminates.

(** C30, callbacks: it is enough that they insert nothing from some point on. *)
Theorem C30_terminates_with_insertions : forall p q args K, finish_parser p = Val q ->
  (forall f, callback_of (d_settings q) (d_command q) f ->
   forall n v vs, K <= n -> eff_new (f n v vs) = []) ->
  exists fuel, run_parser (d_settings q) fuel (d_command q) args <> NoFuel.
Proof.
  exact (fun p q args K H Q => run_eventually _ _ (finish_parser_prepared p q H) K args Q).
Qed.
Print Assumptions C30_terminates_with_insertions.

(** C30: more steps do not change the outcome, so that "the" outcome of parse() is
    well defined. *)
Theorem C30_outcome_unique : forall p q args fuel fuel', finish_parser p = Val q ->
  run_parser (d_settings q) fuel (d_command q) args <> NoFuel -> fuel <= fuel' ->
  run_parser (d_settings q) fuel' (d_command q) args =
  run_parser (d_settings q) fuel (d_command q) args.
Proof.
  exact (fun p q args fuel fuel' _ H L => run_fuel_mono _ _ fuel fuel' args L H).
Qed.
Print Assumptions C30_outcome_unique.

(** A parser whose option -x inserts "-v" "a" the first time it is used. *)
Definition ex_inserting : parser_data := ex_data false false
  (ex_command ($"ins") [ex_argument ($"A") 0 5 None]
     [ex_option [$"-v"] [] ($"1") OP_APPEND OT_NORMAL true None;
      ex_option [$"-x"] [] ($"1") OP_APPEND OT_NORMAL true (Some (cb_insert_once [$"-v"; $"a"]))]
     [] false).

Example C30_example :
  finish_parser (ex_data false false ex_copy) = Val (completed (ex_data false false ex_copy)) /\
  no_insertions (d_settings (completed (ex_data false false ex_copy)))
    (d_command (completed (ex_data false false ex_copy))) /\
  finish_parser ex_inserting = Val (completed ex_inserting) /\
  (forall f, callback_of (d_settings (completed ex_inserting)) (d_command (completed ex_inserting)) f ->
   forall n v vs, 1 <= n -> eff_new (f n v vs) = []) /\
  map fst (map snd (l_values (toplevel (final ex_inserting [$"-xx"; $"b"])))) =
    [$"a"; $"b"; $"1"; $"1"; $"1"].
Proof.
  assert (W : forall c d, c_commands c = [] -> within c d -> d = c).
  { intros c d E H. induction H as [|x y H IH I]; [reflexivity|]. subst x. rewrite E in I. destruct I. }
  split; [vm_compute; reflexivity|]. split.
  { intros f Hf. inversion Hf as [? E|? E|c o ? H I E|c a ? H I E]; subst;
      try (vm_compute in E; discriminate);
      apply W in H; try reflexivity; subst c; vm_compute in I;
      repeat (destruct I as [<-|I]; [discriminate E|]); destruct I. }
  split; [vm_compute; reflexivity|]. split.
  { intros f Hf [|n] v vs L; [lia|].
    inversion Hf as [? E|? E|c o ? H I E|c a ? H I E]; subst;
      try (vm_compute in E; discriminate);
      apply W in H; try reflexivity; subst c; vm_compute in I;
      repeat (destruct I as [<-|I]; [try discriminate E; injection E as <-; reflexivity|]); destruct I. }
  vm_compute. reflexivity.
Qed.

(** C30: a callback that always inserts arguments keeps parse() busy for ever. *)
Definition ex_endless : parser_data := ex_data false false
  (ex_command ($"e") [] [ex_option [$"-x"] [] [] OP_NONE OT_NORMAL true
     (Some (fun n v vs => mk_eff [] [] false [$"-x"]))] [] false).

Theorem C30_insertions_refuted : exists p q args, finish_parser p = Val q /\
  forall fuel, run_parser (d_settings q) fuel (d_command q) args = NoFuel.
Proof.
  exists ex_endless, (completed ex_endless), [$"-x"]. split; [vm_compute; reflexivity|].
  pose (st n evs := mk_ps (d_command (completed ex_endless)) (new_level (d_command (completed ex_endless)))
    [] (mk_iter KStandard [$"-x"; $"-x"] Npos) (plain_counter []) ARGUMENTS_AND_OPTIONS n evs).
  assert (L : forall fuel n evs, parse_loop (d_settings (completed ex_endless)) fuel (st n evs) = NoFuel).
  { induction fuel as [|fuel IH]; intros n evs; [reflexivity|]. cbn [parse_loop]. unfold bind.
    assert (E : exists r e, ir_code r = IC_OPTION /\
      next (d_settings (completed ex_endless)) (st n evs) = Ret r (st (S n) (evs ++ [e]))).
    { do 2 eexists. split; [|vm_compute; reflexivity]. reflexivity. }
    destruct E as (r & e & C & ->). rewrite C. apply IH. }
  intros [|fuel]; [vm_compute; reflexivity|].
  transitivity (parse_loop (d_settings (completed ex_endless)) fuel (st 1 [EvOptionCallback false 2 []]));
    [|apply L].
  unfold run_parser, bind. cbn [parse_loop]. unfold bind.
  assert (E0 : exists s r, start_counter (d_settings (completed ex_endless))
     (initial_state (d_settings (completed ex_endless)) (d_command (completed ex_endless)) [$"-x"]) = Ret tt s /\
     next (d_settings (completed ex_endless)) s = Ret r (st 1 [EvOptionCallback false 2 []]) /\
     ir_code r = IC_OPTION).
  { do 2 eexists. split; [vm_compute; reflexivity|]. split; [vm_compute; reflexivity|reflexivity]. }
  destruct E0 as (s & r & -> & -> & ->). reflexivity.
Qed.
Print Assumptions C30_insertions_refuted.

(** C31. After the end has been reported it is reported again and nothing changes;
    after an error every further call throws. *)
Theorem C31_final : forall p q args st n r st', finish_parser p = Val q ->
  reached (d_settings q) (d_command q) args st n -> next (d_settings q) st = Ret r st' ->
  (ir_code r = IC_DONE -> next (d_settings q) st' = Ret r st') /\
  (ir_code r = IC_ERROR -> next (d_settings q) st' = Throws ENextAfterError st').
Proof.
  exact (fun p q args st n r st' H => final_done_proof _ _ (finish_parser_prepared p q H) args st n r st').
Qed.
Print Assumptions C31_final.

Example C31_example :
  let d := ex_data false false ex_copy in
  ir_code (match next (d_settings d) (after d [$"-ofile"; $"src"] 2) with
           | Ret r _ => r | _ => mk_ir IC_UNKNOWN ItNone [] end) = IC_DONE /\
  ir_code (match next (d_settings d) (after d [$"--bad"; $"src"] 0) with
           | Ret r _ => r | _ => mk_ir IC_UNKNOWN ItNone [] end) = IC_ERROR.
Proof. vm_compute. split; reflexivity. Qed.

(** C32. The result code when parse() has returned. [ps_cur] is the result of the
    command that was parsed last and [open_levels] it and its ancestors. *)
Theorem C32_result_code : forall p q args st, finish_parser p = Val q ->
  parsed (d_settings q) (d_command q) args st ->
  (l_result (ps_cur st) = RC_FAILURE <-> reported_error st) /\
  (l_result (ps_cur st) <> RC_NONE) /\
  (forall l, In l (open_levels st) ->
     l_result (ps_cur st) = RC_SUCCESS \/ l_result (ps_cur st) = RC_FAILURE ->
     l_result l = l_result (ps_cur st)) /\
  (l_result (ps_cur st) = RC_STOP <-> exists o, l_stop (ps_cur st) = Some o) /\
  (l_result (toplevel st) = RC_FAILURE <-> reported_error st).
Proof.
  exact (fun p q args st H => result_code_proof _ _ (finish_parser_prepared p q H) args st).
Qed.
Print Assumptions C32_result_code.

Example C32_example :
  let d := ex_data false false ex_tool in
  finish_parser d = Val (completed d) /\
  (forall args, In args [[$"-C."; $"add"; $"-mx"; $"f"]; [$"add"; $"-x"]; [$"add"; $"-s"; $"u"]] ->
     parsed (d_settings (completed d)) (d_command (completed d)) args (final d args)) /\
  l_result (ps_cur (final d [$"-C."; $"add"; $"-mx"; $"f"])) = RC_SUCCESS /\
  l_result (ps_cur (final d [$"add"; $"-x"])) = RC_FAILURE /\
  l_result (ps_cur (final d [$"add"; $"-s"; $"u"])) = RC_STOP.
Proof.
  cbv zeta. split; [vm_compute; reflexivity|]. split; [|vm_compute; repeat split; reflexivity].
  intros args H. repeat (destruct H as [<-|H]; [exists 1000; vm_compute; reflexivity|]). destruct H.
Qed.

(** C32: the top-level result alone does not tell that parsing was stopped. After
    a STOP option of a sub-command its code is NONE. *)
Theorem C32_toplevel_stop_refuted : exists p q args st, finish_parser p = Val q /\
  parsed (d_settings q) (d_command q) args st /\
  l_result (ps_cur st) = RC_STOP /\ l_result (toplevel st) = RC_NONE.
Proof.
  exists (ex_data false false ex_tool), (completed (ex_data false false ex_tool)),
    [$"add"; $"-s"; $"u"], (final (ex_data false false ex_tool) [$"add"; $"-s"; $"u"]).
  split; [vm_compute; reflexivity|]. split; [exists 1000; vm_compute; reflexivity|].
  vm_compute. split; reflexivity.
Qed.
Print Assumptions C32_toplevel_stop_refuted.

(** C33. Success means that the mandatory options of the last command have
    values. *)
Theorem C33_mandatory_options : forall p q args st o, finish_parser p = Val q ->
  parsed (d_settings q) (d_command q) args st ->
  l_result (ps_cur st) = RC_SUCCESS -> In o (c_options (l_command (ps_cur st))) ->
  o_optional o = false ->
  exists v aid, In (o_value_id o, (v, aid)) (l_values (ps_cur st)).
Proof.
  exact (fun p q args st o H => mandatory_proof _ _ (finish_parser_prepared p q H) args st o).
Qed.
Print Assumptions C33_mandatory_options.

Example C33_example :
  let d := ex_data false false ex_tool in
  let st := final d [$"add"; $"--message=x"; $"f"] in
  parsed (d_settings (completed d)) (d_command (completed d)) [$"add"; $"--message=x"; $"f"] st /\
  l_result (ps_cur st) = RC_SUCCESS /\
  (exists o, In o (c_options (l_command (ps_cur st))) /\ o_optional o = false) /\
  l_result (ps_cur (final d [$"add"; $"f"])) = RC_FAILURE.
Proof.
  cbv zeta. split; [exists 1000; vm_compute; reflexivity|]. split; [vm_compute; reflexivity|].
  split; [|vm_compute; reflexivity]. eexists. split; [vm_compute; left; reflexivity|reflexivity].
Qed.

(** C33: the mandatory options of the ancestors are not checked. *)
Theorem C33_ancestors_refuted : exists p q args st o, finish_parser p = Val q /\
  parsed (d_settings q) (d_command q) args st /\
  l_result (toplevel st) = RC_SUCCESS /\ In o (c_options (d_command q)) /\
  o_optional o = false /\ ~ exists e, In e (l_values (toplevel st)).
Proof.
  pose (d := ex_data false false ex_tool).
  exists d, (completed d), [$"add"; $"-mx"; $"f"], (final d [$"add"; $"-mx"; $"f"]).
  eexists. split; [vm_compute; reflexivity|]. split; [exists 1000; vm_compute; reflexivity|].
  split; [vm_compute; reflexivity|]. split; [vm_compute; left; reflexivity|].
  split; [reflexivity|]. intros (e & H). vm_compute in H. exact H.
Qed.
Print Assumptions C33_ancestors_refuted.

(** C34. Success means that the last command has got a permitted number of
    arguments and, if it needs one, a sub-command. *)
Theorem C34_argument_counts : forall p q args st n, finish_parser p = Val q ->
  sound (d_command q) -> parsed (d_settings q) (d_command q) args st ->
  reached (d_settings q) (d_command q) args st n ->
  l_result (ps_cur st) = RC_SUCCESS ->
  (minima (c_arguments (l_command (ps_cur st))) <= n)%N /\
  (n <= maxima (c_arguments (l_command (ps_cur st))))%N /\
  (c_require (l_command (ps_cur st)) = Some true -> l_subs (ps_cur st) <> []).
Proof.
  exact (fun p q args st n H S0 Pa R E =>
    match counts_proof _ _ (finish_parser_prepared p q H) args st n S0 Pa R E with
    | conj (conj A B) C => conj A (conj B C)
    end).
Qed.
Print Assumptions C34_argument_counts.

(** C34: what parse() returns has been reached by calls of next(). *)
Theorem C34_parsed_reached : forall p q args st, finish_parser p = Val q ->
  parsed (d_settings q) (d_command q) args st ->
  exists n, reached (d_settings q) (d_command q) args st n.
Proof.
  exact (fun p q args st H Pa =>
    match parsed_ended _ _ (finish_parser_prepared p q H) args st Pa with
    | ex_intro _ n (conj R _) => ex_intro _ n R
    end).
Qed.
Print Assumptions C34_parsed_reached.

Lemma ex_copy_sound : sound (d_command (completed (ex_data false false ex_copy))).
Proof.
  assert (W : forall c d, c_commands c = [] -> within c d -> d = c).
  { intros c d E H. induction H as [|x y H IH I]; [reflexivity|]. subst x. rewrite E in I. destruct I. }
  intros c H. apply W in H; [|reflexivity]. subst c. split; [|split; [vm_compute; reflexivity|right; reflexivity]].
  intros a I. vm_compute in I.
  repeat (destruct I as [<-|I]; [simpl; lia|]). destruct I.
Qed.

Example C34_example :
  let d := ex_data false false ex_copy in
  let args := [$"src"; $"-of"; $"dst"] in
  sound (d_command (completed d)) /\
  parsed (d_settings (completed d)) (d_command (completed d)) args (final d args) /\
  reached (d_settings (completed d)) (d_command (completed d)) args (final d args) 2 /\
  l_result (ps_cur (final d args)) = RC_SUCCESS /\
  l_result (ps_cur (final d [$"-of"])) = RC_FAILURE /\
  l_result (ps_cur (final d [$"-of"; $"1"; $"2"; $"3"; $"4"])) = RC_FAILURE.
Proof.
  cbv zeta. split; [exact ex_copy_sound|]. split; [exists 1000; vm_compute; reflexivity|].
  split; [|vm_compute; repeat split; reflexivity].
  pose (d := ex_data false false ex_copy). fold d.
  assert (E : final d [$"src"; $"-of"; $"dst"] = after d [$"src"; $"-of"; $"dst"] 4)
    by (vm_compute; reflexivity).
  rewrite E. clear E.
  assert (R0 : reached (d_settings (completed d)) (d_command (completed d))
                 [$"src"; $"-of"; $"dst"] (after d [$"src"; $"-of"; $"dst"] 0) 0)
    by (constructor; vm_compute; reflexivity).
  assert (St : forall i n r, reached (d_settings (completed d)) (d_command (completed d))
                 [$"src"; $"-of"; $"dst"] (after d [$"src"; $"-of"; $"dst"] i) n ->
     next (d_settings (completed d)) (after d [$"src"; $"-of"; $"dst"] i) =
       Ret r (after d [$"src"; $"-of"; $"dst"] (S i)) ->
     reached (d_settings (completed d)) (d_command (completed d))
                 [$"src"; $"-of"; $"dst"] (after d [$"src"; $"-of"; $"dst"] (S i))
       (count_after (after d [$"src"; $"-of"; $"dst"] i) n r (after d [$"src"; $"-of"; $"dst"] (S i)))).
  { intros i n r R E. eapply reached_next; eassumption. }
  eapply St in R0; [|vm_compute; reflexivity].
  eapply St in R0; [|vm_compute; reflexivity].
  eapply St in R0; [|vm_compute; reflexivity].
  eapply St in R0; [|vm_compute; reflexivity].
  exact R0.
Qed.

(** C37. parse() ends the program only if auto_exit is on, and then with the exit
    code for errors after an error, and with the normal one for a HELP or EXIT
    option. *)
Theorem C37_exits : forall p q fuel args c st, finish_parser p = Val q ->
  run_parser (d_settings q) fuel (d_command q) args = Exits c st ->
  s_auto_exit (d_settings q) = true /\
  ((c = s_error_exit (d_settings q) /\ reported_error st) \/
   (c = s_normal_exit (d_settings q) /\ ~ reported_error st /\
    exists o, l_stop (ps_cur st) = Some o /\ In o (c_options (ps_command st)) /\
      (o_type o = OT_HELP \/ o_type o = OT_EXIT))).
Proof.
  exact (fun p q fuel args c st H => exits_proof _ _ (finish_parser_prepared p q H) fuel args c st).
Qed.
Print Assumptions C37_exits.

(** C37: and if it is on, parse() returns neither after an error nor after a HELP
    or EXIT option. *)
Theorem C37_returns : forall p q args st, finish_parser p = Val q ->
  s_auto_exit (d_settings q) = true -> parsed (d_settings q) (d_command q) args st ->
  ~ reported_error st /\ l_result (ps_cur st) <> RC_FAILURE /\
  l_result (toplevel st) <> RC_FAILURE /\
  forall o, l_stop (ps_cur st) = Some o -> o_type o = OT_STOP.
Proof.
  exact (fun p q args st H => auto_exit_returns _ _ (finish_parser_prepared p q H) args st).
Qed.
Print Assumptions C37_returns.

Example C37_example :
  let d := ex_data true false ex_copy in
  let run args := run_parser (d_settings (completed d)) 1000 (d_command (completed d)) args in
  finish_parser d = Val (completed d) /\
  run [$"src"; $"--help"; $"-x"] = Exits 0 (final d [$"src"; $"--help"; $"-x"]) /\
  run [$"src"; $"--exit"] = Exits 0 (final d [$"src"; $"--exit"]) /\
  run [$"src"; $"-x"] = Exits 64 (final d [$"src"; $"-x"]) /\
  run [$"src"; $"-s"; $"-x"] = Ret tt (final d [$"src"; $"-s"; $"-x"]) /\
  run [$"src"; $"-of"] = Ret tt (final d [$"src"; $"-of"]).
Proof. vm_compute. repeat split; reflexivity. Qed.

(** C40. Sub-commands in the result are declared in their parent, and there are
    several only if the parent allows it. This holds at any time. *)
Theorem C40_subcommands : forall p q args st n x, finish_parser p = Val q ->
  reached (d_settings q) (d_command q) args st n -> in_result (toplevel st) x ->
  (forall s, In s (l_subs x) -> In (l_command s) (c_commands (l_command x))) /\
  (length (l_subs x) <= 1 \/ c_multi (l_command x) = true).
Proof.
  exact (fun p q args st n x H => subcommands_proof _ _ (finish_parser_prepared p q H) args st n x).
Qed.
Print Assumptions C40_subcommands.

Example C40_example :
  let d := ex_data false false ex_tool in
  let st := final d [$"-C."; $"add"; $"-mx"; $"f"; $"remote"; $"-q"; $"list"; $"add"; $"-my"; $"g"; $"h"] in
  l_result (toplevel st) = RC_SUCCESS /\
  map (fun s => (c_name (l_command s), map (fun s' => c_name (l_command s')) (l_subs s)))
    (l_subs (toplevel st)) =
  [($"add", []); ($"remote", [$"list"]); ($"add", [])].
Proof. vm_compute. split; reflexivity. Qed.

(** C50. Parsing with an accepted definition never runs into undefined behaviour,
    and throws only what callbacks throw or cause. *)
Theorem C50_safe : forall p q fuel args, finish_parser p = Val q ->
  match run_parser (d_settings q) fuel (d_command q) args with
  | Undefined => False
  | Throws e st =>
      (exists f, callback_of (d_settings q) (d_command q) f) /\
      ((e = EParseError /\ s_auto_exit (d_settings q) = false /\ reported_error st) \/
       e = ECallback \/ exists name, e = EUnknownValue name)
  | _ => True
  end.
Proof.
  exact (fun p q fuel args H => safety_proof _ _ (finish_parser_prepared p q H) fuel args).
Qed.
Print Assumptions C50_safe.

(** With callbacks that call error(), and without. *)
Example C50_example :
  let d := ex_data false false (ex_command ($"c") []
     [ex_option [$"-x"] ($"N") [] OP_ASSIGN OT_NORMAL true
        (Some (fun n v vs => mk_eff [] [VError ($"bad")] false []))] [] false) in
  finish_parser d = Val (completed d) /\
  run_parser (d_settings (completed d)) 10 (d_command (completed d)) [$"-x1"] =
    Throws EParseError (final d [$"-x1"]) /\
  run_parser (d_settings (completed d)) 10 (d_command (completed d)) [] = Ret tt (final d []).
Proof. vm_compute. repeat split; reflexivity. Qed.
