(** The properties C35, C36 and C42: what single calls of next() do in every
    state that can be reached. [p] is any definition that the library accepts and
    [q] the definition after parse() has completed it. *)
From Verif Require Import Base BaseProofs MStrings MOptIter MData MCounter MValues MParser
  SIndex SDef SValues SCounter SParser SStep SExamples ExProofs InvProofs NextProofs ParseProofs
  StepProofs StepProofs2.
Open Scope nat_scope.

(* ------------------------------------------------------------------------ *)
(** ** C35 *)

(** An unknown option is an error; if unknown options are ignored, the argument it
    stands in is left unprocessed and nothing else changes. [cur] is the argument
    that contains the token [t]. *)
Theorem C35_unknown_option : forall p q args st n t it,
  let cfg := d_settings q in
  finish_parser p = Val q -> reached cfg (d_command q) args st n ->
  ps_mode st = ARGUMENTS_AND_OPTIONS -> it_next (ps_iter st) = Ok (Some t, it) ->
  looks_like_option (s_style cfg) t ->
  dependable cfg (ps_command st) t -> unknown_option cfg (ps_command st) t ->
  exists cur, it_current it = Some cur /\
    (it_pos (ps_iter st) = At 0 \/ it_pos (ps_iter st) = Npos -> begins_with cur t) /\
    (s_ignore_options cfg = false \/ ~ begins_with cur t ->
       reports cfg st it (MsgUnknownOption cur)) /\
    (s_ignore_options cfg = true -> begins_with cur t ->
       next cfg st = Ret (mk_ir IC_UNKNOWN ItNone cur)
                       (set_cur (set_iter st it) (add_unprocessed (ps_cur st) [cur]))).
Proof. exact (fun p q args st n t it H => unknown_option_proof p q H args st n t it). Qed.
Print Assumptions C35_unknown_option.

(** A positional argument after the last one that is allowed is an error; if
    surplus arguments are ignored, it is left unprocessed. *)
Theorem C35_surplus_argument : forall p q args st n t it,
  let cfg := d_settings q in
  finish_parser p = Val q -> sound (d_command q) -> reached cfg (d_command q) args st n ->
  reads st (Some t) it -> (ps_mode st = ARGUMENTS_ONLY \/ ~ looks_like_option (s_style cfg) t) ->
  c_commands (ps_command st) = [] -> n = maxima (c_arguments (ps_command st)) ->
  no_sibling cfg st t ->
  (s_ignore_arguments cfg = false -> reports cfg st it (MsgTooManyArguments t)) /\
  (s_ignore_arguments cfg = true -> exists cur ac,
     next cfg st = Ret (mk_ir IC_UNKNOWN ItNone cur)
       (set_cur (set_counter (set_iter st it) ac) (add_unprocessed (ps_cur st) [t]))).
Proof. exact (fun p q args st n t it H => surplus_proof p q H args st n t it). Qed.
Print Assumptions C35_surplus_argument.

(** An unknown sub-command is an error, whatever is to be ignored. *)
Theorem C35_unknown_command : forall p q args st n t it,
  let cfg := d_settings q in
  finish_parser p = Val q -> reached cfg (d_command q) args st n ->
  reads st (Some t) it -> (ps_mode st = ARGUMENTS_ONLY \/ ~ looks_like_option (s_style cfg) t) ->
  c_commands (ps_command st) <> [] ->
  (forall d, In d (c_commands (ps_command st)) ->
     folded (s_case_insensitive cfg) (c_name d) <> folded (s_case_insensitive cfg) t) ->
  reports cfg st it (MsgUnknownCommand t).
Proof. exact (fun p q args st n t it H => unknown_command_proof p q H args st n t it). Qed.
Print Assumptions C35_unknown_command.

(** copy: after "-v" and one argument, "--nope=1" and then a surplus argument; with
    sub-commands, an unknown one. *)
Example C35_example :
  let d := ex_data false false ex_copy in
  let st := after d [$"-v"; $"a"; $"--nope=1"; $"b"] 2 in
  let st2 := after d [$"a"; $"b"; $"c"; $"d"] 3 in
  let d3 := ex_data false false ex_tool in
  finish_parser d = Val (completed d) /\ finish_parser d3 = Val (completed d3) /\
  (exists n, reached (d_settings (completed d)) (d_command (completed d))
     [$"-v"; $"a"; $"--nope=1"; $"b"] st n) /\
  ps_mode st = ARGUMENTS_AND_OPTIONS /\
  (exists it, it_next (ps_iter st) = Ok (Some ($"--nope="), it) /\ it_current it = Some ($"--nope=1")) /\
  looks_like_option STANDARD ($"--nope=") /\
  unknown_option (d_settings (completed d)) (ps_command st) ($"--nope=") /\
  (exists n, reached (d_settings (completed d)) (d_command (completed d))
     [$"a"; $"b"; $"c"; $"d"] st2 n) /\
  (exists it, reads st2 (Some ($"d")) it) /\ ac_counter (ps_counter st2) = 3%N /\
  maxima (c_arguments (ps_command st2)) = 3%N /\ no_sibling (d_settings (completed d)) st2 ($"d") /\
  (exists it, reads (after d3 [$"-C"; $"x"; $"push"] 1) (Some ($"push")) it).
Proof.
  cbv zeta. split; [vm_compute; reflexivity|]. split; [vm_compute; reflexivity|].
  split.
  { solve_reached. }
  split; [vm_compute; reflexivity|]. split; [eexists; vm_compute; split; reflexivity|].
  split; [do 2 eexists; reflexivity|]. split.
  { intros o. apply no_option_named.
    - intros f If. vm_compute in If. repeat (destruct If as [<-|If]; [discriminate|]). destruct If.
    - intros s E f If. change ($"--nope=") with ($"--nope" ++ ["="%char]) in E.
      apply app_inj_tail in E. destruct E as (<- & _). vm_compute in If. repeat (destruct If as [<-|If]; [discriminate|]). destruct If. }
  split.
  { solve_reached. }
  split; [eexists; vm_compute; reflexivity|]. split; [vm_compute; reflexivity|].
  split; [vm_compute; reflexivity|]. split; [intros l d I; vm_compute in I; destruct I|].
  eexists. vm_compute. reflexivity.
Qed.

(** C35, groups: if unknown options are ignored, an unknown flag that is not the
    first of its group is still an error. *)
Theorem C35_group_refuted : exists p q args st,
  finish_parser p = Val q /\ s_ignore_options (d_settings q) = true /\
  parsed (d_settings q) (d_command q) args st /\ l_result (toplevel st) = RC_FAILURE /\
  exists c, In (EvError c (MsgUnknownOption ($"-vz"))) (ps_events st).
Proof.
  exists (ex_data false true ex_copy), (completed (ex_data false true ex_copy)), [$"a"; $"-vz"].
  eexists. split; [vm_compute; reflexivity|]. split; [reflexivity|].
  split; [exists 100; vm_compute; reflexivity|]. split; [reflexivity|]. eexists. left. reflexivity.
Qed.
Print Assumptions C35_group_refuted.

(** C35, groups: an ignored argument is left unprocessed, but known flags in it are
    still acted on. *)
Theorem C35_ignored_group_refuted : exists p q args st,
  finish_parser p = Val q /\ s_ignore_options (d_settings q) = true /\
  parsed (d_settings q) (d_command q) args st /\ l_result (toplevel st) = RC_SUCCESS /\
  l_unprocessed (toplevel st) = [$"-zv"] /\
  (exists o, In o (c_options (d_command q)) /\ In ($"-v") (o_flags o) /\
     map fst (get_values (l_values (toplevel st)) (o_value_id o)) = [$"1"]).
Proof.
  exists (ex_data false true ex_copy), (completed (ex_data false true ex_copy)), [$"a"; $"-ox"; $"-zv"].
  eexists. split; [vm_compute; reflexivity|]. split; [reflexivity|].
  split; [exists 100; vm_compute; reflexivity|]. split; [reflexivity|]. split; [reflexivity|].
  eexists. split; [left; reflexivity|]. split; [left; reflexivity|]. vm_compute. reflexivity.
Qed.
Print Assumptions C35_ignored_group_refuted.

(* ------------------------------------------------------------------------ *)
(** ** C36 *)

(** A STOP, EXIT or HELP option ends the parsing: nothing more is read, the result
    of the current command is STOP because of that option, no error is reported,
    and everything that has not been read is left unprocessed, in order. If next()
    gives an error instead, the option's own value was missing
    ([C42_option_error]); with auto_exit the call does not return for EXIT and HELP. *)
Theorem C36_stop : forall p q args st n t it o r st',
  let cfg := d_settings q in
  finish_parser p = Val q -> reached cfg (d_command q) args st n ->
  ps_mode st = ARGUMENTS_AND_OPTIONS -> it_next (ps_iter st) = Ok (Some t, it) ->
  looks_like_option (s_style cfg) t -> dependable cfg (ps_command st) t ->
  selects (s_case_insensitive cfg) (s_abbreviations cfg) (c_options (ps_command st)) t o ->
  o_type o = OT_STOP \/ o_type o = OT_EXIT \/ o_type o = OT_HELP ->
  next cfg st = Ret r st' -> ir_code r <> IC_ERROR ->
  r = mk_ir IC_OPTION (ItOption o) (ir_value r) /\
  (s_auto_exit cfg = true -> o_type o = OT_STOP) /\
  l_result (ps_cur st') = RC_STOP /\ l_stop (ps_cur st') = Some o /\
  ps_command st' = ps_command st /\ ps_parents st' = ps_parents st /\
  l_subs (ps_cur st') = l_subs (ps_cur st) /\ ~ reported_error st' /\
  next cfg st' = Ret (mk_ir IC_DONE ItNone []) st' /\
  exists it' l, reads_value o it (ir_value r) it' /\
    l_unprocessed (ps_cur st') = l_unprocessed (ps_cur st) ++ l /\
    (no_insertions cfg (d_command q) -> exists it2, it_remaining it' = Ok (l, it2)).
Proof. exact (fun p q args st n t it o r st' H => stop_proof p q H args st n t it o r st'). Qed.
Print Assumptions C36_stop.

(** copy: "-vs" in the middle of the command line; -o is mandatory and missing. *)
Example C36_example :
  let d := ex_data false false ex_copy in
  let st := after d [$"a"; $"-vsx"; $"--nope"; $"b"] 2 in
  finish_parser d = Val (completed d) /\
  (exists n, reached (d_settings (completed d)) (d_command (completed d))
     [$"a"; $"-vsx"; $"--nope"; $"b"] st n) /\
  ps_mode st = ARGUMENTS_AND_OPTIONS /\
  (exists o it r st', it_next (ps_iter st) = Ok (Some ($"-s"), it) /\
     selects false false (c_options (ps_command st)) ($"-s") o /\ o_type o = OT_STOP /\
     next (d_settings (completed d)) st = Ret r st' /\ ir_code r <> IC_ERROR /\
     l_unprocessed (ps_cur st') = [$"-x"; $"--nope"; $"b"]).
Proof.
  cbv zeta. split; [vm_compute; reflexivity|]. split.
  { solve_reached. }
  split; [vm_compute; reflexivity|].
  eexists. eexists. eexists. eexists. split; [vm_compute; reflexivity|].
  split; [left; left; exists ($"-s"); split; [split; [vm_compute; right; right; left; reflexivity|vm_compute; left; reflexivity]|reflexivity]|].
  split; [reflexivity|]. split; [vm_compute; reflexivity|]. split; [discriminate|reflexivity].
Qed.

(* ------------------------------------------------------------------------ *)
(** ** C42 *)

(** When an option is processed without error, first its own callback and then the
    parser's option callback is called, once each, with the value read; [vs1] are
    the values the own callback sees: those before plus the change the option makes.
    HELP text comes last. *)
Theorem C42_option : forall p q args st n t it o r st',
  let cfg := d_settings q in
  finish_parser p = Val q -> reached cfg (d_command q) args st n ->
  ps_mode st = ARGUMENTS_AND_OPTIONS -> it_next (ps_iter st) = Ok (Some t, it) ->
  looks_like_option (s_style cfg) t -> dependable cfg (ps_command st) t ->
  selects (s_case_insensitive cfg) (s_abbreviations cfg) (c_options (ps_command st)) t o ->
  next cfg st = Ret r st' -> ir_code r <> IC_ERROR ->
  r = mk_ir IC_OPTION (ItOption o) (ir_value r) /\
  exists it' vs1 vs2, let v := ir_value r in
    reads_value o it v it' /\
    changed (option_change o v) (l_values (ps_cur st)) vs1 /\
    (changes_nothing (o_callback o) (ps_calls st) -> vs2 = vs1) /\
    ps_events st' = ps_events st ++
      called (o_callback o) (EvOptionCallback false (o_argument_id o) v) (ps_calls st) v vs1 ++
      called (option_cb cfg o) (EvOptionCallback true (o_argument_id o) v)
        (ps_calls st + calls_of (o_callback o)) v vs2 ++
      match o_type o with OT_HELP => [EvHelp (ps_command st)] | _ => [] end /\
    ps_calls st' = ps_calls st + calls_of (o_callback o) + calls_of (option_cb cfg o) /\
    (no_interference cfg (d_command q) -> o_type o <> OT_LAST_ARGUMENT ->
     l_values (ps_cur st') = vs1).
Proof. exact (fun p q args st n t it o r st' H => option_callbacks_proof p q H args st n t it o r st'). Qed.
Print Assumptions C42_option.

(** An option only fails if it needs a value and there is none; then no callback is
    called. *)
Theorem C42_option_error : forall p q args st n t it o r st',
  let cfg := d_settings q in
  finish_parser p = Val q -> reached cfg (d_command q) args st n ->
  ps_mode st = ARGUMENTS_AND_OPTIONS -> it_next (ps_iter st) = Ok (Some t, it) ->
  looks_like_option (s_style cfg) t -> dependable cfg (ps_command st) t ->
  selects (s_case_insensitive cfg) (s_abbreviations cfg) (c_options (ps_command st)) t o ->
  o_type o <> OT_LAST_ARGUMENT -> next cfg st = Ret r st' -> ir_code r = IC_ERROR ->
  takes_value o /\ (exists it', it_next_value it = Ok (None, it')) /\
  r = mk_ir IC_ERROR (ItOption o) [] /\ ps_calls st' = ps_calls st /\
  ps_events st' = ps_events st ++ [EvError (ps_command st) (MsgNoValue t)].
Proof. exact (fun p q args st n t it o r st' H => option_error_proof p q H args st n t it o r st'). Qed.
Print Assumptions C42_option_error.

(** The same for positional arguments. *)
Theorem C42_argument : forall p q args st n r st',
  let cfg := d_settings q in
  finish_parser p = Val q -> reached cfg (d_command q) args st n ->
  next cfg st = Ret r st' -> ir_code r = IC_ARGUMENT ->
  exists a it vs1 vs2, let v := ir_value r in
    ir_item r = ItArgument a /\ In a (c_arguments (ps_command st)) /\
    reads st (Some v) it /\
    changed (argument_change a v) (l_values (ps_cur st)) vs1 /\
    (changes_nothing (a_callback a) (ps_calls st) -> vs2 = vs1) /\
    ps_events st' = ps_events st ++
      called (a_callback a) (EvArgumentCallback false (a_argument_id a) v) (ps_calls st) v vs1 ++
      called (argument_cb cfg a) (EvArgumentCallback true (a_argument_id a) v)
        (ps_calls st + calls_of (a_callback a)) v vs2 /\
    ps_calls st' = ps_calls st + calls_of (a_callback a) + calls_of (argument_cb cfg a) /\
    (no_interference cfg (d_command q) -> l_values (ps_cur st') = vs1).
Proof. exact (fun p q args st n r st' H => argument_callbacks_proof p q H args st n r st'). Qed.
Print Assumptions C42_argument.

(** For everything else no callback is called, except that a LAST_ARGUMENT option
    has been processed before the final checks report an error. *)
Theorem C42_others : forall p q args st n r st',
  let cfg := d_settings q in
  finish_parser p = Val q -> reached cfg (d_command q) args st n ->
  next cfg st = Ret r st' -> ir_code r <> IC_OPTION -> ir_code r <> IC_ARGUMENT ->
  (exists t it o, ir_code r = IC_ERROR /\ ps_mode st = ARGUMENTS_AND_OPTIONS /\
     it_next (ps_iter st) = Ok (Some t, it) /\ looks_like_option (s_style cfg) t /\
     find_option (ps_command st) t (s_abbreviations cfg) (s_case_insensitive cfg) = Some o /\
     o_type o = OT_LAST_ARGUMENT) \/
  (ps_calls st' = ps_calls st /\
   if match ir_code r with IC_ERROR => true | _ => false end
   then exists m, ps_events st' = ps_events st ++ [EvError (ps_command st) m]
   else ps_events st' = ps_events st).
Proof. exact (fun p q args st n r st' H => other_callbacks_proof p q H args st n r st'). Qed.
Print Assumptions C42_others.

(** Over any number of calls: the callbacks called are those of the items returned,
    in the order in which they are returned. *)
Theorem C42_order : forall p q args st n rs st',
  let cfg := d_settings q in
  finish_parser p = Val q -> reached cfg (d_command q) args st n ->
  steps cfg st rs st' -> (forall r, In r rs -> ir_code r <> IC_ERROR) ->
  invocations (ps_events st') = invocations (ps_events st) ++ flat_map (expected_calls cfg) rs.
Proof.
  exact (fun p q args st n rs st' H R S Ne => steps_callbacks_proof p q H args st rs st' S n R Ne).
Qed.
Print Assumptions C42_order.

(** Options and arguments with their own callbacks, and callbacks of the parser, which
    write the name of what they are called for. *)
Definition ex_calling : parser_data :=
  mk_data (ex_command ($"call") [ex_argument ($"A") 0 3 (Some (cb_print ($"arg")))]
     [ex_option [$"-o"] ($"V") [] OP_ASSIGN OT_NORMAL true (Some (cb_print ($"opt")));
      ex_option [$"-h"] [] ($"1") OP_ASSIGN OT_HELP true (Some (cb_print ($"help")))] [] false)
    (mk_settings (Some (fun a => cb_print (a_name a))) (Some (fun o => cb_print (o_argument o)))
       STANDARD false false false false false true 0 64) [] 0 [].

Example C42_example :
  finish_parser ex_calling = Val (completed ex_calling) /\
  (exists n, reached (d_settings (completed ex_calling)) (d_command (completed ex_calling))
     [$"x"; $"-oy"; $"-h"; $"z"] (after ex_calling [$"x"; $"-oy"; $"-h"; $"z"] 1) n) /\
  (exists r st', next (d_settings (completed ex_calling)) (after ex_calling [$"x"; $"-oy"; $"-h"; $"z"] 1) =
     Ret r st' /\ ir_code r = IC_OPTION /\ ir_value r = $"y") /\
  (exists r st', next (d_settings (completed ex_calling)) (after ex_calling [$"x"; $"-o"] 1) =
     Ret r st' /\ ir_code r = IC_ERROR) /\
  map (fun e => match e with EvText s => s | EvHelp _ => $"HELP" | _ => [] end)
    (ps_events (final ex_calling [$"x"; $"-oy"; $"-h"; $"z"])) =
  [[]; $"arg:x"; []; $"A:x"; []; $"opt:y"; []; $"V:y"; []; $"help:"; []; $":"; $"HELP"].
Proof.
  split; [vm_compute; reflexivity|]. split.
  { solve_reached. }
  split; [eexists; eexists; split; [vm_compute; reflexivity|split; reflexivity]|].
  split; [eexists; eexists; split; [vm_compute; reflexivity|reflexivity]|].
  vm_compute. reflexivity.
Qed.
