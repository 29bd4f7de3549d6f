(** C90: auto_exit decides whether the program ends, and nothing else. *)
From Verif Require Import Base MStrings MOptIter MData MCounter MValues MParser
  SParser SExit SExamples ExitProofs.
Open Scope nat_scope.

(** The same definitions are accepted, and completed in the same way. *)
Theorem C90_definitions : forall b p q,
  finish_parser p = Val q -> finish_parser (with_exit_parser b p) = Val (with_exit_parser b q).
Proof. exact exit_finish. Qed.
Print Assumptions C90_definitions.

(** If the program is not ended, it makes no difference whether auto_exit is on. *)
Theorem C90_same : forall p q, finish_parser p = Val q -> forall fuel args,
  (forall c s, run_parser (with_exit true (d_settings q)) fuel (d_command q) args <> Exits c s) ->
  run_parser (with_exit true (d_settings q)) fuel (d_command q) args =
  run_parser (with_exit false (d_settings q)) fuel (d_command q) args.
Proof. exact (fun p q H => exit_same q). Qed.
Print Assumptions C90_same.

(** If it is ended, then without auto_exit parse() does the same and either returns a
    result that has failed, or throws for error() in a callback, both where the exit code
    is that for errors; or it returns a stopped result, where it is the normal one. *)
Theorem C90_exits : forall p q, finish_parser p = Val q -> forall fuel args c s1,
  run_parser (with_exit true (d_settings q)) fuel (d_command q) args = Exits c s1 ->
  (c = s_error_exit (d_settings q) /\
   exists s0, run_parser (with_exit false (d_settings q)) (S fuel) (d_command q) args = Ret tt s0 /\
     refused_there s1 s0) \/
  (c = s_error_exit (d_settings q) /\
   run_parser (with_exit false (d_settings q)) (S fuel) (d_command q) args = Throws EParseError s1) \/
  (c = s_normal_exit (d_settings q) /\
   exists s0, run_parser (with_exit false (d_settings q)) (S fuel) (d_command q) args = Ret tt s0 /\
     stopped_there s1 s0).
Proof. exact exit_exits. Qed.
Print Assumptions C90_exits.

(** Whatever parse() returns without auto_exit, with it parse() returns the same, or ends
    the program after the same work. *)
Theorem C90_returned : forall p q, finish_parser p = Val q -> forall fuel args s0,
  run_parser (with_exit false (d_settings q)) fuel (d_command q) args = Ret tt s0 ->
  run_parser (with_exit true (d_settings q)) fuel (d_command q) args = Ret tt s0 \/
  (exists s1, run_parser (with_exit true (d_settings q)) fuel (d_command q) args =
      Exits (s_error_exit (d_settings q)) s1 /\ refused_there s1 s0) \/
  (exists s1, run_parser (with_exit true (d_settings q)) fuel (d_command q) args =
      Exits (s_normal_exit (d_settings q)) s1 /\ stopped_there s1 s0).
Proof. exact exit_returned. Qed.
Print Assumptions C90_returned.

(** Whatever it throws, it throws with auto_exit too, but for error() in a callback, which
    ends the program. *)
Theorem C90_thrown : forall p q, finish_parser p = Val q -> forall fuel args e s0,
  run_parser (with_exit false (d_settings q)) fuel (d_command q) args = Throws e s0 ->
  run_parser (with_exit true (d_settings q)) fuel (d_command q) args = Throws e s0 \/
  (e = EParseError /\
   run_parser (with_exit true (d_settings q)) fuel (d_command q) args =
     Exits (s_error_exit (d_settings q)) s0).
Proof. exact exit_thrown. Qed.
Print Assumptions C90_thrown.

(** The same is true of every single step of an iterator: as long as the program is not
    ended, next() gives the same. *)
Theorem C90_iterator : forall p q, finish_parser p = Val q -> forall args st n,
  reached (with_exit true (d_settings q)) (d_command q) args st n ->
  reached (with_exit false (d_settings q)) (d_command q) args st n /\
  ((forall c s, next (with_exit true (d_settings q)) st <> Exits c s) ->
   next (with_exit true (d_settings q)) st = next (with_exit false (d_settings q)) st).
Proof. exact (fun p q H args st n R => conj (exit_reached q args st n R) (exit_next_same q st)). Qed.
Print Assumptions C90_iterator.

(** If it is ended then next() does the same without auto_exit, and reports an error,
    throws, or gives the option. *)
Theorem C90_iterator_exits : forall p q, finish_parser p = Val q -> forall args st n c s1,
  reached (with_exit true (d_settings q)) (d_command q) args st n ->
  next (with_exit true (d_settings q)) st = Exits c s1 ->
  (c = s_error_exit (d_settings q) /\
   exists r s0, next (with_exit false (d_settings q)) st = Ret r s0 /\ ir_code r = IC_ERROR /\ refused_there s1 s0) \/
  (c = s_error_exit (d_settings q) /\ next (with_exit false (d_settings q)) st = Throws EParseError s1) \/
  (c = s_normal_exit (d_settings q) /\
   exists r s0, next (with_exit false (d_settings q)) st = Ret r s0 /\ ir_code r = IC_OPTION /\ stopped_there s1 s0).
Proof. exact exit_next_exits. Qed.
Print Assumptions C90_iterator_exits.

(** An option that calls error() unless its value is "1", and one that throws. *)
Definition ex_exit : parser_data := ex_data true false (ex_command ($"tool") [ex_argument ($"FILE") 0 2 None]
  [ex_option [$"-n"] ($"N") [] OP_ASSIGN OT_NORMAL true
     (Some (fun _ v _ => mk_eff [v] (if str_eqb v ($"1") then [] else [VError ($"bad")]) false []));
   ex_option [$"-t"] [] [] OP_NONE OT_NORMAL true (Some (fun _ _ _ => mk_eff [] [] true []));
   ex_option [$"-e"] [] [] OP_NONE OT_EXIT true None] [] false).

Definition ex_exit_run (b : bool) (args : list str) : outcome unit :=
  run_parser (with_exit b (d_settings (completed ex_exit))) 100 (d_command (completed ex_exit)) args.

(** How parse() ended, the number of things printed or called, the number of values, and the
    unprocessed arguments. *)
Inductive ex_end := ByReturn (rc : result_code) | ByExit (code : Z) | ByException (e : exn) | Unending.
Definition ex_exit_view (o : outcome unit) : ex_end * (nat * nat * list str) :=
  let view s := (length (ps_events s), length (l_values (ps_cur s)), l_unprocessed (ps_cur s)) in
  match o with
  | Ret _ s => (ByReturn (l_result (ps_cur s)), view s)
  | Exits c s => (ByExit c, view s)
  | Throws e s => (ByException e, view s)
  | _ => (Unending, (0, 0, []))
  end.

Example ex_exit_finish : finish_parser ex_exit = Val (completed ex_exit).
Proof. vm_compute. reflexivity. Qed.

(** A line that is accepted, one with an unknown option, a call of error(), another
    exception, and an option that ends the program. *)
Example ex_exit_runs : forall b,
  map (fun args => ex_exit_view (ex_exit_run b args))
    [ [$"a"; $"-n1"; $"b"]; [$"a"; $"-x"; $"b"]; [$"a"; $"-n2"; $"b"]; [$"a"; $"-t"; $"b"]; [$"a"; $"-e"; $"b"] ] =
  if b then
    [ (ByReturn RC_SUCCESS, (2, 3, [])); (ByExit 64, (1, 1, [])); (ByExit 64, (3, 2, []));
      (ByException ECallback, (1, 1, [])); (ByExit 0, (0, 1, [])) ]
  else
    [ (ByReturn RC_SUCCESS, (2, 3, [])); (ByReturn RC_FAILURE, (1, 1, [$"b"]));
      (ByException EParseError, (3, 2, [])); (ByException ECallback, (1, 1, []));
      (ByReturn RC_STOP, (0, 1, [$"b"])) ].
Proof. intros [|]; vm_compute; reflexivity. Qed.

(** The iterator after "a", at an option that ends the program. *)
Example ex_exit_iterator : exists st n s1,
  reached (with_exit true (d_settings (completed ex_exit))) (d_command (completed ex_exit)) [$"a"; $"-e"; $"b"] st n /\
  next (with_exit true (d_settings (completed ex_exit))) st = Exits 0 s1.
Proof.
  do 3 eexists. split.
  - eapply reached_next; [apply reached_start; vm_compute; reflexivity|vm_compute; reflexivity].
  - vm_compute. reflexivity.
Qed.
