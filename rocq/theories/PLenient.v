(** C94: ignore_undefined_options and ignore_undefined_arguments change nothing until
    something undefined is met. *)
From Verif Require Import Base MStrings MOptIter MData MCounter MValues MParser
  SParser SExit SLenient SExamples LenientProofs.
Open Scope nat_scope.

(** The same definitions are accepted, and completed in the same way; the same exceptions
    are thrown for the others. *)
Theorem C94_definitions : forall o a p, finish_parser (lenient_parser o a p) =
  match finish_parser p with Val q => Val (lenient_parser o a q) | Exn e => Exn e end.
Proof. exact lenient_finish. Qed.
Print Assumptions C94_definitions.

(** parse() is the same in every respect, or the parser without the settings reported an
    unknown option or a surplus argument and ended there; then the parser with the settings
    printed and called the same things before. *)
Theorem C94_parse : forall o a p q, finish_parser p = Val q -> forall fuel args,
  run_parser (lenient o a (d_settings q)) fuel (d_command q) args =
    run_parser (d_settings q) fuel (d_command q) args \/
  exists before st, objected o a before st /\
    run_parser (d_settings q) fuel (d_command q) args =
      (if s_auto_exit (d_settings q) then Exits (s_error_exit (d_settings q)) st else Ret tt st) /\
    (s_auto_exit (d_settings q) = false -> all_failed st) /\
    begins before (run_parser (lenient o a (d_settings q)) fuel (d_command q) args).
Proof. exact lenient_parse. Qed.
Print Assumptions C94_parse.

(** So it is the same whenever parse() did not end with one of these messages. *)
Theorem C94_same : forall o a p q, finish_parser p = Val q -> forall fuel args,
  (forall before st, objected o a before st ->
     run_parser (d_settings q) fuel (d_command q) args <> Ret tt st /\
     run_parser (d_settings q) fuel (d_command q) args <> Exits (s_error_exit (d_settings q)) st) ->
  run_parser (lenient o a (d_settings q)) fuel (d_command q) args =
  run_parser (d_settings q) fuel (d_command q) args.
Proof. exact lenient_same. Qed.
Print Assumptions C94_same.

(** Every state of the iterator without the settings is a state of the iterator with them,
    unless such an error has been reported; the iterator is of no further use then. *)
Theorem C94_reached : forall o a q args st n,
  reached (d_settings q) (d_command q) args st n ->
  reached (lenient o a (d_settings q)) (d_command q) args st n \/
  (next (d_settings q) st = Throws ENextAfterError st /\ all_failed st /\ exists before, objected o a before st).
Proof. exact lenient_reached. Qed.
Print Assumptions C94_reached.

(** And next() does the same in every respect, or it reports such an error without the
    settings, and with them gives the argument as an unknown one, printing nothing and
    calling nothing. *)
Theorem C94_next : forall o a p q, finish_parser p = Val q -> forall args st n,
  reached (d_settings q) (d_command q) args st n ->
  next (lenient o a (d_settings q)) st = next (d_settings q) st \/
  exists s, objected o a (ps_events st) s /\
    (if s_auto_exit (d_settings q) then next (d_settings q) st = Exits (s_error_exit (d_settings q)) s
     else all_failed s /\ exists r, next (d_settings q) st = Ret r s /\ ir_code r = IC_ERROR) /\
    exists r' s', next (lenient o a (d_settings q)) st = Ret r' s' /\ ir_code r' = IC_UNKNOWN /\
      ps_events s' = ps_events st.
Proof. exact lenient_step. Qed.
Print Assumptions C94_next.

(** An option with a callback, a mandatory one, and at most one argument. *)
Definition ex_lenient (auto : bool) : parser_data := ex_data auto false (ex_command ($"tool") [ex_argument ($"FILE") 0 1 None]
  [ex_option [$"-n"] ($"N") [] OP_ASSIGN OT_NORMAL true
     (Some (fun _ v _ => mk_eff [v] (if str_eqb v ($"1") then [] else [VError ($"bad")]) false []));
   ex_option [$"-m"] [] ($"1") OP_ASSIGN OT_NORMAL false None] [] false).

Definition ex_lenient_run (o a auto : bool) (args : list str) : outcome unit :=
  run_parser (lenient o a (d_settings (completed (ex_lenient auto)))) 100 (d_command (completed (ex_lenient auto))) args.

Example ex_lenient_finish : forall auto, finish_parser (ex_lenient auto) = Val (completed (ex_lenient auto)).
Proof. intros [|]; vm_compute; reflexivity. Qed.

(** How parse() ended, the number of things printed or called, and the unprocessed arguments. *)
Inductive ex_lenient_end := ReturnedLenient (rc : result_code) | ExitedLenient (code : Z) | OtherLenient.
Definition ex_lenient_view (out : outcome unit) : ex_lenient_end * (nat * list str) :=
  match out with
  | Ret _ s => (ReturnedLenient (l_result (ps_cur s)), (length (ps_events s), l_unprocessed (ps_cur s)))
  | Exits c s => (ExitedLenient c, (length (ps_events s), l_unprocessed (ps_cur s)))
  | Throws _ s => (OtherLenient, (length (ps_events s), l_unprocessed (ps_cur s)))
  | _ => (OtherLenient, (0, []))
  end.

(** Lines for which nothing changes: one that is accepted, one that a callback refuses, one
    without the mandatory option, and one without a value. *)
Example ex_lenient_alike : forall o a auto,
  Forall (fun args => ex_lenient_run o a auto args = ex_lenient_run false false auto args)
    [ [$"-m"; $"-n"; $"1"; $"f"]; [$"-n2"; $"-x"; $"f"; $"g"]; [$"f"]; [$"-m"; $"-n"] ].
Proof. intros o a auto. repeat apply Forall_cons; try apply Forall_nil; destruct o, a, auto; vm_compute; reflexivity. Qed.

(** An unknown option and a surplus argument. *)
Example ex_lenient_different :
  map (fun s => map (fun args => ex_lenient_view (ex_lenient_run (fst s) (snd s) false args))
      [ [$"-n1"; $"-x"; $"-m"]; [$"-n1"; $"f"; $"g"; $"-m"] ])
    [ (false, false); (true, false); (false, true); (true, true) ] =
  [ [ (ReturnedLenient RC_FAILURE, (3, [$"-m"])); (ReturnedLenient RC_FAILURE, (3, [$"-m"])) ];
    [ (ReturnedLenient RC_SUCCESS, (2, [$"-x"])); (ReturnedLenient RC_FAILURE, (3, [$"-m"])) ];
    [ (ReturnedLenient RC_FAILURE, (3, [$"-m"])); (ReturnedLenient RC_SUCCESS, (2, [$"g"])) ];
    [ (ReturnedLenient RC_SUCCESS, (2, [$"-x"])); (ReturnedLenient RC_SUCCESS, (2, [$"g"])) ] ] /\
  ex_lenient_view (ex_lenient_run false false true [$"-n1"; $"-x"; $"-m"]) = (ExitedLenient 64, (3, [])).
Proof. vm_compute. split; reflexivity. Qed.

(** The hypothesis of C94_same: the line is refused for another reason. *)
Example ex_lenient_same : forall before st, objected true true before st ->
  run_parser (d_settings (completed (ex_lenient false))) 100 (d_command (completed (ex_lenient false))) [$"f"] <> Ret tt st /\
  run_parser (d_settings (completed (ex_lenient false))) 100 (d_command (completed (ex_lenient false))) [$"f"] <> Exits 64 st.
Proof.
  intros before st (c & m & F & E). split; [|vm_compute; discriminate].
  intros X. assert (Y : exists c m, ps_events st = [] ++ [EvError c m] /\ ~ forgiven true true m).
  { vm_compute in X. injection X as <-. do 2 eexists. split; [reflexivity|intros []]. }
  destruct Y as (c' & m' & E' & N). rewrite E in E'. apply app_inj_tail in E'. destruct E' as (_ & E'). injection E' as _ ->. exact (N F).
Qed.

(** The iterator after "-n1", at an unknown option. *)
Example ex_lenient_iterator : exists st n r s,
  reached (d_settings (completed (ex_lenient false))) (d_command (completed (ex_lenient false))) [$"-n1"; $"-x"] st n /\
  next (d_settings (completed (ex_lenient false))) st = Ret r s /\ ir_code r = IC_ERROR.
Proof.
  do 4 eexists. split.
  - eapply reached_next; [apply reached_start; vm_compute; reflexivity|vm_compute; reflexivity].
  - split; vm_compute; reflexivity.
Qed.
