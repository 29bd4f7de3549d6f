(** C95: the exit codes have no influence on anything but the exit code. *)
From Verif Require Import Base MStrings MOptIter MData MCounter MValues MParser
  SParser SExit SCodes SExamples CodesProofs.
Open Scope nat_scope.

(** The same definitions are accepted, and completed in the same way; the same exceptions
    are thrown for the others. *)
Theorem C95_definitions : forall normal err p, finish_parser (with_codes_parser normal err p) =
  match finish_parser p with Val q => Val (with_codes_parser normal err q) | Exn e => Exn e end.
Proof. exact codes_finish. Qed.
Print Assumptions C95_definitions.

(** parse() is the same in every respect, except for the code if the program ends: after an
    error message it is the one for errors, after an option that ends the program it is
    the normal one. *)
Theorem C95_parse : forall normal err cfg fuel top args,
  same_but_code cfg normal err (run_parser cfg fuel top args)
    (run_parser (with_codes normal err cfg) fuel top args).
Proof. exact codes_run. Qed.
Print Assumptions C95_parse.

(** The same is true of the iterator: the same states are reached, and next() does the same. *)
Theorem C95_iterator : forall normal err cfg top args st n,
  reached cfg top args st n ->
  reached (with_codes normal err cfg) top args st n /\
  same_but_code cfg normal err (next cfg st) (next (with_codes normal err cfg) st).
Proof. exact (fun normal err cfg top args st n H => conj (codes_reached normal err cfg top args st n H) (sim_next normal err cfg st)). Qed.
Print Assumptions C95_iterator.

(** An option with a callback that calls error() unless its value is "1", and one that ends
    the program. *)
Definition ex_codes : parser_data := ex_data true false (ex_command ($"tool") [ex_argument ($"FILE") 0 1 None]
  [ex_option [$"-n"] ($"N") [] OP_ASSIGN OT_NORMAL true
     (Some (fun _ v _ => mk_eff [v] (if str_eqb v ($"1") then [] else [VError ($"bad")]) false []));
   ex_option [$"-e"] [] [] OP_NONE OT_EXIT true None] [] false).

Example ex_codes_finish : finish_parser ex_codes = Val (completed ex_codes).
Proof. vm_compute. reflexivity. Qed.

(** The exit code, if the program ends. *)
Definition ex_codes_code (cfg : settings) (args : list str) : option Z :=
  match run_parser cfg 100 (d_command (completed ex_codes)) args with Exits c _ => Some c | _ => None end.

(** A line that is accepted, a call of error(), an unknown option, the option -e, and the
    help option. *)
Example ex_codes_runs : forall normal err,
  map (ex_codes_code (with_codes normal err (d_settings (completed ex_codes))))
    [ [$"-n1"; $"f"]; [$"-n2"]; [$"-x"]; [$"-e"]; [$"--help"] ] =
  [ None; Some err; Some err; Some normal; Some normal ] /\
  map (ex_codes_code (d_settings (completed ex_codes)))
    [ [$"-n1"; $"f"]; [$"-n2"]; [$"-x"]; [$"-e"]; [$"--help"] ] =
  [ None; Some 64; Some 64; Some 0; Some 0 ]%Z.
Proof. intros normal err. vm_compute. split; reflexivity. Qed.

(** The iterator after "-n1", at the option -e. *)
Example ex_codes_iterator : exists st n s,
  reached (d_settings (completed ex_codes)) (d_command (completed ex_codes)) [$"-n1"; $"-e"] st n /\
  next (d_settings (completed ex_codes)) st = Exits 0 s.
Proof.
  do 3 eexists. split.
  - eapply reached_next; [apply reached_start; vm_compute; reflexivity|vm_compute; reflexivity].
  - vm_compute. reflexivity.
Qed.
