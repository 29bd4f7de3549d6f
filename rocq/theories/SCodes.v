(** Specification of what the exit codes change (C95): the exit code. *)
From Verif Require Import Base MOptIter MData MCounter MValues MParser SExit.

(** The same settings with other exit codes. *)
Definition with_codes (normal err : Z) (s : settings) : settings :=
  mk_settings (s_argument_callback s) (s_option_callback s) (s_style s) (s_auto_exit s)
    (s_abbreviations s) (s_ignore_options s) (s_ignore_arguments s) (s_case_insensitive s)
    (s_generate_help s) normal err.
Definition with_codes_parser (normal err : Z) (d : parser_data) : parser_data :=
  mk_data (d_command d) (with_codes normal err (d_settings d)) (d_version d) (d_line_width d)
    (d_word_rules d).

(** An error message is the last thing that was done. *)
Definition error_last (s : pstate) : Prop := exists before c m, ps_events s = before ++ [EvError c m].

(** An option that ends the program has been met. *)
Definition met_exit (s : pstate) : Prop :=
  exists o, l_stop (ps_cur s) = Some o /\ (o_type o = OT_HELP \/ o_type o = OT_EXIT).

(** The same in every respect, but if the program ends, it does so with the code for errors
    after an error message, and with the normal one after an option that ends it. *)
Inductive same_but_code (s : settings) (normal err : Z) {A} : outcome A -> outcome A -> Prop :=
| sc_same : forall x, (forall c st, x <> Exits c st) -> same_but_code s normal err x x
| sc_error : forall st, error_last st ->
    same_but_code s normal err (Exits (s_error_exit s) st) (Exits err st)
| sc_normal : forall st, met_exit st ->
    same_but_code s normal err (Exits (s_normal_exit s) st) (Exits normal st).
