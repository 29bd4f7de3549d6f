(** Specification of what auto_exit changes (C90): the program may end, nothing else. *)
From Verif Require Import Base MOptIter MData MCounter MValues MParser.

(** The same settings after auto_exit(b). *)
Definition with_exit (b : bool) (s : settings) : settings :=
  mk_settings (s_argument_callback s) (s_option_callback s) (s_style s) b
    (s_abbreviations s) (s_ignore_options s) (s_ignore_arguments s) (s_case_insensitive s)
    (s_generate_help s) (s_normal_exit s) (s_error_exit s).
Definition with_exit_parser (b : bool) (d : parser_data) : parser_data :=
  mk_data (d_command d) (with_exit b (d_settings d)) (d_version d) (d_line_width d)
    (d_word_rules d).

(** All the results of a parser, innermost command first. *)
Definition all_levels (s : pstate) : list level := ps_cur s :: ps_parents s.

(** The same command with the same values and sub-commands; the second may list further
    unprocessed arguments. *)
Definition same_level (l1 l0 : level) : Prop :=
  l_command l0 = l_command l1 /\ l_values l0 = l_values l1 /\ l_subs l0 = l_subs l1 /\
  exists rest, l_unprocessed l0 = l_unprocessed l1 ++ rest.

(** The same things have been printed, the same callbacks have been called, and the same
    values have been stored. *)
Definition same_work (s1 s0 : pstate) : Prop :=
  ps_events s0 = ps_events s1 /\ ps_calls s0 = ps_calls s1 /\
  ps_command s0 = ps_command s1 /\ Forall2 same_level (all_levels s1) (all_levels s0).

(** The second parser has refused the command line where the first ended the program. *)
Definition refused_there (s1 s0 : pstate) : Prop :=
  same_work s1 s0 /\ Forall (fun l => l_result l = RC_FAILURE) (all_levels s0).

(** The second parser was stopped, by the option that ended the program in the first. *)
Definition stopped_there (s1 s0 : pstate) : Prop :=
  same_work s1 s0 /\ l_result (ps_cur s0) = RC_STOP /\
  exists o, l_stop (ps_cur s0) = Some o /\ l_stop (ps_cur s1) = Some o /\
    (o_type o = OT_HELP \/ o_type o = OT_EXIT).
