(** Definitions without what is only meant for parsing (C93). *)
From Verif Require Import Base MStrings MOptIter MData MCounter MValues MParser MText MHelp MApi.

(** Of the type of an option only remains whether it shows the help text or otherwise ends
    the parsing. *)
Definition shown_type (t : option_type) : option_type :=
  match t with OT_HELP => OT_HELP | OT_STOP | OT_EXIT => OT_STOP | _ => OT_NORMAL end.
Definition shown_argument (a : arg_data) : arg_data :=
  mk_arg (a_name a) (a_help a) (a_section a) [] None (a_min a) (a_max a) (a_visibility a) 0 0.
Definition shown_option (o : opt_data) : opt_data :=
  mk_opt (o_flags o) (o_help o) (o_section o) [] (o_argument o) [] [] None OP_NONE
    (shown_type (o_type o)) (o_visibility o) (o_optional o) 0 0.
Fixpoint shown_command (c : cmd_data) : cmd_data :=
  mk_cmd (map shown_argument (c_arguments c)) (map shown_option (c_options c))
    (map shown_command (c_commands c)) (c_current_section c) (c_name c) (c_full_name c)
    (c_texts c) (c_visibility c) (c_require c) false (c_section c) 0 [].

(** Of the settings, those that decide which options are generated and how commands are
    found; of the version, whether there is one. *)
Definition shown_settings (s : settings) : settings :=
  mk_settings None None (s_style s) false false false false (s_case_insensitive s)
    (s_generate_help s) 0 0.
Definition shown_data (d : parser_data) : parser_data :=
  mk_data (shown_command (d_command d)) (shown_settings (d_settings d))
    (match d_version d with [] => [] | _ => $"1" end) (d_line_width d) (d_word_rules d).

(** Two parsers, and two commands, that look alike. *)
Definition look_alike (p q : parser_data) : Prop := shown_data p = shown_data q.
Definition same_looks (c d : cmd_data) : Prop := shown_command c = shown_command d.

(** The setters of items that are only meant for parsing. *)
Definition for_parsing_argument (c : arg_call) : bool :=
  match c with A_alias _ | A_callback _ => true | _ => false end.
Definition for_parsing_option (c : opt_call) : bool :=
  match c with
  | O_alias _ | O_operation _ | O_initial_value _ | O_constant _ | O_callback _ => true
  | _ => false
  end.

(** The calls of a parser that are. *)
Definition for_parsing (c : parser_call) : bool :=
  match c with
  | P_command (C_multi _) => true
  | P_setting (S_abbreviations _) | P_setting (S_auto_exit _) | P_setting (S_ignore_arguments _)
  | P_setting (S_ignore_options _) | P_setting (S_argument_callback _)
  | P_setting (S_option_callback _) | P_setting (S_exit_codes _ _) => true
  | _ => false
  end.
