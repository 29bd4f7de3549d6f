(** Specification of the generated help and version options (C96): the same as options
    that are added by hand. *)
From Verif Require Import Base MStrings MOptIter MData MCounter MValues MParser.

(** Some option of the command has this flag. *)
Definition taken (ci : bool) (opts : list opt_data) (flag : str) : bool :=
  existsb (fun o => existsb (fun f => are_equal f flag ci) (o_flags o)) opts.

(** Those of the usual flags for help that are still free. *)
Definition usual_flags (style : option_style) : list str :=
  match style with
  | STANDARD => [$"-h"; $"--help"]
  | SLASH => [$"/?"]
  | DASH => [$"-h"; $"-help"]
  end.
Definition free_flags (s : settings) (opts : list opt_data) : list str :=
  let free := filter (fun f => negb (taken (s_case_insensitive s) opts f)) (usual_flags (s_style s)) in
  match s_style s with DASH => firstn 1 free | _ => free end.

(** Option(flags).type(OptionType::HELP).help("Display this help text.").section(section) *)
Definition hand_help (flags : list str) (section : str) : opt_data :=
  mk_opt flags ($"Display this help text.") section [] [] [] [] None OP_ASSIGN OT_HELP vis_normal true 0 0.

(** The same command, with such an option at the end of every command that has no help
    option of its own, if there is a free flag. *)
Definition needs_help (s : settings) (opts : list opt_data) : bool :=
  negb (existsb (fun o => match o_type o with OT_HELP => true | _ => false end) opts) &&
  match free_flags s opts with [] => false | _ => true end.
Fixpoint help_by_hand (s : settings) (c : cmd_data) : cmd_data :=
  match c with
  | mk_cmd args opts cmds cursec name full texts vis require multi sec aid index =>
      mk_cmd args
        (if needs_help s opts then opts ++ [hand_help (free_flags s opts) cursec] else opts)
        (map (help_by_hand s) cmds) cursec name full texts vis require multi sec aid index
  end.

(** The same settings after generate_help_option(b). *)
Definition with_generation (b : bool) (s : settings) : settings :=
  mk_settings (s_argument_callback s) (s_option_callback s) (s_style s) (s_auto_exit s)
    (s_abbreviations s) (s_ignore_options s) (s_ignore_arguments s) (s_case_insensitive s)
    b (s_normal_exit s) (s_error_exit s).
Definition help_by_hand_parser (d : parser_data) : parser_data :=
  mk_data (help_by_hand (d_settings d) (d_command d)) (with_generation false (d_settings d))
    (d_version d) (d_line_width d) (d_word_rules d).

(** Option(flag).type(OptionType::STOP).help("Display the program version.") with a callback
    that writes the name of the program and the version. *)
Definition hand_version (flag section name version : str) : opt_data :=
  mk_opt [flag] ($"Display the program version.") section [] [] [] []
    (Some (fun _ _ _ => mk_eff [name ++ $" " ++ version ++ [c_lf]] [] false []))
    OP_ASSIGN OT_STOP vis_normal true 0 0.
Definition usual_version_flag (style : option_style) : str :=
  match style with STANDARD => $"--version" | SLASH => $"/VERSION" | DASH => $"-version" end.

(** The same parser without version(), but with such an option, if its flag is free. *)
Definition version_by_hand_parser (d : parser_data) : parser_data :=
  let c := d_command d in
  let flag := usual_version_flag (s_style (d_settings d)) in
  mk_data
    (if is_empty (d_version d) || taken (s_case_insensitive (d_settings d)) (c_options c) flag then c
     else mk_cmd (c_arguments c)
            (c_options c ++ [hand_version flag (c_current_section c) (c_name c) (d_version d)])
            (c_commands c) (c_current_section c) (c_name c) (c_full_name c) (c_texts c)
            (c_visibility c) (c_require c) (c_multi c) (c_section c) (c_argument_id c) (c_index c))
    (d_settings d) [] (d_line_width d) (d_word_rules d).

(** Both. *)
Definition by_hand (d : parser_data) : parser_data := help_by_hand_parser (version_by_hand_parser d).
