(** Specification of how a definition that has been finished relates to what the user
    declared (C69), and of what adding an item does (C15). *)
From Verif Require Import Base MData SIndex SDef.

(** ** Adding items *)

(** [s], or the section that is current if [s] is empty. *)
Definition in_section (s current : str) : str := match s with [] => current | _ => s end.

(** Two arguments, options or commands that differ at most in their section. *)
Definition arg_in (sec : str) (a a' : arg_data) : Prop :=
  a' = mk_arg (a_name a) (a_help a) sec (a_alias a) (a_callback a) (a_min a) (a_max a)
         (a_visibility a) (a_value_id a) (a_argument_id a).
Definition opt_in (sec : str) (o o' : opt_data) : Prop :=
  o' = mk_opt (o_flags o) (o_help o) sec (o_alias o) (o_argument o) (o_constant o) (o_initial_value o)
         (o_callback o) (o_operation o) (o_type o) (o_visibility o) (o_optional o) (o_argument_id o) (o_value_id o).
Definition cmd_in (sec : str) (d d' : cmd_data) : Prop :=
  d' = mk_cmd (c_arguments d) (c_options d) (c_commands d) (c_current_section d) (c_name d) (c_full_name d)
         (c_texts d) (c_visibility d) (c_require d) (c_multi d) sec (c_argument_id d) (c_index d).

(** [c'] is [c] with other items. *)
Definition with_items (c c' : cmd_data) (args : list arg_data) (opts : list opt_data) (cmds : list cmd_data) : Prop :=
  c' = mk_cmd args opts cmds (c_current_section c) (c_name c) (c_full_name c) (c_texts c) (c_visibility c)
         (c_require c) (c_multi c) (c_section c) (c_argument_id c) (c_index c).

(** ** Finishing *)

(** The declared argument or option, but for the numbers it has been given and the
    constant. *)
Definition kept_arg (a a' : arg_data) : Prop :=
  a_name a' = a_name a /\ a_help a' = a_help a /\ a_section a' = a_section a /\ a_alias a' = a_alias a /\
  a_callback a' = a_callback a /\ a_min a' = a_min a /\ a_max a' = a_max a /\ a_visibility a' = a_visibility a.

(** The constant of a finished option. *)
Definition full_constant (o : opt_data) : str :=
  match o_operation o, o_argument o, o_constant o with
  | OP_ASSIGN, [], [] => $"1"
  | OP_CLEAR, [], [] => []
  | OP_CLEAR, _, _ => $"1"
  | _, _, s => s
  end.
Definition kept_opt (o o' : opt_data) : Prop :=
  o_flags o' = o_flags o /\ o_help o' = o_help o /\ o_section o' = o_section o /\ o_alias o' = o_alias o /\
  o_argument o' = o_argument o /\ o_constant o' = full_constant o /\ o_initial_value o' = o_initial_value o /\
  o_callback o' = o_callback o /\ o_operation o' = o_operation o /\ o_type o' = o_type o /\
  o_visibility o' = o_visibility o /\ o_optional o' = o_optional o.

(** The generated help option. *)
Definition help_wanted (st : settings) (opts : list opt_data) : Prop :=
  s_generate_help st = true /\ (forall o, In o opts -> o_type o <> OT_HELP) /\
  exists f, In f (default_help_flags (s_style st)) /\ free_flag (s_case_insensitive st) opts f.
(** Those of the flags that are not in use. *)
Inductive unused (ci : bool) (opts : list opt_data) : list str -> list str -> Prop :=
| unused_nil : unused ci opts [] []
| unused_take : forall f l l', free_flag ci opts f -> unused ci opts l l' -> unused ci opts (f :: l) (f :: l')
| unused_skip : forall f l l', ~ free_flag ci opts f -> unused ci opts l l' -> unused ci opts (f :: l) l'.
Definition help_option (st : settings) (sec : str) (opts : list opt_data) (o : opt_data) : Prop :=
  o_type o = OT_HELP /\ o_flags o <> [] /\ o_section o = sec /\ o_help o = $"Display this help text." /\
  o_argument o = [] /\ o_alias o = [] /\ o_initial_value o = [] /\ o_callback o = None /\
  o_operation o = OP_ASSIGN /\ o_optional o = true /\ o_visibility o = vis_normal /\ o_constant o = $"1" /\
  exists fs, unused (s_case_insensitive st) opts (default_help_flags (s_style st)) fs /\
    o_flags o = match s_style st, fs with DASH, f :: _ => [f] | _, _ => fs end.

(** The finished command [c'] of the declared command [c]; [full] is its full name. *)
Inductive kept (st : settings) : str -> cmd_data -> cmd_data -> Prop :=
| kept_command : forall full c c' opts' helps,
    Forall2 kept_arg (c_arguments c) (c_arguments c') ->
    c_options c' = opts' ++ helps -> Forall2 kept_opt (c_options c) opts' ->
    (help_wanted st (c_options c) /\ (exists o, helps = [o] /\ help_option st (c_current_section c) (c_options c) o) \/
     ~ help_wanted st (c_options c) /\ helps = []) ->
    Forall2 (fun d d' => kept st (c_name c ++ " "%char :: c_name d) d d') (c_commands c) (c_commands c') ->
    c_name c' = c_name c -> c_full_name c' = full -> c_texts c' = c_texts c ->
    c_visibility c' = c_visibility c -> c_multi c' = c_multi c -> c_section c' = c_section c ->
    c_require c' = Some (match c_require c with Some b => b | None => match c_commands c with [] => false | _ => true end end) ->
    (c_require c = Some true -> c_commands c <> []) ->
    kept st full c c'.

(** The generated version option. *)
Definition version_name (style : option_style) : str :=
  match style with STANDARD => $"--version" | SLASH => $"/VERSION" | DASH => $"-version" end.
Definition version_wanted (p : parser_data) : Prop :=
  d_version p <> [] /\
  free_flag (s_case_insensitive (d_settings p)) (c_options (d_command p)) (version_name (s_style (d_settings p))).
Definition version_option (p : parser_data) (o : opt_data) : Prop :=
  o_type o = OT_STOP /\ o_flags o = [version_name (s_style (d_settings p))] /\
  o_section o = c_current_section (d_command p) /\ o_help o = $"Display the program version." /\
  o_constant o = $"1" /\ o_argument o = [] /\ o_operation o = OP_ASSIGN /\
  o_optional o = true /\ o_visibility o = vis_normal /\ o_alias o = [] /\ o_initial_value o = [] /\
  exists f, o_callback o = Some f /\
    forall x y z, f x y z = mk_eff [c_name (d_command p) ++ " "%char :: d_version p ++ [c_lf]] [] false [].
