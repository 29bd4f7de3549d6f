(** Specification of what case_insensitive(true) leaves unchanged (C91). *)
From Verif Require Import Base MOptIter MData MCounter MValues MParser
  SIndex SDef SValues SCounter SParser SStep SLook SEquiv SApi SLine SAdd.

(** The same settings after case_insensitive(true). *)
Definition any_case (s : settings) : settings :=
  mk_settings (s_argument_callback s) (s_option_callback s) (s_style s) (s_auto_exit s)
    (s_abbreviations s) (s_ignore_options s) (s_ignore_arguments s) true
    (s_generate_help s) (s_normal_exit s) (s_error_exit s).
Definition any_case_parser (d : parser_data) : parser_data :=
  mk_data (d_command d) (any_case (d_settings d)) (d_version d) (d_line_width d)
    (d_word_rules d).

(** The flags do not contain any of the characters that are not compared properly, no flag
    is another one followed by '=', and no two sub-commands have names that differ in
    case only. *)
Definition caseless (c : cmd_data) : Prop :=
  safe_flags true (c_options c) /\
  (forall f f', In f (all_flags (c_options c)) -> In f' (all_flags (c_options c)) ->
     ~ begins_with (folded true f') (folded true f ++ ["="%char])) /\
  names_apart false true c.

(** The flags of the options that the parser may add. *)
Definition generated_flags : list str :=
  [$"-h"; $"--help"; $"-help"; $"/?"; $"--version"; $"-version"; $"/VERSION"].

(** No declared flag differs from one of them in case only. *)
Definition clear_flags (c : cmd_data) : Prop :=
  forall f g, In f (all_flags (c_options c)) -> In g generated_flags ->
    folded true f = folded true g -> f = g.

(** The same items with the same ids. *)
Inductive same_items : cmd_data -> cmd_data -> Prop :=
| same_items_c : forall c c', c_name c = c_name c' -> c_require c = c_require c' ->
    c_arguments c = c_arguments c' -> c_options c = c_options c' ->
    Forall2 same_items (c_commands c) (c_commands c') -> same_items c c'.
