(** Specifications about parser definitions (C09-C17). *)
From Verif Require Import Base MData SStrings SIndex.

(** ** Options *)

(** Space, tab, line feed and carriage return. *)
Definition white (c : ascii) : Prop :=
  c = ascii_of_nat 32 \/ c = ascii_of_nat 9 \/ c = ascii_of_nat 10 \/
  c = ascii_of_nat 13.

Definition style_prefix (style : option_style) : ascii :=
  match style with STANDARD => "-" | SLASH => "/" | DASH => "-" end.

(** A flag contains no white space and consists of the prefix and at least one
    more character. If it is longer than that then in standard style it starts
    with two dashes, and '=' may occur only at the end, in which case the option
    must take an argument. *)
Definition valid_flag (style : option_style) (o : opt_data) (f : str) : Prop :=
  (forall c, In c f -> ~ white c) /\
  exists c r, f = style_prefix style :: c :: r /\
    (r <> [] ->
      (style = STANDARD -> c = "-"%char) /\
      (forall p q, f = p ++ "="%char :: q -> q = [] /\ o_argument o <> [])).

Definition valid_option (style : option_style) (o : opt_data) : Prop :=
  o_flags o <> [] /\
  (forall f, In f (o_flags o) -> valid_flag style o f) /\
  (o_argument o = [] \/ o_constant o = []) /\
  match o_operation o with
  | OP_NONE => o_constant o = [] /\ o_alias o = []
  | OP_ASSIGN => True
  | OP_APPEND => o_argument o <> [] \/ o_constant o <> []
  | OP_CLEAR => o_optional o = true
  end.

(** Two options that differ at most in their constant. *)
Definition same_but_constant (o o' : opt_data) : Prop :=
  o_flags o' = o_flags o /\ o_help o' = o_help o /\ o_section o' = o_section o /\
  o_alias o' = o_alias o /\ o_argument o' = o_argument o /\
  o_initial_value o' = o_initial_value o /\ o_callback o' = o_callback o /\
  o_operation o' = o_operation o /\ o_type o' = o_type o /\
  o_visibility o' = o_visibility o /\ o_optional o' = o_optional o /\
  o_argument_id o' = o_argument_id o /\ o_value_id o' = o_value_id o.

(** ** Commands *)

(** [within top c]: [c] is [top] or a sub-command of it at any depth. *)
Inductive within (top : cmd_data) : cmd_data -> Prop :=
| within_top : within top top
| within_sub : forall c d, within top c -> In d (c_commands c) -> within top d.

(** What is required of a single command. *)
Definition command_ok (st : settings) (c : cmd_data) : Prop :=
  (forall o, In o (c_options c) -> valid_option (s_style st) o) /\
  NoDup (map (folded (s_case_insensitive st)) (all_flags (c_options c))) /\
  (c_require c = Some true -> c_commands c <> []).

(** The flags of the command and the default flags of generated options are over
    the safe alphabet (needed only without regard to case). *)
Definition command_safe (st : settings) (c : cmd_data) : Prop :=
  safe_flags (s_case_insensitive st) (c_options c).

(** Commands that can be made with the add functions and setters; a setter leaves
    the items alone. *)
Inductive built : cmd_data -> Prop :=
| built_new : forall name, built (new_command name)
| built_set : forall c c', built c -> c_arguments c' = c_arguments c ->
    c_options c' = c_options c -> c_commands c' = c_commands c -> built c'
| built_argument : forall c a c', built c -> add_argument c a = Val c' -> built c'
| built_option : forall c o c', built c -> add_option c o = Val c' -> built c'
| built_command : forall c d c', built c -> built d ->
    add_command c (Some d) = Val c' -> built c'.

Definition well_formed (c : cmd_data) : Prop :=
  (c_arguments c = [] \/ c_commands c = []) /\
  (forall a, In a (c_arguments c) -> a_name a <> []) /\
  (forall o, In o (c_options c) -> o_flags o <> []) /\
  (forall d, In d (c_commands c) -> c_name d <> []).

(** ** The help option *)

Definition default_help_flags (style : option_style) : list str :=
  match style with
  | STANDARD => [$"-h"; $"--help"]
  | SLASH => [$"/?"]
  | DASH => [$"-h"; $"-help"]
  end.

(** No option has flag [f]. *)
Definition free_flag (ci : bool) (opts : list opt_data) (f : str) : Prop :=
  ~ In (folded ci f) (map (folded ci) (all_flags opts)).

(** ** Identifiers *)

(** The names under which the value of an argument or option is known. *)
Definition with_alias (alias : str) (names : list str) : list str :=
  match alias with [] => names | _ => alias :: names end.
Definition arg_names (a : arg_data) : list str := with_alias (a_alias a) [a_name a].
Definition opt_names (o : opt_data) : list str := with_alias (o_alias o) (o_flags o).

(** The names and value ids of the arguments and of the options that have a
    value. *)
Definition named_values (args : list arg_data) (opts : list opt_data)
  : list (list str * N) :=
  map (fun a => (arg_names a, a_value_id a)) args ++
  map (fun o => (opt_names o, o_value_id o))
    (filter (fun o => match o_operation o with OP_NONE => false | _ => true end) opts).

(** [linked l n1 n2]: there is a chain of items from one with names [n1] to one
    with names [n2] in which neighbours have a name in common. *)
Inductive linked {A} (l : list (list str * A)) : list str -> list str -> Prop :=
| linked_same : forall n, linked l n n
| linked_step : forall n1 n2 n3 x v, linked l n1 n2 -> In x n2 -> In x n3 ->
    In (n3, v) l -> linked l n1 n3.

(** The name that decides which value an item uses: the alias, or else the name
    of an argument. *)
Definition arg_key (a : arg_data) : str :=
  match a_alias a with [] => a_name a | alias => alias end.

Definition all_argument_ids (c : cmd_data) : list N :=
  map a_argument_id (c_arguments c) ++ map o_argument_id (c_options c).

(** The value ids in use. *)
Definition all_value_ids (c : cmd_data) : list N :=
  map snd (named_values (c_arguments c) (c_options c)).
