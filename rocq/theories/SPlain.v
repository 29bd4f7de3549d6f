(** Definitions without what is only meant for the help text (C92). *)
From Verif Require Import Base MStrings MOptIter MData MCounter MValues MParser MText MHelp MApi.

(** An argument, an option, a command and a parser without their texts, sections and
    visibility; of the text that names an option's argument only remains whether there is
    one. *)
Definition plain_argument (a : arg_data) : arg_data :=
  mk_arg (a_name a) [] [] (a_alias a) (a_callback a) (a_min a) (a_max a) vis_normal
    (a_value_id a) (a_argument_id a).
Definition plain_option (o : opt_data) : opt_data :=
  mk_opt (o_flags o) [] [] (o_alias o) (match o_argument o with [] => [] | _ => $"A" end)
    (o_constant o) (o_initial_value o) (o_callback o) (o_operation o) (o_type o) vis_normal
    (o_optional o) (o_argument_id o) (o_value_id o).
Fixpoint plain_command (c : cmd_data) : cmd_data :=
  mk_cmd (map plain_argument (c_arguments c)) (map plain_option (c_options c))
    (map plain_command (c_commands c)) [] (c_name c) (c_full_name c) [] vis_normal
    (c_require c) (c_multi c) [] (c_argument_id c)
    (map (fun e => (fst e, plain_option (snd e))) (c_index c)).
Definition plain_data (d : parser_data) : parser_data :=
  mk_data (plain_command (d_command d)) (d_settings d) (d_version d) 0 [].

(** Two parsers that differ in nothing else. *)
Definition alike (p q : parser_data) : Prop := plain_data p = plain_data q.

(** The parser's own callbacks do not look at these texts. *)
Definition blind (s : settings) : Prop :=
  (forall f, s_argument_callback s = Some f ->
    forall a b, plain_argument a = plain_argument b -> f a = f b) /\
  (forall f, s_option_callback s = Some f ->
    forall a b, plain_option a = plain_option b -> f a = f b).

(** ** Results, apart from the texts of the definitions they refer to *)

Fixpoint plain_level (l : level) : level :=
  mk_level (plain_command (l_command l)) (l_values l) (l_unprocessed l) (l_result l)
    (option_map plain_option (l_stop l)) (map plain_level (l_subs l)).
Definition plain_event (e : event) : event :=
  match e with
  | EvHelp c => EvHelp (plain_command c)
  | EvError c m => EvError (plain_command c) m
  | _ => e
  end.
Definition plain_counter_state (ac : arg_counter) : arg_counter :=
  mk_counter (map (fun x => (fst x, plain_argument (snd x))) (ac_counters ac)) (ac_index ac)
    (ac_counter ac) (ac_first_optional ac).
Definition plain_state (st : pstate) : pstate :=
  mk_ps (plain_command (ps_command st)) (plain_level (ps_cur st)) (map plain_level (ps_parents st))
    (ps_iter st) (plain_counter_state (ps_counter st)) (ps_mode st) (ps_calls st)
    (map plain_event (ps_events st)).
Definition plain_item (i : iter_item) : iter_item :=
  match i with
  | ItNone => ItNone
  | ItArgument a => ItArgument (plain_argument a)
  | ItOption o => ItOption (plain_option o)
  | ItCommand c => ItCommand (plain_command c)
  end.
Definition plain_result (r : iter_result) : iter_result :=
  mk_ir (ir_code r) (plain_item (ir_item r)) (ir_value r).
Definition plain_end (e : parse_end) : parse_end :=
  match e with
  | PReturn st => PReturn (plain_state st)
  | PExit code st => PExit code (plain_state st)
  | _ => e
  end.
Definition plain_outcome (x : outcome iter_result) : outcome iter_result :=
  match x with
  | Ret r st => Ret (plain_result r) (plain_state st)
  | Exits code st => Exits code (plain_state st)
  | Throws e st => Throws e (plain_state st)
  | Undefined => Undefined
  | NoFuel => NoFuel
  end.

(** ** What a program sees of the results *)

(** The values, the unprocessed arguments and the result code of a command and of the
    commands within it. *)
Inductive seen := Seen (values : store) (unprocessed : list str) (result : result_code)
  (name : str) (inner : list seen).
Fixpoint seen_of (l : level) : seen :=
  Seen (l_values l) (l_unprocessed l) (l_result l) (c_name (l_command l)) (map seen_of (l_subs l)).

(** What the program wrote and which callbacks it called, in this order; of help and error
    texts, that there was one (and the error). *)
Inductive deed := DText (s : str) | DHelp (command : str) | DError (command : str) (m : errmsg)
  | DOption (global : bool) (aid : N) (value : str) | DArgument (global : bool) (aid : N) (value : str).
Definition deed_of (e : event) : deed :=
  match e with
  | EvText s => DText s
  | EvHelp c => DHelp (c_full_name c)
  | EvError c m => DError (c_full_name c) m
  | EvOptionCallback g i v => DOption g i v
  | EvArgumentCallback g i v => DArgument g i v
  end.

Definition same_ends (x y : parse_end) : Prop :=
  match x, y with
  | PReturn s, PReturn t =>
      seen_of (toplevel s) = seen_of (toplevel t) /\ map deed_of (ps_events s) = map deed_of (ps_events t)
  | PExit a s, PExit b t => a = b /\ map deed_of (ps_events s) = map deed_of (ps_events t)
  | PThrow e, PThrow f => e = f
  | PUndefined, PUndefined => True
  | PNoFuel, PNoFuel => True
  | _, _ => False
  end.

(** ** Programs *)

(** Calls of a parser that only matter for the help text. *)
Definition for_help (c : parser_call) : bool :=
  match c with
  | P_command (C_help _) | P_command (C_about _) | P_command (C_section _)
  | P_command (C_current_section _) | P_command (C_text _ _) | P_command (C_visibility _)
  | P_line_width _ | P_word_rule _ | P_help _ _ => true
  | _ => false
  end.

(** Calls that are the same apart from the texts of the items that are added. copy_from() is
    left out: it refuses texts that exist already. *)
Inductive same_call : parser_call -> parser_call -> Prop :=
| same_argument a b : option_map plain_argument a = option_map plain_argument b ->
    same_call (P_add_argument a) (P_add_argument b)
| same_option a b : option_map plain_option a = option_map plain_option b ->
    same_call (P_add_option a) (P_add_option b)
| same_command a b : option_map plain_command a = option_map plain_command b ->
    same_call (P_add_command a) (P_add_command b)
| same_other c : for_help c = false ->
    match c with
    | P_copy_from _ => False
    | P_setting (S_argument_callback (Some f)) =>
        forall a b, plain_argument a = plain_argument b -> f a = f b
    | P_setting (S_option_callback (Some f)) =>
        forall a b, plain_option a = plain_option b -> f a = f b
    | _ => True
    end -> same_call c c.

(** Programs that make the same calls, apart from those for the help text. *)
Inductive same_program : list parser_call -> list parser_call -> Prop :=
| same_end : same_program [] []
| same_left c cs ds : for_help c = true -> same_program cs ds -> same_program (c :: cs) ds
| same_right c cs ds : for_help c = true -> same_program cs ds -> same_program cs (c :: ds)
| same_both c d cs ds : same_call c d -> same_program cs ds -> same_program (c :: cs) (d :: ds).

(** What the calls of a program return, except those for the help text. *)
Fixpoint answers (fuel : nat) (cs : list parser_call) (p : option parser_data) : list parser_result :=
  match cs with
  | [] => []
  | c :: r =>
      let (x, q) := call_parser fuel c p in
      if for_help c then answers fuel r q else x :: answers fuel r q
  end.

(** Iterators that behave in the same way. *)
Fixpoint iterates_alike (n : nat) (cfg : settings) (s t : pstate) : Prop :=
  match n with
  | O => True
  | S n' =>
      plain_outcome (next cfg s) = plain_outcome (next cfg t) /\
      (forall a s' b t', next cfg s = Ret a s' -> next cfg t = Ret b t' ->
        seen_of (toplevel s') = seen_of (toplevel t') /\
        map deed_of (ps_events s') = map deed_of (ps_events t') /\ iterates_alike n' cfg s' t')
  end.

Definition same_answer (x y : parser_result) : Prop :=
  match x, y with
  | R_call a, R_call b => a = b
  | R_parse a, R_parse b => same_ends a b
  | R_iterator (Done (s, st)), R_iterator (Done (s', st')) => s = s' /\ forall n, iterates_alike n s st st'
  | R_iterator (Raised e), R_iterator (Raised f) => e = f
  | R_iterator Crash, R_iterator Crash => True
  | _, _ => False
  end.

(** Items: the calls that matter for the help text only. *)
Definition for_help_argument (c : arg_call) : bool :=
  match c with A_help _ | A_section _ | A_visibility _ => true | _ => false end.
Definition for_help_option (c : opt_call) : bool :=
  match c with O_help _ | O_section _ | O_visibility _ => true | _ => false end.
Definition for_help_command (c : cmd_call) : bool :=
  match c with
  | C_help _ | C_about _ | C_section _ | C_current_section _ | C_text _ _ | C_visibility _ => true
  | _ => false
  end.
