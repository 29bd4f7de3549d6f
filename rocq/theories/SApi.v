(** Specification of the use of parsers and items (C41, C58-C64). *)
From Verif Require Import Base MStrings MOptIter MData MCounter MValues MParser MText MHelp MApi SStrings SIndex SDef SValues SParser SStep.

(** ** Results without regard to the visibility of commands *)

Fixpoint visible_command (c : cmd_data) : cmd_data :=
  mk_cmd (c_arguments c) (c_options c) (map visible_command (c_commands c)) (c_current_section c)
    (c_name c) (c_full_name c) (c_texts c) vis_normal (c_require c) (c_multi c) (c_section c)
    (c_argument_id c) (c_index c).
Definition visible_data (d : parser_data) : parser_data :=
  mk_data (visible_command (d_command d)) (d_settings d) (d_version d) (d_line_width d) (d_word_rules d).
Fixpoint visible_level (l : level) : level :=
  mk_level (visible_command (l_command l)) (l_values l) (l_unprocessed l) (l_result l) (l_stop l)
    (map visible_level (l_subs l)).
Definition visible_event (e : event) : event :=
  match e with
  | EvHelp c => EvHelp (visible_command c)
  | EvError c m => EvError (visible_command c) m
  | _ => e
  end.
Definition visible_state (st : pstate) : pstate :=
  mk_ps (visible_command (ps_command st)) (visible_level (ps_cur st)) (map visible_level (ps_parents st))
    (ps_iter st) (ps_counter st) (ps_mode st) (ps_calls st) (map visible_event (ps_events st)).
Definition visible_result (r : iter_result) : iter_result :=
  match r with
  | mk_ir code (ItCommand c) v => mk_ir code (ItCommand (visible_command c)) v
  | _ => r
  end.
Definition visible_end (e : parse_end) : parse_end :=
  match e with
  | PReturn st => PReturn (visible_state st)
  | PExit code st => PExit code (visible_state st)
  | _ => e
  end.

(** ** Calls of a parser *)

(** Calls of const members: they look at the parser only. *)
Definition looks_only (c : parser_call) : bool :=
  match c with
  | P_parse_const _ | P_parse_argv_const _ | P_iterator_const _ | P_iterator_argv_const _ | P_help _ _ => true
  | _ => false
  end.

(** Calls after which the parser has been used up. *)
Definition uses_up (c : parser_call) : bool :=
  match c with
  | P_parse _ | P_parse_argv _ | P_iterator _ | P_iterator_argv (_ :: _) => true
  | _ => false
  end.

(** The call throws an exception that says that the parser (or argv) cannot be used. *)
Definition refused (r : parser_result) : Prop :=
  r = R_call (Raised EMovedParser) \/ r = R_parse (PThrow EMovedParser) \/
  r = R_iterator (Raised EMovedParser) \/ r = R_iterator (Raised ENoArgv) \/ r = R_help (HRaised EMovedParser).

(** A call that changes the definition has thrown an exception. *)
Definition raised (r : parser_result) : bool :=
  match r with R_call (Raised _) => true | _ => false end.

(** The calls and their results without those of a kind. *)
Fixpoint without (f : parser_call -> parser_result -> bool) (cs : list parser_call) (rs : list parser_result)
  : list parser_call * list parser_result :=
  match cs, rs with
  | c :: cs', r :: rs' => let (x, y) := without f cs' rs' in if f c r then (x, y) else (c :: x, r :: y)
  | _, _ => ([], [])
  end.

Definition is_copy (c : parser_call) : bool := match c with P_copy_from _ => true | _ => false end.

(** ** Objects made by the calls of the library *)

Definition made_argument (a : arg_data) : Prop :=
  exists name cs, call_arguments cs (Some (new_argument name)) = Some a.
Fixpoint call_options (cs : list opt_call) (o : option opt_data) : option opt_data :=
  match cs with
  | [] => o
  | c :: r => call_options r (snd (call_option c o))
  end.
Definition made_option (o : opt_data) : Prop :=
  exists flags cs, call_options cs (Some (new_option flags)) = Some o.

Inductive made_command : cmd_data -> Prop :=
| made_new : forall name, made_command (new_command name)
| made_set : forall u c, made_command c -> made_command (cmd_update u c)
| made_copy : forall c, made_command c -> made_command (copy_command c)
| made_add_argument : forall a c r x c', made_argument a -> made_command c ->
    add_argument_to (Some a) (Some c) = (r, x, Some c') -> made_command c'
| made_add_option : forall o c r x c', made_option o -> made_command c ->
    add_option_to (Some o) (Some c) = (r, x, Some c') -> made_command c'
| made_add_command : forall d c r x c', made_command d -> made_command c ->
    add_command_to (Some d) (Some c) = (r, x, Some c') -> made_command c'
| made_copy_from : forall s c r c', made_command s -> made_command c ->
    command_copy_from (Some s) (Some c) = (r, Some c') -> made_command c'.

Definition made_call (c : parser_call) : Prop :=
  match c with
  | P_add_argument (Some a) => made_argument a
  | P_add_option (Some o) => made_option o
  | P_add_command (Some d) | P_copy_from (Some d) => made_command d
  | _ => True
  end.
Definition made_parser (d : parser_data) : Prop :=
  exists fuel name file cs rs, call_parsers fuel cs (Some (new_parser name file)) = (rs, Some d) /\
    Forall made_call cs.

(** ** Items (C64) *)

(** The change of the stored values that an item stands for. *)
Definition item_change (r : iter_result) : option change :=
  match ir_code r, ir_item r with
  | IC_OPTION, ItOption o => option_change o (ir_value r)
  | IC_ARGUMENT, ItArgument a => argument_change a (ir_value r)
  | _, _ => None
  end.
Definition given_changes {A} (f : A -> option change) (l : list A) : list change :=
  flat_map (fun x => match f x with Some c => [c] | None => [] end) l.
Definition initial_change (o : opt_data) : option change :=
  match o_initial_value o with
  | [] => None
  | t => Some (Appended (o_value_id o) t (o_argument_id o))
  end.

(** An account of what the items say about a command that was given: the changes of its
    values, and the sub-commands that were given to it. *)
Inductive account := Acc (c : cmd_data) (changes : list change) (subs : list account).
Definition acc_command (a : account) : cmd_data := let (c, _, _) := a in c.
Definition with_change (a : account) (x : option change) : account :=
  match a, x with Acc c cs subs, Some y => Acc c (cs ++ [y]) subs | _, None => a end.
Definition with_given (a sub : account) : account := let (c, cs, subs) := a in Acc c cs (subs ++ [sub]).

(** Commands are completed up to the nearest one that accepts several sub-commands. *)
Fixpoint back_to_multi (cur : account) (above : list account) : option (account * list account) :=
  match above with
  | [] => None
  | p :: r => if c_multi (acc_command p) then Some (with_given p cur, r) else back_to_multi (with_given p cur) r
  end.

(** What an item says: a value belongs to the command that was started last. A command
    belongs to that one too, or, if that has no sub-commands, to the nearest one above it
    that accepts several. A LAST_ARGUMENT option completes commands in the same way. *)
Definition book (x : account * list account) (r : iter_result) : account * list account :=
  let (cur, above) := x in
  match ir_code r, ir_item r with
  | IC_COMMAND, ItCommand c =>
      let (cur', above') :=
        match c_commands (acc_command cur), back_to_multi cur above with
        | [], Some y => y
        | _, _ => (cur, above)
        end in
      (Acc c [] [], cur' :: above')
  | IC_OPTION, ItOption o =>
      let cur' := with_change cur (item_change r) in
      match o_type o, back_to_multi cur' above with
      | OT_LAST_ARGUMENT, Some y => y
      | _, _ => (cur', above)
      end
  | _, _ => (with_change cur (item_change r), above)
  end.
Definition booked (x : account * list account) (rs : list iter_result) : account * list account := fold_left book rs x.

(** The account of the whole command line. *)
Fixpoint total (cur : account) (above : list account) : account :=
  match above with [] => cur | p :: r => total (with_given p cur) r end.

(** Results agree with an account: the same command with the values that the changes lead
    to, and so for all sub-commands, in order. *)
Inductive agrees : account -> level -> Prop :=
| agree : forall cs subs l, (forall id, get_values (l_values l) id = history cs id) -> Forall2 agrees subs (l_subs l) ->
    agrees (Acc (l_command l) cs subs) l.

(** ** The name of the program (C62) *)

(** [b] is the part of the path behind the last separator. *)
Definition file_part (path b : str) : Prop :=
  (forall c, In c b -> ~ separator c) /\ (path = b \/ exists d x, separator x /\ path = d ++ x :: b).
