(** Specification used by PLook.v: the positional arguments of one command. *)
From Verif Require Import Base MOptIter MData MCounter MValues MParser SIndex SDef SCounter SParser SStep.

(** The iterator has just been made, or a sub-command has just been entered. *)
Inductive entered (cfg : settings) (top : cmd_data) (args : list str) (st : pstate) : Prop :=
| entered_start : start_counter cfg (initial_state cfg top args) = Ret tt st -> entered cfg top args st
| entered_command : forall st0 n r, reached cfg top args st0 n -> next cfg st0 = Ret r st ->
    ir_code r = IC_COMMAND -> entered cfg top args st.

(** The item is the last one of the current command: parsing is over, another
    command begins, or the option is the last argument of the command. *)
Definition last_item (r : iter_result) (st' : pstate) : Prop :=
  ps_mode st' = ST_DONE \/ ir_code r = IC_COMMAND \/
  exists o, ir_item r = ItOption o /\ o_type o = OT_LAST_ARGUMENT.

(** The items of the current command from now on; no error is reported. *)
Inductive rest_of_command (cfg : settings) : pstate -> list iter_result -> Prop :=
| rest_last : forall st r st', next cfg st = Ret r st' -> ir_code r <> IC_ERROR ->
    last_item r st' -> rest_of_command cfg st [r]
| rest_more : forall st r st' rs, next cfg st = Ret r st' -> ir_code r <> IC_ERROR ->
    ~ last_item r st' -> rest_of_command cfg st' rs -> rest_of_command cfg st (r :: rs).

(** The items [rs] of the current command are returned one after the other, after
    which the iterator is in the state [st'] and the command goes on. *)
Inductive proceeds (cfg : settings) : pstate -> list iter_result -> pstate -> Prop :=
| proceeds_none : forall st, proceeds cfg st [] st
| proceeds_item : forall st r st1 rs st2, next cfg st = Ret r st1 -> ir_code r <> IC_ERROR ->
    ~ last_item r st1 -> proceeds cfg st1 rs st2 -> proceeds cfg st (r :: rs) st2.

(** The definitions to which the positional arguments went, in order. *)
Definition received (rs : list iter_result) : list arg_data :=
  flat_map (fun r => match ir_code r, ir_item r with
                     | IC_ARGUMENT, ItArgument a => [a]
                     | _, _ => []
                     end) rs.

(** Something that cannot be taken for the beginning of the only flag of a command. *)
Definition no_beginning (cfg : settings) (c : cmd_data) (t : str) : Prop :=
  s_abbreviations cfg = false \/ (t <> [] /\ t <> [style_prefix (s_style cfg)]) \/
  1 < length (all_flags (c_options c)).

(** Items of the command [c] that are read as look-ahead foresees: no EXIT options, no
    option that has an argument but does not read a value, no text that is the
    beginning of the only flag of the command. *)
Definition foreseeable (cfg : settings) (c : cmd_data) (r : iter_result) : Prop :=
  match ir_item r with
  | ItOption o => o_type o <> OT_EXIT /\ (o_argument o <> [] -> takes_value o)
  | ItArgument _ => no_beginning cfg c (ir_value r)
  | ItCommand d => no_beginning cfg c (c_name d)
  | ItNone => True
  end.

(** [got] is the fair distribution of the arguments over the definitions; if there
    are too few, the definitions get their minimum as long as possible. *)
Definition distributed (args got : list arg_data) : Prop :=
  let k := N.of_nat (length got) in
  ((minima args <= k)%N -> exists ks, fair args k ks /\ got = order (combine ks args)) /\
  ((k < minima args)%N ->
     got = firstn (length got) (order (map (fun a => (a_min a, a)) args))).

(** The last definition receives something if [k] arguments are distributed; without
    that a command whose arguments have to be counted is never complete (C29). *)
Definition last_used (args : list arg_data) (k : N) : Prop :=
  predictable args \/ exists ks, fair args k ks /\ last ks 0%N <> 0%N.

(** All options of the current command that must be given have a value. *)
Definition options_given (st : pstate) : Prop :=
  forall o, In o (c_options (ps_command st)) -> o_optional o = false ->
    exists v aid, In (o_value_id o, (v, aid)) (l_values (ps_cur st)).

(** [t] is the name of [d], which is one of the sub-commands of the nearest command
    above the current one that accepts several sub-commands. *)
Definition sibling (cfg : settings) (st : pstate) (t : str) (d : cmd_data) : Prop :=
  exists below l above, ps_parents st = below ++ l :: above /\
    Forall (fun x => c_multi (l_command x) = false) below /\ c_multi (l_command l) = true /\
    In d (c_commands (l_command l)) /\
    folded (s_case_insensitive cfg) (c_name d) = folded (s_case_insensitive cfg) t.
