(** Specification used by PStep.v: what a single call of next() has to do. *)
From Verif Require Import Base MOptIter MData MCounter MValues MParser SIndex SDef SValues SParser.

(** The token has the form of an option. *)
Definition looks_like_option (style : option_style) (t : str) : Prop :=
  exists c r, t = (match style with SLASH => "/" | _ => "-" end)%char :: c :: r.

(** The option needs a value from the command line. *)
Definition takes_value (o : opt_data) : Prop :=
  (o_operation o = OP_ASSIGN \/ o_operation o = OP_APPEND) /\ o_constant o = [].

(** Reading the value of an option, if it needs one; "" otherwise. *)
Definition reads_value (o : opt_data) (it : opt_iter) (v : str) (it' : opt_iter) : Prop :=
  (takes_value o /\ it_next_value it = Ok (Some v, it')) \/
  (~ takes_value o /\ v = [] /\ it' = it).

(** The token that next() reads. *)
Definition reads (st : pstate) (t : option str) (it : opt_iter) : Prop :=
  match ps_mode st with
  | ARGUMENTS_AND_OPTIONS => it_next (ps_iter st) = Ok (t, it)
  | ARGUMENTS_ONLY => it_next_value (ps_iter st) = Ok (t, it)
  | _ => False
  end.

(** What an option does to the stored values: [v] is the value read. *)
Definition text_of (o : opt_data) (v : str) : str :=
  match o_constant o with [] => v | c => c end.
Definition option_change (o : opt_data) (v : str) : option change :=
  match o_operation o with
  | OP_NONE => None
  | OP_CLEAR => Some (Cleared (o_value_id o))
  | OP_ASSIGN => Some (Assigned (o_value_id o) (text_of o v) (o_argument_id o))
  | OP_APPEND => Some (Appended (o_value_id o) (text_of o v) (o_argument_id o))
  end.
Definition argument_change (a : arg_data) (v : str) : option change :=
  Some (Appended (a_value_id a) v (a_argument_id a)).

(** The values [vs'] are [vs] after the change. *)
Definition changed (c : option change) (vs vs' : store) : Prop :=
  forall id, get_values vs' id =
    match c with
    | None => get_values vs id
    | Some c => effect id (get_values vs id) c
    end.

(** What is seen of a callback: that it is called, then the text it writes. *)
Definition called (cb : option callback) (ev : event) (n : nat) (v : str) (vs : store)
  : list event :=
  match cb with
  | None => []
  | Some f => ev :: map EvText (eff_out (f n v vs))
  end.
Definition calls_of (cb : option callback) : nat := match cb with None => 0 | Some _ => 1 end.

(** The callbacks that belong to an item returned by next(), in order. *)
Definition expected_calls (cfg : settings) (r : iter_result) : list event :=
  match ir_code r, ir_item r with
  | IC_OPTION, ItOption o =>
      match o_callback o with
      | None => []
      | Some _ => [EvOptionCallback false (o_argument_id o) (ir_value r)]
      end ++
      match option_cb cfg o with
      | None => []
      | Some _ => [EvOptionCallback true (o_argument_id o) (ir_value r)]
      end
  | IC_ARGUMENT, ItArgument a =>
      match a_callback a with
      | None => []
      | Some _ => [EvArgumentCallback false (a_argument_id a) (ir_value r)]
      end ++
      match argument_cb cfg a with
      | None => []
      | Some _ => [EvArgumentCallback true (a_argument_id a) (ir_value r)]
      end
  | _, _ => []
  end.

(** The invocations of callbacks among the effects. *)
Definition invocations (evs : list event) : list event :=
  filter (fun e => match e with
                   | EvOptionCallback _ _ _ | EvArgumentCallback _ _ _ => true
                   | _ => false
                   end) evs.

(** Successive calls of next() and what they return. *)
Inductive steps (cfg : settings) : pstate -> list iter_result -> pstate -> Prop :=
| steps_none : forall st, steps cfg st [] st
| steps_more : forall st r st1 rs st2, next cfg st = Ret r st1 ->
    steps cfg st1 rs st2 -> steps cfg st (r :: rs) st2.

(** No option is selected by the token. *)
Definition unknown_option (cfg : settings) (c : cmd_data) (t : str) : Prop :=
  forall o, ~ selects (s_case_insensitive cfg) (s_abbreviations cfg) (c_options c) t o.

(** Lookup without regard to case is only dependable for flags without '_' etc. *)
Definition dependable (cfg : settings) (c : cmd_data) (t : str) : Prop :=
  safe_flags (s_case_insensitive cfg) (c_options c) /\
  (s_case_insensitive cfg = true -> SStrings.safe t).

(** The token is not the name of a command that may follow the current one. *)
Definition no_sibling (cfg : settings) (st : pstate) (t : str) : Prop :=
  forall l d, In l (ps_parents st) -> c_multi (l_command l) = true ->
    In d (c_commands (l_command l)) ->
    folded (s_case_insensitive cfg) (c_name d) <> folded (s_case_insensitive cfg) t.

(** The error [m] is reported and nothing else is done: the program exits, or
    all results become failures and what remains to be read, which [it] tells, is left
    unprocessed in the results of the current command. *)
Definition reports (cfg : settings) (st : pstate) (it : opt_iter) (m : errmsg) : Prop :=
  exists st',
    ps_events st' = ps_events st ++ [EvError (ps_command st) m] /\
    ps_calls st' = ps_calls st /\
    map l_values (open_levels st') = map l_values (open_levels st) /\
    if s_auto_exit cfg
    then next cfg st = Exits (s_error_exit cfg) st'
    else next cfg st = Ret (mk_ir IC_ERROR ItNone []) st' /\ ps_mode st' = ST_ERROR /\
         (forall l, In l (open_levels st') -> l_result l = RC_FAILURE) /\
         exists left it', it_remaining it = Ok (left, it') /\
           map l_unprocessed (open_levels st') =
             (l_unprocessed (ps_cur st) ++ left) :: map l_unprocessed (ps_parents st) /\
           map l_subs (open_levels st') = map l_subs (open_levels st) /\
           map l_stop (open_levels st') = map l_stop (open_levels st).

(** The callback, called as the [n]-th, does not change values. *)
Definition changes_nothing (cb : option callback) (n : nat) : Prop :=
  forall f v vs, cb = Some f -> eff_ops (f n v vs) = [].

(** What the callback, called as the [n]-th with the value [v], puts in new_arguments. *)
Definition new_of (cb : option callback) (n : nat) (v : str) (vs : list (N * (str * N))) : list str :=
  match cb with None => [] | Some f => eff_new (f n v vs) end.

(* ------------------------------------------------------------------------ *)
(** ** Where values come from (C38) *)

(** [t] is an argument of the command line or the end of one. *)
Definition given (args : list str) (t : str) : Prop :=
  exists a k, In a args /\ t = skipn k a.

(** [t] was rightly stored under the value [id] by the item [aid] of command [c]. *)
Inductive rightly (args : list str) (top c : cmd_data) (id : N) (t : str) (aid : N) : Prop :=
| from_initial : forall o, c = top -> In o (c_options c) -> id = o_value_id o ->
    aid = o_argument_id o -> t = o_initial_value o -> t <> [] -> rightly args top c id t aid
| from_constant : forall o, In o (c_options c) -> id = o_value_id o ->
    aid = o_argument_id o -> t = o_constant o -> t <> [] ->
    o_operation o = OP_ASSIGN \/ o_operation o = OP_APPEND -> rightly args top c id t aid
| from_option : forall o, In o (c_options c) -> id = o_value_id o ->
    aid = o_argument_id o -> takes_value o -> given args t -> rightly args top c id t aid
| from_argument : forall a, In a (c_arguments c) -> id = a_value_id a ->
    aid = a_argument_id a -> given args t -> rightly args top c id t aid.

(** An unprocessed argument: from the command line, or flags split off a group. *)
Definition left_from (args : list str) (u : str) : Prop :=
  given args u \/ exists t, u = "-"%char :: t /\ given args t.
