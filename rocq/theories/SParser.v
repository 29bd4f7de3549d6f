(** Specification used by PParser.v and related files. From the model come the
    types, the calls a user makes ([finish_parser], [next], [run_parser]) and
    what the user can see of the results ([toplevel], the fields of a level,
    [get_values]). *)
From Verif Require Import Base MOptIter MData MCounter MValues MParser SDef SValues SCounter.

(* ------------------------------------------------------------------------ *)
(** ** Results *)

(** [in_result l x]: [x] is the result of [l] or of a sub-command in it. *)
Inductive in_result (l : level) : level -> Prop :=
| in_result_self : in_result l l
| in_result_sub : forall s x, In s (l_subs l) -> in_result s x -> in_result l x.

(** The levels that are being parsed, innermost first. *)
Definition open_levels (st : pstate) : list level := ps_cur st :: ps_parents st.

(** An error message has been written. *)
Definition reported_error (st : pstate) : Prop :=
  exists c m, In (EvError c m) (ps_events st).

(* ------------------------------------------------------------------------ *)
(** ** Executions *)

(** The number of positional arguments that the current command has received since
    it became current, after a call of next() that gave [r]. *)
Definition count_after (st : pstate) (n : N) (r : iter_result) (st' : pstate) : N :=
  match ir_code r with
  | IC_ARGUMENT => n + 1
  | IC_COMMAND => 0
  | _ => if (length (ps_parents st') <? length (ps_parents st))%nat then 0 else n
  end.

(** The states a user of the iterator can reach, with that number. *)
Inductive reached (cfg : settings) (top : cmd_data) (args : list str)
  : pstate -> N -> Prop :=
| reached_start : forall st, start_counter cfg (initial_state cfg top args) = Ret tt st ->
    reached cfg top args st 0
| reached_next : forall st n r st', reached cfg top args st n ->
    next cfg st = Ret r st' ->
    reached cfg top args st' (count_after st n r st').

(** The whole of parse(): it has returned, leaving the iterator in this state. *)
Definition parsed (cfg : settings) (top : cmd_data) (args : list str) (st : pstate) : Prop :=
  exists fuel, run_parser cfg fuel top args = Ret tt st.

(* ------------------------------------------------------------------------ *)
(** ** Definitions *)

(** The limits on positional arguments make sense, and no command has both
    arguments and sub-commands. *)
Definition sound (top : cmd_data) : Prop :=
  forall c, within top c ->
    proper (c_arguments c) /\ (maxima (c_arguments c) < 2 ^ 64)%N /\
    (c_arguments c = [] \/ c_commands c = []).

(** The callbacks a parser may call while it parses a command. *)
Inductive callback_of (cfg : settings) (top : cmd_data) : callback -> Prop :=
| cb_option_global : forall c o f, within top c -> In o (c_options c) ->
    option_cb cfg o = Some f -> callback_of cfg top f
| cb_argument_global : forall c a f, within top c -> In a (c_arguments c) ->
    argument_cb cfg a = Some f -> callback_of cfg top f
| cb_option_own : forall c o f, within top c -> In o (c_options c) ->
    o_callback o = Some f -> callback_of cfg top f
| cb_argument_own : forall c a f, within top c -> In a (c_arguments c) ->
    a_callback a = Some f -> callback_of cfg top f.

(** No callback inserts arguments. *)
Definition no_insertions (cfg : settings) (top : cmd_data) : Prop :=
  forall f, callback_of cfg top f -> forall n v vs, eff_new (f n v vs) = [].

(** No callback changes values, reports an error or throws. *)
Definition no_interference (cfg : settings) (top : cmd_data) : Prop :=
  forall f, callback_of cfg top f -> forall n v vs,
    eff_ops (f n v vs) = [] /\ eff_throws (f n v vs) = false.
