(** Specification used by PBuilder.v: what a callback that uses its builder step by step
    gets to see and what it leaves. Of the model only data types are used, and [get_values],
    which the other specifications use as well. *)
From Coq Require Import Sorted.
From Verif Require Import Base MOptIter MData MCounter MValues MParser MBuilder SIndex SDef SValues SHelp SParser SStep SCallback.

(** A multimap has its elements in the order of their keys. *)
Definition is_multimap (vs : store) : Prop := StronglySorted (fun x y => (fst x <= fst y)%N) vs.

Definition asked_key (q : query) : value_key := match q with QHas k | QValue k | QValues k => k end.

(** What a call that reads returns when the values are [vs]: what is there at this moment. A
    value that is asked for by name comes from the item that supplied it, one that is asked
    for by view from the view. *)
Inductive answers (c : cmd_data) (vs : store) : query -> answer -> Prop :=
| answer_has : forall k id b, means c k id b -> get_values vs id <> [] -> answers c vs (QHas k) (AHas true)
| answer_has_not : forall k id b, means c k id b -> get_values vs id = [] -> answers c vs (QHas k) (AHas false)
| answer_none : forall k id b, means c k id b -> get_values vs id = [] ->
    answers c vs (QValue k) (AValue None id b)
| answer_name : forall name id b s by_id, means c (ByName name) id b -> get_values vs id = [(s, by_id)] ->
    answers c vs (QValue (ByName name)) (AValue (Some s) id by_id)
| answer_view : forall id b s by_id, get_values vs id = [(s, by_id)] ->
    answers c vs (QValue (ByView id b)) (AValue (Some s) id b)
| answer_values : forall k id b, means c k id b -> answers c vs (QValues k) (AValues (get_values vs id) id).

(** What it throws instead. *)
Inductive refuses (c : cmd_data) (vs : store) : query -> exn -> Prop :=
| refuse_name : forall q name, asked_key q = ByName name -> (forall id, ~ carries c name id) ->
    refuses c vs q (EUnknownValue name)
| refuse_many : forall k id b x y r, means c k id b -> get_values vs id = x :: y :: r ->
    refuses c vs (QValue k) EMultipleValues.

Inductive stop :=
| Returned (new : list str)
| LetOut (e : exn)
| Exited (code : Z).

(** [proceeds cfg c vs p evs vs' s]: the program, started with the values [vs], writes [evs] and
    leaves the values [vs'], then [s]. *)
Inductive proceeds (cfg : settings) (c : cmd_data) : store -> program -> list event -> store -> stop -> Prop :=
| does_finish : forall vs new, proceeds cfg c vs (Finish new) [] vs (Returned new)
| does_raise : forall vs, proceeds cfg c vs Raise [] vs (LetOut ECallback)
| does_write : forall vs t p evs vs' s, proceeds cfg c vs p evs vs' s ->
    proceeds cfg c vs (Write t p) (EvText t :: evs) vs' s
| does_change : forall vs op ch vs1 h p evs vs' s, operation c op ch -> changed (Some ch) vs vs1 ->
    proceeds cfg c vs1 p evs vs' s -> proceeds cfg c vs (Change op h p) evs vs' s
| does_not_find : forall vs op name p, failure c op (NoSuchValue name) ->
    proceeds cfg c vs (Change op None p) [] vs (LetOut (EUnknownValue name))
| does_without : forall vs op name h p evs vs' s, failure c op (NoSuchValue name) ->
    proceeds cfg c vs h evs vs' s -> proceeds cfg c vs (Change op (Some h) p) evs vs' s
| does_exit : forall vs op text h p, failure c op (Reported text) -> s_auto_exit cfg = true ->
    proceeds cfg c vs (Change op h p) [EvError c (MsgUser text)] vs (Exited (s_error_exit cfg))
| does_report : forall vs op text p, failure c op (Reported text) -> s_auto_exit cfg = false ->
    proceeds cfg c vs (Change op None p) [EvError c (MsgUser text)] vs (LetOut EParseError)
| does_catch : forall vs op text h p evs vs' s, failure c op (Reported text) -> s_auto_exit cfg = false ->
    proceeds cfg c vs h evs vs' s ->
    proceeds cfg c vs (Change op (Some h) p) (EvError c (MsgUser text) :: evs) vs' s
| does_read : forall vs q a h k evs vs' s, answers c vs q a -> proceeds cfg c vs (k a) evs vs' s ->
    proceeds cfg c vs (Read q h k) evs vs' s
| does_not_read : forall vs q e k, refuses c vs q e -> proceeds cfg c vs (Read q None k) [] vs (LetOut e)
| does_read_not : forall vs q e h k evs vs' s, refuses c vs q e -> proceeds cfg c vs h evs vs' s ->
    proceeds cfg c vs (Read q (Some h) k) evs vs' s.

(** The state [st] after a callback has written [evs] and left the values [vs]. *)
Definition left_by (st : pstate) (evs : list event) (vs : store) : pstate :=
  mk_ps (ps_command st) (set_l_values (ps_cur st) vs) (ps_parents st) (ps_iter st) (ps_counter st)
    (ps_mode st) (ps_calls st) (ps_events st ++ evs).
Definition comes_out (s : stop) (st : pstate) : outcome (list str) :=
  match s with
  | Returned new => Ret new st
  | LetOut e => Throws e st
  | Exited code => Exits code st
  end.

(** The program does not go on after error() has thrown. *)
Definition is_report (op : value_op) : bool := match op with VError _ | VErrorAt _ _ => true | _ => false end.
Inductive yields : program -> Prop :=
| yields_finish : forall new, yields (Finish new)
| yields_raise : yields Raise
| yields_write : forall t p, yields p -> yields (Write t p)
| yields_change : forall op h p, (is_report op = true -> h = None) ->
    (forall p', h = Some p' -> yields p') -> yields p -> yields (Change op h p)
| yields_read : forall q h k, (forall p', h = Some p' -> yields p') -> (forall a, yields (k a)) ->
    yields (Read q h k).

(** Which exception it was that left the callback is not told apart from its own. *)
Definition by_callback {A} (o : outcome A) : outcome A :=
  match o with Throws EMultipleValues st => Throws ECallback st | _ => o end.
