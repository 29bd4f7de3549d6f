(** Specification used by PMemory.v: which texts a program may still look at. *)
From Verif Require Import Base MOptIter MData MCounter MValues MParser MMemory SValues SCallback.

(** The memory and the parser after any number of calls of next(). *)
Inductive in_memory (cfg : settings) (top : cmd_data) (args : list str) : memory -> pstate -> Prop :=
| in_memory_start : forall st, start_counter cfg (initial_state cfg top args) = Ret tt st ->
    in_memory cfg top args (initial_memory (c_options top)) st
| in_memory_next : forall m st r m' st', in_memory cfg top args m st ->
    mem_next cfg m st = Ret (r, m') st' -> in_memory cfg top args m' st'.

(** An operation of a callback takes away what has been stored for value [id]. *)
Inductive takes_away (c : cmd_data) (id : N) : value_op -> Prop :=
| by_assigning : forall k v b, means c k id b -> takes_away c id (VAssign k v)
| by_clearing : forall k b, means c k id b -> takes_away c id (VClear k).

(** A callback never does that. *)
Definition leaves (c : cmd_data) (id : N) (cb : option callback) : Prop :=
  forall f n v vs op, cb = Some f -> In op (eff_ops (f n v vs)) -> ~ takes_away c id op.

(** No callback of the command takes away the value that it is called for. *)
Definition considerate (cfg : settings) (c : cmd_data) : Prop :=
  (forall o, In o (c_options c) ->
     leaves c (o_value_id o) (o_callback o) /\ leaves c (o_value_id o) (option_cb cfg o)) /\
  (forall a, In a (c_arguments c) ->
     leaves c (a_value_id a) (a_callback a) /\ leaves c (a_value_id a) (argument_cb cfg a)).

(** No callback of the command takes away value [id]. *)
Definition undisturbed (cfg : settings) (c : cmd_data) (id : N) : Prop :=
  (forall o, In o (c_options c) -> leaves c id (o_callback o) /\ leaves c id (option_cb cfg o)) /\
  (forall a, In a (c_arguments c) -> leaves c id (a_callback a) /\ leaves c id (argument_cb cfg a)).

(** What next() has come upon does not replace or remove value [id]. *)
Definition harmless (id : N) (i : iter_item) : Prop :=
  match i with
  | ItOption o => o_value_id o = id -> o_operation o <> OP_ASSIGN /\ o_operation o <> OP_CLEAR
  | _ => True
  end.

(** Buffer [b] belongs to value [id] of the command that is being parsed, or to any
    value of a command before it. *)
Definition belongs (m : memory) (id : N) (b : nat) : Prop :=
  exists aid, In (id, (b, aid)) (mem_cur m).
Definition belongs_before (m : memory) (b : nat) : Prop :=
  exists vs id aid, In vs (mem_parents m ++ mem_closed m) /\ In (id, (b, aid)) vs.

(** Buffer [b] holds a text of value [id] in one of the commands so far. *)
Definition held (m : memory) (id : N) (b : nat) : Prop :=
  exists vs aid, In vs (mem_cur m :: mem_parents m ++ mem_closed m) /\ In (id, (b, aid)) vs.

(** Some calls of next() and what they returned. *)
Inductive goes_on (cfg : settings) : memory -> pstate -> list mresult -> memory -> pstate -> Prop :=
| goes_nowhere : forall m st, goes_on cfg m st [] m st
| goes_further : forall m st r m1 st1 rs m' st', mem_next cfg m st = Ret (r, m1) st1 ->
    goes_on cfg m1 st1 rs m' st' -> goes_on cfg m st (r :: rs) m' st'.
Definition code_of (r : mresult) : iter_code := fst (fst r).
Definition item_of (r : mresult) : iter_item := snd (fst r).
Definition view_in (r : mresult) : mview := snd r.

(** The value that an item stores to. *)
Definition stores_to (i : iter_item) (id : N) : Prop :=
  match i with ItOption o => o_value_id o = id | ItArgument a => a_value_id a = id | _ => False end.

(** A view of a stored value and the id that is kept with it show [q]. *)
Definition readable (m : memory) (p : nat * N) (q : str * N) : Prop :=
  mem_text m (fst p) = Some (fst q) /\ snd p = snd q.
