(** Specification used by PCallback.v: what a callback does to the values, and how
    it may end the parsing. *)
From Verif Require Import Base MOptIter MData MCounter MValues MParser SIndex SDef SValues SHelp SParser SStep.

(** The ways in which a callback can break off the parsing: error(), a name that no
    value has, or an exception of its own. *)
Inductive problem :=
| Reported (text : str)
| NoSuchValue (name : str)
| Thrown.

(** The value a callback means, and the item that it is said to come from: 0 (none)
    if it is given by name. *)
Definition means (c : cmd_data) (k : value_key) (id by_id : N) : Prop :=
  match k with
  | ByView vid aid => id = vid /\ by_id = aid
  | ByName name => carries c name id /\ (forall id', carries c name id' -> (id <= id')%N) /\ by_id = 0%N
  end.

(** A single operation that succeeds. *)
Inductive operation (c : cmd_data) : value_op -> change -> Prop :=
| op_assign : forall k v id b, means c k id b -> operation c (VAssign k v) (Assigned id v b)
| op_append : forall k v id b, means c k id b -> operation c (VAppend k v) (Appended id v b)
| op_clear : forall k id b, means c k id b -> operation c (VClear k) (Cleared id).

(** A single operation that fails. *)
Definition key_of (op : value_op) : option value_key :=
  match op with VAssign k _ | VAppend k _ | VClear k => Some k | _ => None end.
Inductive failure (c : cmd_data) : value_op -> problem -> Prop :=
| fail_name : forall op name, key_of op = Some (ByName name) ->
    (forall id, ~ carries c name id) -> failure c op (NoSuchValue name)
| fail_error : forall msg, failure c (VError msg) (Reported msg)
| fail_error_at : forall msg id, failure c (VErrorAt msg id)
    (Reported (match item_name c id with [] => msg | name => name ++ $": " ++ msg end)).

(** Operations one after the other, up to the first one that fails. *)
Inductive performs (c : cmd_data) : store -> list value_op -> store -> option problem -> Prop :=
| performs_all : forall vs, performs c vs [] vs None
| performs_one : forall vs op ch vs1 ops vs2 p, operation c op ch -> changed (Some ch) vs vs1 ->
    performs c vs1 ops vs2 p -> performs c vs (op :: ops) vs2 p
| performs_not : forall vs op ops p, failure c op p -> performs c vs (op :: ops) vs (Some p).

(** The [n]-th call of a callback, if there is a callback; it may throw at the end. *)
Definition acts (c : cmd_data) (cb : option callback) (n : nat) (v : str) (vs vs' : store)
  (p : option problem) : Prop :=
  match cb with
  | None => vs' = vs /\ p = None
  | Some f => exists p0, performs c vs (eff_ops (f n v vs)) vs' p0 /\
      p = match p0 with
          | Some _ => p0
          | None => if eff_throws (f n v vs) then Some Thrown else None
          end
  end.

(** What is written because of a problem, and how the program goes on. *)
Definition problem_events (c : cmd_data) (p : problem) : list event :=
  match p with Reported text => [EvError c (MsgUser text)] | _ => [] end.
Definition ends_with (cfg : settings) (p : problem) (o : outcome iter_result) (st' : pstate) : Prop :=
  match p with
  | Reported _ => if s_auto_exit cfg then o = Exits (s_error_exit cfg) st' else o = Throws EParseError st'
  | NoSuchValue name => o = Throws (EUnknownValue name) st'
  | Thrown => o = Throws ECallback st'
  end.

(** The current level of [st'] is that of [st] except for its values [vs]; no other
    level has changed. [evs] have been written and [k] callbacks called. *)
Record became (st st' : pstate) (evs : list event) (k : nat) (vs : store) : Prop := {
  be_events : ps_events st' = ps_events st ++ evs;
  be_calls : ps_calls st' = ps_calls st + k;
  be_values : l_values (ps_cur st') = vs;
  be_command : ps_command st' = ps_command st;
  be_level : l_command (ps_cur st') = l_command (ps_cur st);
  be_subs : l_subs (ps_cur st') = l_subs (ps_cur st);
  be_parents : ps_parents st' = ps_parents st
}.
Definition same_end (st st' : pstate) : Prop :=
  l_unprocessed (ps_cur st') = l_unprocessed (ps_cur st) /\
  l_result (ps_cur st') = l_result (ps_cur st) /\ l_stop (ps_cur st') = l_stop (ps_cur st).

(** What the callbacks [cb1] and [cb2] make of a state with the values [vs1]: if one
    of them breaks off, [o] ends accordingly, with the values as they are then;
    otherwise [goes] holds of what was written and of the values. *)
Definition both_act (cfg : settings) (st : pstate) (cb1 cb2 : option callback) (e1 e2 : event)
  (v : str) (vs1 : store) (o : outcome iter_result)
  (goes : list event -> nat -> store -> Prop) : Prop :=
  let c := ps_command st in let n1 := ps_calls st in let n2 := ps_calls st + calls_of cb1 in
  exists vs2 p1, acts c cb1 n1 v vs1 vs2 p1 /\
  match p1 with
  | Some p => exists st', ends_with cfg p o st' /\ same_end st st' /\ ps_mode st' = ps_mode st /\
      became st st' (called cb1 e1 n1 v vs1 ++ problem_events c p) (calls_of cb1) vs2
  | None => exists vs3 p2, acts c cb2 n2 v vs2 vs3 p2 /\
    match p2 with
    | Some p => exists st', ends_with cfg p o st' /\ same_end st st' /\ ps_mode st' = ps_mode st /\
        became st st' (called cb1 e1 n1 v vs1 ++ called cb2 e2 n2 v vs2 ++ problem_events c p)
          (calls_of cb1 + calls_of cb2) vs3
    | None => goes (called cb1 e1 n1 v vs1 ++ called cb2 e2 n2 v vs2) (calls_of cb1 + calls_of cb2) vs3
    end
  end.

(** The level [x] becomes the last sub-command of the first of [ls], which becomes the last
    one of the second, and so on: [y] is what the last of [ls] has become. Otherwise they
    only get the result code. *)
Inductive closes : level -> list level -> level -> Prop :=
| closes_done : forall x, closes x [] x
| closes_next : forall x l l' ls y, l_command l' = l_command l -> l_values l' = l_values l ->
    l_unprocessed l' = l_unprocessed l -> l_stop l' = l_stop l -> l_result l' = RC_SUCCESS ->
    l_subs l' = l_subs l ++ [x] -> closes l' ls y -> closes x (l :: ls) y.

(** How an option goes on after its callbacks. *)
Definition option_goes_on (cfg : settings) (st : pstate) (o : opt_data) (v : str)
  (out : outcome iter_result) (evs : list event) (k : nat) (vs : store) : Prop :=
  let r := mk_ir IC_OPTION (ItOption o) v in
  match o_type o with
  | OT_NORMAL => exists st', out = Ret r st' /\ became st st' evs k vs /\ same_end st st' /\
      ps_mode st' = ps_mode st
  | OT_LAST_OPTION => exists st', out = Ret r st' /\ became st st' evs k vs /\ same_end st st' /\
      ps_mode st' = ARGUMENTS_ONLY
  | OT_LAST_ARGUMENT => forall r' st', out = Ret r' st' ->
      r' = mk_ir IC_ERROR ItNone [] \/
      (r' = r /\ ps_events st' = ps_events st ++ evs /\ ps_calls st' = ps_calls st + k /\
       ((forall l, In l (ps_parents st) -> c_multi (l_command l) = false) ->
        l_values (ps_cur st') = vs /\ l_result (ps_cur st') = RC_SUCCESS /\
        l_stop (ps_cur st') = l_stop (ps_cur st) /\ l_subs (ps_cur st') = l_subs (ps_cur st) /\
        ps_mode st' = ST_DONE) /\
       (forall between l outer, ps_parents st = between ++ l :: outer ->
        (forall b, In b between -> c_multi (l_command b) = false) -> c_multi (l_command l) = true ->
        exists finished, l_command finished = ps_command st /\ l_values finished = vs /\
          l_subs finished = l_subs (ps_cur st) /\ l_unprocessed finished = l_unprocessed (ps_cur st) /\
          l_result finished = RC_SUCCESS /\ l_stop finished = l_stop (ps_cur st) /\
          closes finished (between ++ [l]) (ps_cur st') /\
          ps_command st' = l_command l /\ length (ps_parents st') = length outer /\
          ps_mode st' = ARGUMENTS_ONLY))
  | OT_STOP | OT_EXIT | OT_HELP => exists st' us,
      out = match s_auto_exit cfg, o_type o with
            | true, (OT_EXIT | OT_HELP) => Exits (s_normal_exit cfg) st'
            | _, _ => Ret r st'
            end /\
      became st st' (evs ++ match o_type o with OT_HELP => [EvHelp (ps_command st)] | _ => [] end) k vs /\
      l_unprocessed (ps_cur st') = l_unprocessed (ps_cur st) ++ us /\
      l_result (ps_cur st') = RC_STOP /\ l_stop (ps_cur st') = Some o /\ ps_mode st' = ST_DONE
  end.
