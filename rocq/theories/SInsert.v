(** Specification used by PInsert.v: arguments inserted by callbacks. *)
From Verif Require Import Base MOptIter MData MCounter MValues MParser STok SIndex SDef SCounter SParser SStep SLook.

(** With the tokenizer [it] at the end of an item, the arguments [new] are inserted:
    they are read next, followed by what was left. If parsing is over, they become
    unprocessed arguments, again followed by what was left. *)
Definition left_to_read (old : list str) (it : opt_iter) (new : list str) (st' : pstate) : Prop :=
  exists rest it2, it_remaining it = Ok (rest, it2) /\
  match ps_mode st' with
  | ST_DONE => l_unprocessed (ps_cur st') = old ++ new ++ rest
  | _ =>
      (new = [] -> ps_iter st' = it) /\
      (new <> [] ->
         (exists it3, it_remaining (ps_iter st') = Ok (new ++ rest, it3)) /\
         (forall ts, drains (ps_iter st') ts <-> drains (it_start (it_kind it) (new ++ rest)) ts) /\
         (it_kind it = KStandard -> value_drains it rest -> value_drains (ps_iter st') (new ++ rest)))
  end.

(** The callback, called as the [n]-th with the value [v], inserts arguments. *)
Definition inserting (cb : option callback) (n : nat) (v : str) : Prop :=
  exists f, cb = Some f /\ forall vs, eff_new (f n v vs) <> [].

(** One of the callbacks that are called for the item inserts arguments; [n] callbacks
    have been called before. *)
Definition inserting_item (cfg : settings) (n : nat) (r : iter_result) : Prop :=
  match ir_code r, ir_item r with
  | IC_OPTION, ItOption o => inserting (o_callback o) n (ir_value r) \/
      inserting (option_cb cfg o) (n + calls_of (o_callback o)) (ir_value r)
  | IC_ARGUMENT, ItArgument a => inserting (a_callback a) n (ir_value r) \/
      inserting (argument_cb cfg a) (n + calls_of (a_callback a)) (ir_value r)
  | _, _ => False
  end.

(** From the [n]-th call on, callbacks insert nothing. *)
Definition no_insertions_from (cfg : settings) (top : cmd_data) (n : nat) : Prop :=
  forall f, callback_of cfg top f -> forall m v vs, n <= m -> eff_new (f m v vs) = [].

(** After [k] arguments, the arguments [got] are those that follow in a fair
    distribution of all of them. *)
Definition distributed_from (args : list arg_data) (k : N) (got : list arg_data) : Prop :=
  exists before, N.of_nat (length before) = k /\ distributed args (before ++ got).
