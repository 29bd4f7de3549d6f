(** Specification of what the order of the words of a command line means (C86). *)
From Verif Require Import Base MData MCounter MValues MParser
  SValues SCounter SParser SStep SEquiv SApi SLine.

(** [w] can have an influence on the value [id] of command [c]: it is an option that
    changes this value, or an argument and there is an argument definition with this
    value. *)
Definition concerns (c : cmd_data) (id : N) (w : word) : bool :=
  match w with
  | Optional o v => match option_change o v with Some _ => N.eqb (o_value_id o) id | None => false end
  | Positional _ => existsb (fun a => N.eqb (a_value_id a) id) (c_arguments c)
  end.

(** The arguments are the same, and the words that concern any one value are the same
    and in the same order. *)
Definition reordered (c : cmd_data) (ws ws' : list word) : Prop :=
  positionals ws = positionals ws' /\
  forall id, filter (concerns c id) ws = filter (concerns c id) ws'.

(** The same commands with reordered words. *)
Definition all_reordered (segs segs' : list (cmd_data * list word)) : Prop :=
  Forall2 (fun sg sg' => fst sg = fst sg' /\ reordered (fst sg) (snd sg) (snd sg')) segs segs'.

(** The words [x] and [y] have nothing to do with each other. *)
Definition independent (c : cmd_data) (x y : list word) : Prop :=
  (positionals x = [] \/ positionals y = []) /\
  forall id w w', In w x -> In w' y -> concerns c id w = true -> concerns c id w' = false.

(** No option has the value of an argument. *)
Definition separate (c : cmd_data) : Prop :=
  forall o a, In o (c_options c) -> In a (c_arguments c) -> o_value_id o <> a_value_id a.
