(** Specification used by POwner.v: which objects are kept alive by which, and what a
    program may call. *)
From Verif Require Import Base MOwner.

(** Object number [i] of the program. *)
Definition is (w : world) (i : nat) (x : handle) : Prop := nth_error (w_handles w) i = Some (Some x).
(** What is in the heap. *)
Definition contents (w : world) (b : nat) : option block :=
  match nth_error (w_heap w) b with Some (Some (_, x)) => Some x | _ => None end.
Definition exists_ (w : world) (b : nat) : Prop := contents w b <> None.

(** What an object of the program keeps alive itself. Views, texts, and values that have
    been moved from keep nothing. *)
Inductive owns : handle -> nat -> Prop :=
| own_parser : forall d, owns (H_parser (Some d)) d
| own_iterator : forall it, owns (H_iterator (Some it)) (i_data it)
| own_current : forall it r, In r (i_results it) -> owns (H_iterator (Some it)) r
| own_results : forall r, owns (H_results (Some r)) r
| own_value : forall r t, owns (H_value (Some r) t) r
| own_values : forall r v, owns (H_values (Some r) v) r
| own_vector : forall p v, owns (H_values p (Some v)) v
| own_position : forall v r, owns (H_position v (Some r)) r.
(** What a block keeps alive: results keep the definition and the results of sub-commands. *)
Inductive holds : block -> nat -> Prop :=
| hold_data : forall d c s, holds (B_results d c s) d
| hold_subcommand : forall d c s r, In r s -> holds (B_results d c s) r.
Inductive kept (w : world) : nat -> Prop :=
| kept_owned : forall i x b, is w i x -> owns x b -> kept w b
| kept_held : forall a x b, kept w a -> contents w a = Some x -> holds x b -> kept w b.

Definition kind (x : handle) : nat :=
  match x with
  | H_parser _ => 0 | H_iterator _ => 1 | H_results _ => 2 | H_value _ _ => 3 | H_values _ _ => 4
  | H_position _ _ => 5 | H_view _ => 6 | H_text _ => 7
  end.
Definition copyable (x : handle) : Prop := kind x <> 0 /\ kind x <> 1.

(** What may be read: results that are not null; views and texts while something else
    keeps what they refer to. *)
Definition readable (w : world) (x : handle) : Prop :=
  match x with
  | H_results p => p <> None
  | H_value None (Some t) => kept w t
  | H_position _ _ => False
  | H_view d => kept w d
  | H_text t => kept w t
  | _ => True
  end.
(** Calls that a program may make. An iterator over values needs the values it was made
    from, or what they have been moved to. *)
Definition proper (w : world) (c : call) : Prop :=
  match c with
  | K_parser | K_results => True
  | K_copy i => exists x, is w i x /\ copyable x
  | K_move i | K_destroy i => exists x, is w i x
  | K_assign i j => exists x y, is w i x /\ is w j y /\ kind x = kind y /\ copyable x
  | K_move_assign i j => exists x y, is w i x /\ is w j y /\ kind x = kind y
  | K_parse i _ _ | K_iterator i _ _ => exists p, is w i (H_parser p)
  | K_next i _ | K_current i => exists p, is w i (H_iterator p)
  | K_subcommand i n => exists r d c s, is w i (H_results (Some r)) /\ contents w r = Some (B_results d c s) /\ n < length s
  | K_value i => exists r, is w i (H_results (Some r))
  | K_values i => (exists r, is w i (H_results (Some r))) \/ (exists p t, is w i (H_value p t))
  | K_item i => exists p v, is w i (H_values p v)
  | K_begin i => exists p v, is w i (H_values p (Some v))
  | K_deref i => exists v p, is w i (H_position v p) /\ exists j q, is w j (H_values q (Some v))
  | K_get i => exists p t, is w i (H_value p t)
  | K_view i => (exists r, is w i (H_results (Some r))) \/ (exists p t, is w i (H_value p t)) \/ (exists r v, is w i (H_values (Some r) v))
  | K_read i => exists x, is w i x /\ readable w x
  end.

(** Worlds that a program can be in. *)
Inductive reachable : world -> Prop :=
| reach_start : reachable no_world
| reach_call : forall w c a w', reachable w -> proper w c -> do_call w c = Ok (a, w') -> reachable w'.

(** The objects that a call changes or destroys. *)
Definition changes (c : call) (i : nat) : Prop :=
  match c with
  | K_move k | K_assign k _ | K_destroy k | K_parse k false _ | K_iterator k false _ | K_next k _ => i = k
  | K_move_assign k j => i = k \/ i = j
  | _ => False
  end.
(** Results can only get more sub-commands. *)
Definition grown (x y : block) : Prop :=
  match x, y with
  | B_results d c s, B_results d' c' s' => d' = d /\ c' = c /\ exists more, s' = s ++ more
  | _, _ => y = x
  end.

(** The block with what an object gives access to: a definition, or results whose values
    are read. *)
Definition refers (w : world) (x : handle) : option nat :=
  match x with
  | H_parser p | H_results p => p
  | H_iterator (Some it) => Some (last (i_results it) 0)
  | H_iterator None | H_values _ None => None
  | H_value _ t => t
  | H_values _ (Some v) | H_position v _ => match contents w v with Some (B_values t) => Some t | _ => None end
  | H_view d => Some d
  | H_text t => Some t
  end.
(** Calls that make an object for the same values, from object [i]. *)
Inductive derives (i : nat) : call -> Prop :=
| der_copy : derives i (K_copy i)
| der_move : derives i (K_move i)
| der_current : derives i (K_current i)
| der_value : derives i (K_value i)
| der_values : derives i (K_values i)
| der_item : derives i (K_item i)
| der_begin : derives i (K_begin i)
| der_deref : derives i (K_deref i)
| der_get : derives i (K_get i).
(** The objects made by a call. *)
Definition new_object (w w' : world) (y : handle) : Prop := is w' (length (w_handles w)) y.
(** The results that an object keeps. *)
Definition results_of (x : handle) : option nat :=
  match x with H_results p | H_value p _ | H_values p _ => p | _ => None end.
