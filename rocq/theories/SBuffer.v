(** Specification used by PBuffer.v: iterators that each have their own list of
    arguments (MOptIter.v), and what a program may do with iterators. *)
From Verif Require Import Base MOptIter MBuffer.

(** The iterators, in the order in which they were made; [None]: destroyed. *)
Definition plain_world := list (option opt_iter).
Definition replace (l : plain_world) (i : nat) (x : option opt_iter) : plain_world :=
  firstn i l ++ x :: skipn (S i) l.

Inductive plain_answer :=
| PNothing
| PToken (t : option str)
| PText (t : option str)
| PTexts (l : list str).

(** One call. A copy is an iterator like any other. *)
Inductive plain_call (p : plain_world) : call -> plain_answer -> plain_world -> Prop :=
| plain_make : forall k args, plain_call p (CMake k args) PNothing (p ++ [Some (it_start k args)])
| plain_copy : forall i it, nth_error p i = Some (Some it) ->
    plain_call p (CCopy i) PNothing (p ++ [Some it])
| plain_destroy : forall i it, nth_error p i = Some (Some it) ->
    plain_call p (CDestroy i) PNothing (replace p i None)
| plain_next : forall i it r it', nth_error p i = Some (Some it) -> it_next it = Ok (r, it') ->
    plain_call p (CNext i) (PToken r) (replace p i (Some it'))
| plain_next_value : forall i it r it', nth_error p i = Some (Some it) -> it_next_value it = Ok (r, it') ->
    plain_call p (CNextValue i) (PToken r) (replace p i (Some it'))
| plain_current : forall i it, nth_error p i = Some (Some it) ->
    plain_call p (CCurrent i) (PText (it_current it)) p
| plain_remaining : forall i it r it', nth_error p i = Some (Some it) -> it_remaining it = Ok (r, it') ->
    plain_call p (CRemaining i) (PTexts r) (replace p i (Some it'))
| plain_insert : forall i it new it', nth_error p i = Some (Some it) -> it_insert it new = Ok it' ->
    plain_call p (CInsert i new) PNothing (replace p i (Some it')).

(** What a view shows. *)
Definition view_text (h : blocks) (v : nat * nat) : option str :=
  match block h (fst v) with Some l => nth_error l (snd v) | None => None end.

(** The answer in memory shows the plain answer. *)
Inductive shows (h : blocks) : answer -> plain_answer -> Prop :=
| shows_nothing : shows h ANothing PNothing
| shows_token : forall t, shows h (AToken t) (PToken t)
| shows_no_text : shows h (AView None) (PText None)
| shows_text : forall v s, view_text h v = Some s -> shows h (AView (Some v)) (PText (Some s))
| shows_texts : forall s l, sp_read h s = Some l -> shows h (ASpan s) (PTexts l).

(** The memory and the plain iterators after the same calls; every answer has shown
    what it should. *)
Inductive in_step : world -> plain_world -> Prop :=
| in_step_start : in_step no_world []
| in_step_call : forall w p c a w' b p', in_step w p -> do_call w c = Ok (a, w') ->
    plain_call p c b p' -> shows (w_blocks w') a b -> in_step w' p'.

(** The iterator that a call is about has not been destroyed. *)
Definition proper (p : plain_world) (c : call) : Prop :=
  match c with
  | CMake _ _ => True
  | CCopy i | CDestroy i | CNext i | CNextValue i | CCurrent i | CRemaining i | CInsert i _ =>
      exists it, nth_error p i = Some (Some it)
  end.

(** Iterator [i] is in the middle of an argument like "-abc". *)
Definition within_group (p : plain_world) (i : nat) : Prop :=
  exists it a r k c, nth_error p i = Some (Some it) /\ it_kind it = KStandard /\ it_args it = a :: r /\
    it_pos it = At (S k) /\ S k < length a /\ nth_error a 1 = Some c /\ c <> c_dash.

(** A call that may move the arguments of iterator [i]. *)
Inductive moves (p : plain_world) (i : nat) : call -> Prop :=
| moves_insert : forall new, moves p i (CInsert i new)
| moves_destroy : moves p i (CDestroy i)
| moves_remaining : within_group p i -> moves p i (CRemaining i).

(** Calls none of which moves the arguments of iterator [i]. *)
Inductive calm (i : nat) : world -> plain_world -> world -> plain_world -> Prop :=
| calm_none : forall w p, calm i w p w p
| calm_call : forall w p c a w1 b p1 w' p', do_call w c = Ok (a, w1) -> plain_call p c b p1 ->
    ~ moves p i c -> calm i w1 p1 w' p' -> calm i w p w' p'.

(** The block of iterator [i]. *)
Definition owns (w : world) (i b : nat) : Prop :=
  exists t, nth_error (w_iters w) i = Some (Some t) /\ tk_all t = b.
