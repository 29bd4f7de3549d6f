(** Property C81: the tokenizers read only their own memory. *)
From Verif Require Import Base MOptIter MBuffer SBuffer BufferProofs.

(** Two iterators: the second is a copy of the first in the middle of "-abc"; then
    the rest of the group is split off in the first, and an argument is inserted. *)
Definition ex_calls : list call :=
  [CMake KStandard [$"-abc"; $"x"]; CNext 0; CCopy 0; CRemaining 0; CInsert 0 [$"y"]].
Definition ex_world (cs : list call) : world :=
  match do_calls no_world cs with Ok (_, w) => w | Bad => no_world end.
Definition ex_plain : plain_world :=
  [Some (mk_iter KStandard [$"-a"; $"y"; $"-bc"; $"x"] (At 2));
   Some (mk_iter KStandard [$"-abc"; $"x"] (At 2))].
(** The iterator in the middle of "-abc". *)
Definition ex_mid : opt_iter := mk_iter KStandard [$"-abc"; $"x"] (At 2).
Example ex_in_step_made : in_step (ex_world (firstn 3 ex_calls)) [Some ex_mid; Some ex_mid].
Proof.
  eapply (in_step_call (ex_world (firstn 2 ex_calls)) [Some ex_mid] (CCopy 0) ANothing); [|vm_compute; reflexivity|apply (plain_copy [Some ex_mid] 0); reflexivity|constructor].
  eapply (in_step_call (ex_world (firstn 1 ex_calls)) [Some (it_start KStandard [$"-abc"; $"x"])] (CNext 0)); [|vm_compute; reflexivity|eapply (plain_next [Some (it_start KStandard [$"-abc"; $"x"])] 0); vm_compute; reflexivity|constructor].
  eapply (in_step_call no_world [] (CMake KStandard [$"-abc"; $"x"])); [apply in_step_start|vm_compute; reflexivity|apply plain_make|constructor].
Qed.
Definition ex_split : plain_world :=
  [Some (mk_iter KStandard [$"-a"; $"-bc"; $"x"] (At 2)); Some ex_mid].
Example ex_in_step_split : in_step (ex_world (firstn 4 ex_calls)) ex_split.
Proof.
  eapply (in_step_call _ _ (CRemaining 0)); [exact ex_in_step_made|vm_compute; reflexivity|eapply (plain_remaining [Some ex_mid; Some ex_mid] 0); vm_compute; reflexivity|constructor; vm_compute; reflexivity].
Qed.
Example ex_in_step : in_step (ex_world ex_calls) ex_plain.
Proof.
  eapply (in_step_call _ _ (CInsert 0 [$"y"])); [exact ex_in_step_split|vm_compute; reflexivity|eapply (plain_insert ex_split 0); vm_compute; reflexivity|constructor].
Qed.

(** C81: whatever iterators are made, copied and destroyed, and whatever is called on
    them in whatever order, no call reads or writes memory that has been released or
    lies outside a vector, and every call gives what it gives when each iterator has
    arguments of its own. *)
Theorem C81_calls : forall w p c, in_step w p -> proper p c ->
  exists a w' b p', do_call w c = Ok (a, w') /\ plain_call p c b p' /\
    shows (w_blocks w') a b /\ in_step w' p'.
Proof. exact calls_right. Qed.
Print Assumptions C81_calls.
Example C81_calls_ex : in_step (ex_world ex_calls) ex_plain /\ proper ex_plain (CNext 1) /\
  plain_call ex_plain (CNext 1) (PToken (Some $"-b"))
    [Some (mk_iter KStandard [$"-a"; $"y"; $"-bc"; $"x"] (At 2));
     Some (mk_iter KStandard [$"-abc"; $"x"] (At 3))].
Proof.
  split; [exact ex_in_step|]. split; [eexists; reflexivity|].
  eapply (plain_next ex_plain 1 ex_mid _ (mk_iter KStandard [$"-abc"; $"x"] (At 3))); vm_compute; reflexivity.
Qed.

(** C81: the text given by current stays readable, and the same, until arguments are
    inserted into that iterator, it is destroyed, or its remaining arguments are asked
    for in the middle of an argument like "-abc". *)
Theorem C81_current_kept : forall i w p v w' w1 p', in_step w p ->
  do_call w (CCurrent i) = Ok (AView (Some v), w1) -> calm i w1 p w' p' ->
  exists text, plain_call p (CCurrent i) (PText (Some text)) p /\ view_text (w_blocks w') v = Some text.
Proof. exact current_kept. Qed.
Print Assumptions C81_current_kept.
(** The view is of the copy; the original is then changed and destroyed. *)
Example C81_current_kept_ex : in_step (ex_world ex_calls) ex_plain /\
  exists b w1, do_call (ex_world ex_calls) (CCurrent 1) = Ok (AView (Some (b, 0)), w1) /\
  exists w' p', calm 1 w1 ex_plain w' p' /\ nth_error p' 0 = Some None /\ view_text (w_blocks w') (b, 0) = Some $"-abc".
Proof.
  split; [exact ex_in_step|]. eexists _, _. split; [vm_compute; reflexivity|]. eexists _, _. split.
  - eapply (calm_call 1 _ _ (CInsert 0 [$"z"])); [vm_compute; reflexivity|eapply (plain_insert _ 0); vm_compute; reflexivity|intros M; inversion M|].
    eapply (calm_call 1 _ _ (CNextValue 1)); [vm_compute; reflexivity|eapply (plain_next_value _ 1); vm_compute; reflexivity|intros M; inversion M|].
    eapply (calm_call 1 _ _ (CDestroy 0)); [vm_compute; reflexivity|eapply (plain_destroy _ 0); vm_compute; reflexivity|intros M; inversion M|].
    apply calm_none.
  - split; vm_compute; reflexivity.
Qed.

(** C81: so do the remaining arguments. *)
Theorem C81_remaining_kept : forall i w p s w' w1 b p1 p', in_step w p ->
  do_call w (CRemaining i) = Ok (ASpan s, w1) -> plain_call p (CRemaining i) b p1 -> calm i w1 p1 w' p' ->
  exists l, b = PTexts l /\ sp_read (w_blocks w') s = Some l.
Proof. exact remaining_kept. Qed.
Print Assumptions C81_remaining_kept.
(** The span is of the copy, which is split first; the original is then destroyed. *)
Example C81_remaining_kept_ex : in_step (ex_world ex_calls) ex_plain /\
  exists s w1 p1, do_call (ex_world ex_calls) (CRemaining 1) = Ok (ASpan s, w1) /\
  plain_call ex_plain (CRemaining 1) (PTexts [$"-bc"; $"x"]) p1 /\
  exists w' p', calm 1 w1 p1 w' p' /\ nth_error p' 0 = Some None /\ sp_read (w_blocks w') s = Some [$"-bc"; $"x"].
Proof.
  split; [exact ex_in_step|]. eexists _, _, _. split; [vm_compute; reflexivity|].
  split; [eapply (plain_remaining _ 1); vm_compute; reflexivity|]. eexists _, _. split.
  - eapply (calm_call 1 _ _ (CNext 1)); [vm_compute; reflexivity|eapply (plain_next _ 1); vm_compute; reflexivity|intros M; inversion M|].
    eapply (calm_call 1 _ _ (CDestroy 0)); [vm_compute; reflexivity|eapply (plain_destroy _ 0); vm_compute; reflexivity|intros M; inversion M|].
    apply calm_none.
  - split; vm_compute; reflexivity.
Qed.

(** C81: not after arguments have been inserted: the span then refers to memory that
    has been released. *)
Theorem C81_insert_refuted : exists w p s w1 p1 a w',
  in_step w p /\ do_call w (CRemaining 0) = Ok (ASpan s, w1) /\ in_step w1 p1 /\
  sp_read (w_blocks w1) s = Some [$"-bc"; $"x"] /\
  do_call w1 (CInsert 0 [$"y"]) = Ok (a, w') /\ sp_read (w_blocks w') s = None.
Proof.
  exists (ex_world (firstn 3 ex_calls)), [Some ex_mid; Some ex_mid]. eexists _, (ex_world (firstn 4 ex_calls)), ex_split, _, _.
  split; [exact ex_in_step_made|]. split; [vm_compute; reflexivity|]. split; [exact ex_in_step_split|].
  split; [vm_compute; reflexivity|]. split; vm_compute; reflexivity.
Qed.
Print Assumptions C81_insert_refuted.

(** C81: each iterator has a block of its own, and there are no other blocks. *)
Theorem C81_blocks : forall w p, in_step w p ->
  (forall b, block (w_blocks w) b <> None <-> exists i, owns w i b) /\
  (forall i j b, owns w i b -> owns w j b -> i = j) /\
  (forall i, (exists b, owns w i b) <-> (exists it, nth_error p i = Some (Some it))).
Proof. exact blocks_owned. Qed.
Print Assumptions C81_blocks.
Example C81_blocks_ex : in_step (ex_world ex_calls) ex_plain /\
  exists b c, owns (ex_world ex_calls) 0 b /\ owns (ex_world ex_calls) 1 c /\ b <> c /\
    block (w_blocks (ex_world ex_calls)) b = Some [$"-a"; $"y"; $"-bc"; $"x"].
Proof.
  split; [exact ex_in_step|]. eexists _, _. split; [eexists; split; vm_compute; reflexivity|].
  split; [eexists; split; vm_compute; reflexivity|]. split; [discriminate|vm_compute; reflexivity].
Qed.

(** C81: when every iterator has been destroyed, every block has been released. *)
Theorem C81_released : forall w p, in_step w p -> Forall (eq None) p ->
  forall b, block (w_blocks w) b = None.
Proof. exact all_released. Qed.
Print Assumptions C81_released.
Example C81_released_ex : in_step (ex_world (ex_calls ++ [CDestroy 0; CDestroy 1])) [None; None] /\
  Forall (eq None) ([None; None] : plain_world) /\
  length (w_blocks (ex_world (ex_calls ++ [CDestroy 0; CDestroy 1]))) = 5.
Proof.
  split; [|split; [repeat constructor|vm_compute; reflexivity]].
  eapply (in_step_call (ex_world (ex_calls ++ [CDestroy 0])) [None; Some ex_mid] (CDestroy 1)); [|vm_compute; reflexivity|eapply (plain_destroy [None; Some ex_mid] 1); vm_compute; reflexivity|constructor].
  eapply (in_step_call _ _ (CDestroy 0)); [exact ex_in_step|vm_compute; reflexivity|eapply (plain_destroy ex_plain 0); vm_compute; reflexivity|constructor].
Qed.
