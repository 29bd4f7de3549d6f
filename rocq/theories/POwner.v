(** Property C83: what keeps what alive. *)
From Verif Require Import Base MOwner SOwner OwnerProofs OwnerProofs2.

(** A program: a const parser parses arguments with a sub-command; the results of the
    sub-command, all values of an argument, an iterator over them, a view of an option, a
    value and its text. The objects have the numbers 0 to 7. *)
Definition ex_calls : list call :=
  [K_parser; K_parse 0 true (Returned [P_enter]); K_subcommand 1 0; K_values 1; K_begin 3; K_view 2; K_value 1; K_get 6].
Definition ex_run (l : list call) : world := match do_calls no_world l with Ok w => w | _ => no_world end.
Ltac one_call l c :=
  eapply (reach_call (ex_run l) c A_done); [|cbn [proper]|vm_compute; reflexivity].
Ltac found := repeat eexists; vm_compute; (reflexivity || discriminate || lia).
Example ex_reachable : reachable (ex_run ex_calls).
Proof.
  one_call (firstn 7 ex_calls) (K_get 6); [|found].
  one_call (firstn 6 ex_calls) (K_value 1); [|found].
  one_call (firstn 5 ex_calls) (K_view 2); [|left; found].
  one_call (firstn 4 ex_calls) (K_begin 3); [|found].
  one_call (firstn 3 ex_calls) (K_values 1); [|left; found].
  one_call (firstn 2 ex_calls) (K_subcommand 1 0); [|found].
  one_call (firstn 1 ex_calls) (K_parse 0 true (Returned [P_enter])); [|found].
  one_call (firstn 0 ex_calls) K_parser; [|exact I].
  apply reach_start.
Qed.
(** The program when the results, the value and the parser are gone. *)
Definition ex_later : list call := ex_calls ++ [K_destroy 1; K_destroy 6; K_destroy 0].
Example ex_later_reachable : reachable (ex_run ex_later).
Proof.
  one_call (firstn 10 ex_later) (K_destroy 0); [|found].
  one_call (firstn 9 ex_later) (K_destroy 6); [|found].
  one_call (firstn 8 ex_later) (K_destroy 1); [|found].
  exact ex_reachable.
Qed.

(** C83: in a program that uses views and texts only while something keeps what they refer
    to, and iterators over values only while the values exist, no call reads or releases
    anything that does not exist. *)
Theorem C83_calls : forall w c, reachable w -> proper w c -> exists a w', do_call w c = Ok (a, w').
Proof. exact calls_succeed. Qed.
Print Assumptions C83_calls.
(** The view from the sub-command's results, and the iterator, when the results of the
    program itself are gone. *)
Example C83_calls_ex : reachable (ex_run ex_later) /\ proper (ex_run ex_later) (K_read 5) /\ proper (ex_run ex_later) (K_deref 4) /\
  proper (ex_run ex_later) (K_read 7).
Proof.
  split; [exact ex_later_reachable|]. split; [|split].
  - exists (H_view 1). split; [vm_compute; reflexivity|]. cbn [readable].
    eapply (kept_held _ 3 (B_results 1 1 [])); [|vm_compute; reflexivity|constructor]. eapply (kept_owned _ 2 (H_results (Some 3))); [vm_compute; reflexivity|constructor].
  - exists 4, (Some 2). split; [vm_compute; reflexivity|]. exists 3, (Some 2). vm_compute. reflexivity.
  - exists (H_text 2). split; [vm_compute; reflexivity|]. cbn [readable]. eapply (kept_owned _ 3 (H_values (Some 2) (Some 4))); [vm_compute; reflexivity|constructor].
Qed.

(** C83: what exists is what the objects of the program keep, directly or through the
    results of sub-commands: nothing is released too early, and nothing stays. *)
Theorem C83_kept : forall w b, reachable w -> (exists_ w b <-> kept w b).
Proof. exact live_iff. Qed.
Print Assumptions C83_kept.
(** The results of the program (2) are kept by the values, its parser's definition (0) is gone. *)
Example C83_kept_ex : reachable (ex_run ex_later) /\ exists_ (ex_run ex_later) 2 /\ ~ exists_ (ex_run ex_later) 0.
Proof. split; [exact ex_later_reachable|]. split; vm_compute; [discriminate|]. intros N. apply N. reflexivity. Qed.

Theorem C83_nothing_left : forall w, reachable w -> (forall i x, ~ is w i x) -> forall b, ~ exists_ w b.
Proof. exact nothing_left. Qed.
Print Assumptions C83_nothing_left.
Definition ex_end : list call := ex_later ++ [K_destroy 2; K_destroy 3; K_destroy 4; K_destroy 5; K_destroy 7].
Example C83_nothing_left_ex : reachable (ex_run ex_end) /\ (forall i x, ~ is (ex_run ex_end) i x) /\
  length (w_heap (ex_run ex_end)) = 5.
Proof.
  split; [|split].
  - one_call (firstn 15 ex_end) (K_destroy 7); [|found]. one_call (firstn 14 ex_end) (K_destroy 5); [|found].
    one_call (firstn 13 ex_end) (K_destroy 4); [|found]. one_call (firstn 12 ex_end) (K_destroy 3); [|found].
    one_call (firstn 11 ex_end) (K_destroy 2); [|found]. exact ex_later_reachable.
  - intros i x E. unfold is in E. replace (w_handles (ex_run ex_end)) with (repeat (@None handle) 8) in E by (vm_compute; reflexivity).
    apply nth_error_In in E. apply repeat_spec in E. discriminate E.
  - vm_compute. reflexivity.
Qed.

(** C83: a call changes no other objects than those it is for. *)
Theorem C83_others : forall w c a w' i x, reachable w -> proper w c -> do_call w c = Ok (a, w') -> is w i x -> ~ changes c i -> is w' i x.
Proof. exact others_same. Qed.
Print Assumptions C83_others.
Example C83_others_ex : proper (ex_run ex_calls) (K_destroy 1) /\
  do_call (ex_run ex_calls) (K_destroy 1) = Ok (A_done, ex_run (ex_calls ++ [K_destroy 1])) /\
  is (ex_run ex_calls) 3 (H_values (Some 2) (Some 4)) /\ ~ changes (K_destroy 1) 3.
Proof. split; [found|]. split; [vm_compute; reflexivity|]. split; [vm_compute; reflexivity|]. cbn. discriminate. Qed.

(** C83: what exists before and after a call is the same, except that results can get more
    sub-commands. *)
Theorem C83_unchanged : forall w c a w' b x y, reachable w -> proper w c -> do_call w c = Ok (a, w') ->
  contents w b = Some x -> contents w' b = Some y -> grown x y.
Proof. exact blocks_grow. Qed.
Print Assumptions C83_unchanged.
(** An iterator gets to a sub-command. *)
Definition ex_next : list call := [K_parser; K_iterator 0 false true; K_current 1].
Example C83_unchanged_ex : reachable (ex_run ex_next) /\ proper (ex_run ex_next) (K_next 1 [P_enter]) /\
  do_call (ex_run ex_next) (K_next 1 [P_enter]) = Ok (A_done, ex_run (ex_next ++ [K_next 1 [P_enter]])) /\
  contents (ex_run ex_next) 1 = Some (B_results 0 0 []) /\ contents (ex_run (ex_next ++ [K_next 1 [P_enter]])) 1 = Some (B_results 0 0 [2]).
Proof.
  split; [|split; [found|split; [vm_compute; reflexivity|split; vm_compute; reflexivity]]].
  one_call (firstn 2 ex_next) (K_current 1); [|found]. one_call (firstn 1 ex_next) (K_iterator 0 false true); [|found].
  one_call (firstn 0 ex_next) K_parser; [|exact I]. apply reach_start.
Qed.

(** C83: reading through an object gives what it refers to, and that exists; an object that
    refers to nothing throws or gives nothing. *)
Theorem C83_read : forall w i x a w', reachable w -> is w i x -> readable w x -> do_call w (K_read i) = Ok (a, w') ->
  w' = w /\ match refers w x with Some b => a = A_read b /\ exists_ w b | None => a = A_done \/ a = A_thrown end.
Proof. exact read_answer. Qed.
Print Assumptions C83_read.
Example C83_read_ex : reachable (ex_run ex_later) /\ is (ex_run ex_later) 3 (H_values (Some 2) (Some 4)) /\
  readable (ex_run ex_later) (H_values (Some 2) (Some 4)) /\ do_call (ex_run ex_later) (K_read 3) = Ok (A_read 2, ex_run ex_later).
Proof. split; [exact ex_later_reachable|]. split; [vm_compute; reflexivity|]. split; [exact I|vm_compute; reflexivity]. Qed.

(** C83: copies, moved objects, and the values, iterators and texts that are made from an
    object, refer to what that object refers to, and except for texts they keep it if that
    object does. *)
Theorem C83_derived : forall w c i x b w', reachable w -> proper w c -> derives i c -> is w i x -> refers w x = Some b ->
  do_call w c = Ok (A_done, w') -> exists y, new_object w w' y /\ refers w' y = Some b /\ (owns x b -> c <> K_get i -> owns y b).
Proof. exact derived_same. Qed.
Print Assumptions C83_derived.
Example C83_derived_ex : proper (ex_run ex_later) (K_deref 4) /\ derives 4 (K_deref 4) /\ is (ex_run ex_later) 4 (H_position 4 (Some 2)) /\
  refers (ex_run ex_later) (H_position 4 (Some 2)) = Some 2 /\
  do_call (ex_run ex_later) (K_deref 4) = Ok (A_done, ex_run (ex_later ++ [K_deref 4])).
Proof.
  split; [exists 4, (Some 2); split; [|exists 3, (Some 2)]; vm_compute; reflexivity|]. split; [constructor|]. repeat split; vm_compute; reflexivity.
Qed.
Theorem C83_assigned : forall w i j y w' a, reachable w -> proper w (K_assign i j) -> is w j y -> do_call w (K_assign i j) = Ok (a, w') ->
  (forall v p, y = H_position v p -> exists k q, is w k (H_values q (Some v))) ->
  exists z, is w' i z /\ refers w' z = refers w y /\ forall b, refers w y = Some b -> owns y b -> owns z b.
Proof. exact assigned. Qed.
Print Assumptions C83_assigned.
Example C83_assigned_ex : proper (ex_run ex_calls) (K_assign 1 2) /\ is (ex_run ex_calls) 2 (H_results (Some 3)) /\
  do_call (ex_run ex_calls) (K_assign 1 2) = Ok (A_done, ex_run (ex_calls ++ [K_assign 1 2])) /\
  is (ex_run ex_calls) 1 (H_results (Some 2)) /\ is (ex_run (ex_calls ++ [K_assign 1 2])) 1 (H_results (Some 3)).
Proof.
  split; [exists (H_results (Some 2)), (H_results (Some 3)); repeat split; vm_compute; discriminate|]. repeat split; vm_compute; reflexivity.
Qed.

(** C83: moving leaves an object that keeps nothing. *)
Theorem C83_moved : forall w i x w' a, is w i x -> do_call w (K_move i) = Ok (a, w') ->
  new_object w w' x /\ exists z, is w' i z /\ kind z = kind x /\ forall b, ~ owns z b.
Proof. exact moved. Qed.
Print Assumptions C83_moved.
Theorem C83_move_assigned : forall w i j y w' a, is w j y -> do_call w (K_move_assign i j) = Ok (a, w') ->
  is w' i y /\ (i <> j -> exists z, is w' j z /\ kind z = kind y /\ forall b, ~ owns z b).
Proof. exact move_assigned. Qed.
Print Assumptions C83_move_assigned.
Theorem C83_destroyed : forall w i w' a, do_call w (K_destroy i) = Ok (a, w') -> forall x, ~ is w' i x.
Proof. exact destroyed. Qed.
Print Assumptions C83_destroyed.
Example C83_moved_ex : is (ex_run ex_calls) 3 (H_values (Some 2) (Some 4)) /\
  do_call (ex_run ex_calls) (K_move 3) = Ok (A_done, ex_run (ex_calls ++ [K_move 3])) /\
  is (ex_run ex_calls) 2 (H_results (Some 3)) /\ do_call (ex_run ex_calls) (K_move_assign 1 2) = Ok (A_done, ex_run (ex_calls ++ [K_move_assign 1 2])) /\
  do_call (ex_run ex_calls) (K_destroy 3) = Ok (A_done, ex_run (ex_calls ++ [K_destroy 3])).
Proof. repeat split; vm_compute; reflexivity. Qed.

(** C83: results are new, those of a const parser have a definition of their own, and those
    of another parser have the parser's, which can't be used any more. *)
Theorem C83_const_parse : forall w i p w', reachable w -> proper w (K_parse i true p) -> do_call w (K_parse i true p) = Ok (A_done, w') ->
  exists r d c s, new_object w w' (H_results (Some r)) /\ contents w' r = Some (B_results d c s) /\ ~ exists_ w d /\ ~ exists_ w r.
Proof. exact const_parse_new. Qed.
Print Assumptions C83_const_parse.
Theorem C83_parse : forall w i d p w', reachable w -> is w i (H_parser (Some d)) -> do_call w (K_parse i false p) = Ok (A_done, w') ->
  exists r c s, new_object w w' (H_results (Some r)) /\ contents w' r = Some (B_results d c s) /\ ~ exists_ w r.
Proof. exact parse_same. Qed.
Print Assumptions C83_parse.
Theorem C83_iterator : forall w i k d f w', reachable w -> is w i (H_parser (Some d)) -> do_call w (K_iterator i k f) = Ok (A_done, w') ->
  exists it, new_object w w' (H_iterator (Some it)) /\ (k = false -> i_data it = d) /\ (k = true -> ~ exists_ w (i_data it)) /\
    exists r, i_results it = [r] /\ ~ exists_ w r /\ contents w' r = Some (B_results (i_data it) (i_data it) []).
Proof. exact new_iterator_of. Qed.
Print Assumptions C83_iterator.
Theorem C83_used_up : forall w i p f a w',
  do_call w (K_parse i false p) = Ok (a, w') \/ do_call w (K_iterator i false f) = Ok (a, w') ->
  (forall k q, do_call w' (K_parse i k q) = Ok (A_thrown, w')) /\ (forall k g, do_call w' (K_iterator i k g) = Ok (A_thrown, w')).
Proof.
  intros w i p f a w' [Q|Q]; [apply parse_uses_up in Q|apply iterator_uses_up in Q]; destruct (used_up_throws w' i Q) as (A & B & _); auto.
Qed.
Print Assumptions C83_used_up.
(** The parser has already parsed, as a const object; the second time it is used up, and a
    callback throws the third time. *)
Example C83_parse_ex : proper (ex_run ex_calls) (K_parse 0 true (Returned [P_enter; P_back 0])) /\
  do_call (ex_run ex_calls) (K_parse 0 true (Returned [P_enter; P_back 0])) = Ok (A_done, ex_run (ex_calls ++ [K_parse 0 true (Returned [P_enter; P_back 0])])) /\
  is (ex_run ex_calls) 0 (H_parser (Some 0)) /\
  do_call (ex_run ex_calls) (K_parse 0 false (Returned [P_enter])) = Ok (A_done, ex_run (ex_calls ++ [K_parse 0 false (Returned [P_enter])])) /\
  do_call (ex_run ex_calls) (K_parse 0 false (Thrown [P_enter])) = Ok (A_thrown, ex_run (ex_calls ++ [K_parse 0 false (Thrown [P_enter])])) /\
  do_call (ex_run ex_calls) (K_iterator 0 false true) = Ok (A_done, ex_run (ex_calls ++ [K_iterator 0 false true])).
Proof. split; [found|]. repeat split; vm_compute; reflexivity. Qed.

(** C83: the views of results, a value or values are of the definition those results are of. *)
Theorem C83_view : forall w i x r d c s w', reachable w -> is w i x -> results_of x = Some r -> contents w r = Some (B_results d c s) ->
  do_call w (K_view i) = Ok (A_done, w') -> new_object w w' (H_view d).
Proof. exact view_of. Qed.
Print Assumptions C83_view.
Example C83_view_ex : is (ex_run ex_later) 3 (H_values (Some 2) (Some 4)) /\ contents (ex_run ex_later) 2 = Some (B_results 1 1 [3]) /\
  do_call (ex_run ex_later) (K_view 3) = Ok (A_done, ex_run (ex_later ++ [K_view 3])).
Proof. repeat split; vm_compute; reflexivity. Qed.

(** C83: the results of a sub-command are those in the results of its parent. *)
Theorem C83_subcommand : forall w i n r d c s b w' a, is w i (H_results (Some r)) -> contents w r = Some (B_results d c s) -> nth_error s n = Some b ->
  do_call w (K_subcommand i n) = Ok (a, w') -> new_object w w' (H_results (Some b)).
Proof. exact subcommand_of. Qed.
Print Assumptions C83_subcommand.
Example C83_subcommand_ex : is (ex_run (firstn 2 ex_calls)) 1 (H_results (Some 2)) /\ contents (ex_run (firstn 2 ex_calls)) 2 = Some (B_results 1 1 [3]) /\  nth_error [3] 0 = Some 3 /\ do_call (ex_run (firstn 2 ex_calls)) (K_subcommand 1 0) = Ok (A_done, ex_run (firstn 3 ex_calls)).
Proof. repeat split; vm_compute; reflexivity. Qed.

(** C83: next() gives a view of something in the definition and a text of the current
    results, and the iterator keeps its definition and first results. *)
Theorem C83_next : forall w i it l w' a, reachable w -> is w i (H_iterator (Some it)) -> do_call w (K_next i l) = Ok (a, w') ->
  exists it', is w' i (H_iterator (Some it')) /\ i_data it' = i_data it /\ hd 0 (i_results it') = hd 0 (i_results it) /\
    is w' (length (w_handles w)) (H_view (i_data it)) /\ is w' (S (length (w_handles w))) (H_text (last (i_results it') 0)).
Proof. exact next_of. Qed.
Print Assumptions C83_next.
Example C83_next_ex : is (ex_run ex_next) 1 (H_iterator (Some (mk_impl 0 0 [1]))) /\  do_call (ex_run ex_next) (K_next 1 [P_enter; P_enter; P_back 1]) = Ok (A_done, ex_run (ex_next ++ [K_next 1 [P_enter; P_enter; P_back 1]])) /\
  is (ex_run (ex_next ++ [K_next 1 [P_enter; P_enter; P_back 1]])) 1 (H_iterator (Some (mk_impl 0 0 [1; 2]))).
Proof. repeat split; vm_compute; reflexivity. Qed.

(** Refuted: views and texts do not keep what they refer to. *)
Definition lost_view : list call := [K_parser; K_parse 0 false (Returned []); K_view 1; K_destroy 1].
Theorem C83_view_refuted : exists w i d, reachable w /\ is w i (H_view d) /\ do_call w (K_read i) = Dangling.
Proof.
  exists (ex_run lost_view), 2, 0. split; [|split; vm_compute; reflexivity].
  one_call (firstn 3 lost_view) (K_destroy 1); [|found]. one_call (firstn 2 lost_view) (K_view 1); [|left; found].
  one_call (firstn 1 lost_view) (K_parse 0 false (Returned [])); [|found]. one_call (firstn 0 lost_view) K_parser; [|exact I]. apply reach_start.
Qed.
Print Assumptions C83_view_refuted.
(** The text of a value when only the results of a sub-command are left. *)
Definition lost_text : list call :=
  [K_parser; K_parse 0 false (Returned [P_enter]); K_subcommand 1 0; K_value 1; K_get 3; K_destroy 3; K_destroy 1].
Theorem C83_text_refuted : exists w i t j r, reachable w /\ is w i (H_text t) /\ is w j (H_results (Some r)) /\ do_call w (K_read i) = Dangling.
Proof.
  exists (ex_run lost_text), 4, 1, 2, 2. split; [|split; [vm_compute; reflexivity|split; vm_compute; reflexivity]].
  one_call (firstn 6 lost_text) (K_destroy 1); [|found]. one_call (firstn 5 lost_text) (K_destroy 3); [|found].
  one_call (firstn 4 lost_text) (K_get 3); [|found]. one_call (firstn 3 lost_text) (K_value 1); [|found].
  one_call (firstn 2 lost_text) (K_subcommand 1 0); [|found].
  one_call (firstn 1 lost_text) (K_parse 0 false (Returned [P_enter])); [|found]. one_call (firstn 0 lost_text) K_parser; [|exact I]. apply reach_start.
Qed.
Print Assumptions C83_text_refuted.
(** An iterator over values keeps the results, but not the values. *)
Definition lost_position : list call := [K_parser; K_parse 0 false (Returned []); K_values 1; K_begin 2; K_destroy 2].
Theorem C83_position_refuted : exists w i v r, reachable w /\ is w i (H_position v (Some r)) /\ exists_ w r /\ do_call w (K_deref i) = Dangling.
Proof.
  exists (ex_run lost_position), 3, 2, 1. split; [|split; [vm_compute; reflexivity|split; [vm_compute; discriminate|vm_compute; reflexivity]]].
  one_call (firstn 4 lost_position) (K_destroy 2); [|found]. one_call (firstn 3 lost_position) (K_begin 2); [|found].
  one_call (firstn 2 lost_position) (K_values 1); [|left; found].
  one_call (firstn 1 lost_position) (K_parse 0 false (Returned [])); [|found]. one_call (firstn 0 lost_position) K_parser; [|exact I]. apply reach_start.
Qed.
Print Assumptions C83_position_refuted.
(** ParsedArguments that have been moved from or made without a parser can't be read. *)
Definition lost_results : list call := [K_parser; K_parse 0 false (Returned []); K_move 1].
Theorem C83_null_refuted : exists w i, reachable w /\ is w i (H_results None) /\ do_call w (K_read i) = Dangling.
Proof.
  exists (ex_run lost_results), 1. split; [|split; vm_compute; reflexivity].
  one_call (firstn 2 lost_results) (K_move 1); [|found].
  one_call (firstn 1 lost_results) (K_parse 0 false (Returned [])); [|found]. one_call (firstn 0 lost_results) K_parser; [|exact I]. apply reach_start.
Qed.
Print Assumptions C83_null_refuted.
