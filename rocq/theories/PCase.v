(** C91: case_insensitive(true) keeps the meaning of command lines that are written as the
    definitions are. *)
From Verif Require Import Base MStrings MOptIter MData MCounter MValues MParser
  SStrings SIndex SDef SValues SCounter SParser SStep SLook SEquiv SApi SLine SAdd SCase SExamples
  LineProofs LineProofs2 LineProofs3 LineExamples AddProofs CaseProofs PLine PAdd.
Open Scope nat_scope.

(** The definitions are completed in the same way, unless a flag differs in case only from
    one that is added. *)
Theorem C91_definitions : forall p q q', finish_parser p = Val q -> finish_parser (any_case_parser p) = Val q' ->
  (forall c, within (d_command p) c -> clear_flags c) -> same_items (d_command q) (d_command q').
Proof. exact case_finish. Qed.
Print Assumptions C91_definitions.

(** A command line that is accepted is still accepted, with the same values. *)
Theorem C91_values : forall p q q' args ws subs e left hs,
  let cfg := d_settings q in let top := d_command q in
  finish_parser p = Val q -> finish_parser (any_case_parser p) = Val q' -> s_case_insensitive cfg = false ->
  regular cfg top -> regular (d_settings q') (d_command q') ->
  same_items top (d_command q') -> (forall c, within top c -> caseless c) ->
  reading (with_abbreviations false cfg) false top (Fresh args) ws subs e -> left_of e = Some left ->
  all_foreseen (with_abbreviations true cfg) ((top, ws) :: subs) ->
  succeeds cfg top args hs left ->
  exists hs', succeeds (d_settings q') (d_command q') args hs' left /\ Forall2 like_values hs hs'.
Proof.
  intros p q q' args ws subs e left hs cfg top H H' Cs Rg Rg' Si Ok R El Fs.
  exact (proj1 (case_success p q q' args ws subs e left H H' Cs Rg Rg' Si Ok R El Fs) hs left).
Qed.
Print Assumptions C91_values.

(** One whose flags and commands are known, but which is not accepted, is not accepted. *)
Theorem C91_refused : forall p q q' args ws subs e left,
  let cfg := d_settings q in let top := d_command q in
  finish_parser p = Val q -> finish_parser (any_case_parser p) = Val q' -> s_case_insensitive cfg = false ->
  regular cfg top -> regular (d_settings q') (d_command q') ->
  same_items top (d_command q') -> (forall c, within top c -> caseless c) ->
  reading (with_abbreviations false cfg) false top (Fresh args) ws subs e -> left_of e = Some left ->
  all_foreseen (with_abbreviations true cfg) ((top, ws) :: subs) ->
  (forall hs left0, ~ succeeds cfg top args hs left0) ->
  forall hs' left0, ~ succeeds (d_settings q') (d_command q') args hs' left0.
Proof.
  intros p q q' args ws subs e left cfg top H H' Cs Rg Rg' Si Ok R El Fs N hs' left0 S.
  destruct (proj2 (case_success p q q' args ws subs e left H H' Cs Rg Rg' Si Ok R El Fs)) as (hs & left1 & S').
  - eauto.
  - exact (N _ _ S').
Qed.
Print Assumptions C91_refused.

(** At the same time options can be added, and declared in another order. *)
Theorem C91_extended : forall p q p' q' args ws subs e left hs,
  let cfg := d_settings q in let cfg' := d_settings q' in let top := d_command q in let top' := d_command q' in
  finish_parser p = Val q -> finish_parser p' = Val q' -> regular cfg top -> regular cfg' top' ->
  like_style cfg cfg' -> all_apart cfg cfg' top -> extends (s_case_insensitive cfg') top top' ->
  reading (with_abbreviations false cfg) false top (Fresh args) ws subs e -> left_of e = Some left ->
  all_foreseen (with_abbreviations true cfg) ((top, ws) :: subs) ->
  succeeds cfg top args hs left ->
  exists hs', succeeds cfg' top' args hs' left /\ Forall2 like_values hs hs'.
Proof.
  intros p q p' q' args ws subs e left hs cfg cfg' top top' H H' Rg Rg' Ls Ap X R El Fs.
  exact (proj1 (extended_success_more p q p' q' args ws subs e left H H' Rg Rg' Ls Ap X R El Fs) hs left).
Qed.
Print Assumptions C91_extended.

(* ------------------------------------------------------------------------ *)
(** ** Examples *)

Definition safe_check (fs : list str) : bool := forallb (forallb safe_byte) fs.
Definition begins_lower (fs : list str) : bool :=
  forallb (fun f => forallb (fun f' => negb (str_eqb (firstn (S (length f)) (lower f')) (lower f ++ ["="%char]))) fs) fs.
Definition apart_check (ns : list str) : bool :=
  forallb (fun n1 => forallb (fun n2 => implb (str_eqb (lower n1) (lower n2)) (str_eqb n1 n2)) ns) ns.

Lemma caseless_check : forall c, safe_check (all_flags (c_options c)) && begins_lower (all_flags (c_options c)) &&
  apart_check (map c_name (c_commands c)) = true -> caseless c.
Proof.
  intros c B. apply andb_prop in B. destruct B as (B & B3). apply andb_prop in B. destruct B as (B1 & B2).
  unfold safe_check, begins_lower, apart_check in *. rewrite forallb_forall in B1, B2, B3. split; [|split].
  - intros _ f If x Ix. specialize (B1 f If). rewrite forallb_forall in B1. exact (B1 x Ix).
  - intros f f' If If' (r & E). specialize (B2 f If). rewrite forallb_forall in B2. specialize (B2 f' If'). unfold folded in E.
    rewrite E in B2. replace (S (length f)) with (length (lower f ++ ["="%char])) in B2.
    + rewrite firstn_app, Nat.sub_diag, firstn_all, app_nil_r, BaseProofs.str_eqb_refl in B2. discriminate B2.
    + rewrite app_length. unfold lower. rewrite map_length. cbn. lia.
  - intros d1 d2 I1 I2 E. specialize (B3 _ (in_map c_name _ _ I1)). rewrite forallb_forall in B3.
    specialize (B3 _ (in_map c_name _ _ I2)). unfold folded in E. rewrite E, BaseProofs.str_eqb_refl in B3. cbn in B3.
    apply BaseProofs.str_eqb_eq in B3. exact B3.
Qed.

Definition clear_check (fs : list str) : bool :=
  forallb (fun f => forallb (fun g => implb (str_eqb (lower f) (lower g)) (str_eqb f g)) generated_flags) fs.
Lemma clear_check_ok : forall c, clear_check (all_flags (c_options c)) = true -> clear_flags c.
Proof.
  intros c B f g If Ig E. unfold clear_check in B. rewrite forallb_forall in B. specialize (B f If). rewrite forallb_forall in B.
  specialize (B g Ig). unfold folded in E. rewrite E, BaseProofs.str_eqb_refl in B. apply BaseProofs.str_eqb_eq in B. exact B.
Qed.

Lemma within_alone : forall c x, c_commands c = [] -> within c x -> x = c.
Proof. intros c x E W. induction W as [|y z _ IW Iz]; [reflexivity|]. subst y. rewrite E in Iz. destruct Iz. Qed.

(** "-v a --out=x b" is accepted by both; so is "-V a --OUT=x b", by the second. *)
Definition copy_q' := completed (any_case_parser copy_p).
Example ex_case :
  let ws := [Optional (copy_o 0) []; Positional ($"a"); Optional (copy_o 1) ($"x"); Positional ($"b")] in
  let args := [$"-v"; $"a"; $"--out=x"; $"b"] in
  finish_parser copy_p = Val copy_q /\ finish_parser (any_case_parser copy_p) = Val copy_q' /\
  s_case_insensitive (d_settings copy_q) = false /\
  regular (d_settings copy_q) (d_command copy_q) /\ regular (d_settings copy_q') (d_command copy_q') /\
  (forall c, within (d_command copy_p) c -> clear_flags c) /\
  same_items (d_command copy_q) (d_command copy_q') /\ (forall c, within (d_command copy_q) c -> caseless c) /\
  reading (with_abbreviations false (d_settings copy_q)) false (d_command copy_q) (Fresh args) ws [] AtEnd /\
  all_foreseen (with_abbreviations true (d_settings copy_q)) [(d_command copy_q, ws)] /\
  exists hs, succeeds (d_settings copy_q) (d_command copy_q) args hs [].
Proof.
  cbv zeta. destruct ex_extended as (F & _ & Rg & _ & _ & _ & R & Fs & S). 
  split; [exact F|]. split; [vm_compute; reflexivity|]. split; [reflexivity|]. split; [exact Rg|].
  split; [apply regular_check_sound; vm_compute; reflexivity|].
  assert (Cl : forall c, within (d_command copy_p) c -> clear_flags c).
  { intros c W. apply within_alone in W; [|reflexivity]. subst c. apply clear_check_ok. vm_compute. reflexivity. }
  split; [exact Cl|]. split; [apply (C91_definitions copy_p); [exact F|vm_compute; reflexivity|exact Cl]|].
  split; [|split; [exact R|split; [exact Fs|exact S]]].
  intros c W. apply within_alone in W; [|vm_compute; reflexivity]. subst c. apply caseless_check. vm_compute. reflexivity.
Qed.

Example ex_case_upper :
  l_result (toplevel (final (any_case_parser copy_p) [$"-V"; $"a"; $"--OUT=x"; $"b"])) = RC_SUCCESS /\
  l_result (toplevel (final copy_p [$"-V"; $"a"; $"--OUT=x"; $"b"])) = RC_FAILURE.
Proof. vm_compute. split; reflexivity. Qed.

(** Two sub-commands whose names differ in case only are not refused, and the second one
    can no longer be given. *)
Definition names_p : parser_data := ex_data false false (ex_command ($"p") [] []
  [ex_command ($"Add") [] [] [] false; ex_command ($"add") [] [] [] false] false).
Theorem C91_commands_refuted : exists p q q' args st st',
  finish_parser p = Val q /\ finish_parser (any_case_parser p) = Val q' /\
  same_items (d_command q) (d_command q') /\
  parsed (d_settings q) (d_command q) args st /\ l_result (toplevel st) = RC_SUCCESS /\
  map (fun l => c_name (l_command l)) (l_subs (toplevel st)) = [$"add"] /\
  parsed (d_settings q') (d_command q') args st' /\ l_result (toplevel st') = RC_SUCCESS /\
  map (fun l => c_name (l_command l)) (l_subs (toplevel st')) = [$"Add"].
Proof.
  exists names_p, (completed names_p), (completed (any_case_parser names_p)), [$"add"]. do 2 eexists.
  split; [vm_compute; reflexivity|]. split; [vm_compute; reflexivity|]. split.
  - apply (C91_definitions names_p); [vm_compute; reflexivity|vm_compute; reflexivity|].
    assert (Q : forall c, within (d_command names_p) c -> In c (d_command names_p :: c_commands (d_command names_p))).
    { intros c W. induction W as [|y z _ IW Iz]; [left; reflexivity|]. destruct IW as [<-|[<-|[<-|[]]]]; [right; exact Iz|destruct Iz|destruct Iz]. }
    intros c W. apply clear_check_ok. destruct (Q c W) as [<-|[<-|[<-|[]]]]; vm_compute; reflexivity.
  - split; [exists 20; vm_compute; reflexivity|]. split; [vm_compute; reflexivity|]. split; [vm_compute; reflexivity|].
    split; [exists 20; vm_compute; reflexivity|]. split; vm_compute; reflexivity.
Qed.
Print Assumptions C91_commands_refuted.

(** An option -H takes the place of the generated -h. *)
Definition host_p : parser_data := ex_data false false (ex_command ($"p") []
  [ex_option [$"-H"] [] ($"1") OP_ASSIGN OT_NORMAL true None] [] false).
Theorem C91_help_refuted : exists p q q' args st st',
  finish_parser p = Val q /\ finish_parser (any_case_parser p) = Val q' /\
  (forall c, within (d_command q) c -> caseless c) /\
  parsed (d_settings q) (d_command q) args st /\ l_result (toplevel st) = RC_STOP /\ ps_events st <> [] /\
  parsed (d_settings q') (d_command q') args st' /\ l_result (toplevel st') = RC_SUCCESS /\ ps_events st' = [].
Proof.
  exists host_p, (completed host_p), (completed (any_case_parser host_p)), [$"-h"]. do 2 eexists.
  split; [vm_compute; reflexivity|]. split; [vm_compute; reflexivity|]. split.
  - intros c W. apply within_alone in W; [|vm_compute; reflexivity]. subst c. apply caseless_check. vm_compute. reflexivity.
  - split; [exists 20; vm_compute; reflexivity|]. split; [vm_compute; reflexivity|]. split; [vm_compute; discriminate|].
    split; [exists 20; vm_compute; reflexivity|]. split; vm_compute; reflexivity.
Qed.
Print Assumptions C91_help_refuted.
