(** Properties of the tokenizers: C01, C02, C03, C06, C07, C08 (tokenizer part).
    The specification is in STok.v. *)
From Verif Require Import Base MOptIter STok TokProofs.

(** C01. Whatever is asked of a tokenizer, in whatever order, there is no access
    out of range and no exception. *)
Theorem C01_tokenizer_safe : forall k args ops, exists it,
  tok_run ops (it_start k args) = Ok it.
Proof. exact tokenizer_safe_proof. Qed.
Print Assumptions C01_tokenizer_safe.

Example C01_example :
  tok_run [TNext; TInsert [$"new"]; TNext; TNextValue; TRemaining; TNext]
    (it_start KStandard [$"-abc"; $"--x=1"; $""; $"y"]) =
  Ok (mk_iter KStandard [$"--x=1"; $""; $"y"] (At 4)).
Proof. vm_compute. reflexivity. Qed.

(** C02. The tokens of a command line in standard style are those of its
    arguments, in order. *)
Theorem C02_standard_tokens : forall args toks,
  drains (it_start KStandard args) toks <->
  exists tss, Forall2 std_arg_tokens args tss /\ toks = concat tss.
Proof. exact std_tokens_proof. Qed.
Print Assumptions C02_standard_tokens.

(** C02, continued: the end is always reached. *)
Theorem C02_standard_tokens_end : forall args, exists toks,
  drains (it_start KStandard args) toks.
Proof. exact std_drains_total. Qed.
Print Assumptions C02_standard_tokens_end.

Example C02_example :
  drains (it_start KStandard [$"-abc"; $"--x=1=2"; $"--"; $""; $"a=b"])
    [$"-a"; $"-b"; $"-c"; $"--x="; $"--"; $""; $"a=b"].
Proof.
  repeat (eapply drains_token; [vm_compute; reflexivity|]).
  eapply drains_end. vm_compute. reflexivity.
Qed.

(** C03. The tokens of a command line in slash or dash style. *)
Theorem C03_prefix_tokens : forall p args toks, p <> "="%char ->
  (drains (it_start (KPrefix p) args) toks <->
   Forall2 (prefix_arg_token p) args toks).
Proof. exact prefix_tokens_proof. Qed.
Print Assumptions C03_prefix_tokens.

Theorem C03_prefix_tokens_end : forall p args, p <> "="%char ->
  exists toks, drains (it_start (KPrefix p) args) toks.
Proof. exact prefix_drains_total. Qed.
Print Assumptions C03_prefix_tokens_end.

Example C03_example :
  drains (it_start (KPrefix "/"%char) [$"/abc"; $"/x=1=2"; $"/="; $"-a=b"])
    [$"/abc"; $"/x="; $"/="; $"-a=b"].
Proof.
  repeat (eapply drains_token; [vm_compute; reflexivity|]).
  eapply drains_end. vm_compute. reflexivity.
Qed.

(** C06. Standard style, after a token that is a whole argument (such as "--"),
    reading values gives the remaining arguments verbatim, once each. The token
    may not end in '=': then its (empty) value is still to be read. *)
Theorem C06_values_verbatim : forall it0 it t r it1,
  tok_reachable KStandard it0 ->
  it_next it0 = Ok (Some t, it) -> it_current it = Some t ->
  last_char t <> Some "="%char ->
  it_remaining it = Ok (r, it1) ->
  value_drains it r.
Proof.
  exact (fun it0 it t r it1 R =>
    next_values_verbatim_proof it0 it t r it1
      (proj1 (reachable_wf _ _ R)) (proj2 (reachable_wf _ _ R))).
Qed.
Print Assumptions C06_values_verbatim.

(** C06, continued: likewise after a value has been read. *)
Theorem C06_values_verbatim_after_value : forall it0 it v r it1,
  tok_reachable KStandard it0 ->
  it_next_value it0 = Ok (Some v, it) -> it_remaining it = Ok (r, it1) ->
  value_drains it r.
Proof.
  exact (fun it0 it v r it1 R =>
    values_after_value_proof it0 it v r it1 (proj2 (reachable_wf _ _ R))).
Qed.
Print Assumptions C06_values_verbatim_after_value.

Example C06_example :
  let it0 := it_start KStandard [$"--"; $"-x"; $"--y=2"; $""] in
  exists it it1, it_next it0 = Ok (Some ($"--"), it) /\
    it_current it = Some ($"--") /\
    it_remaining it = Ok ([$"-x"; $"--y=2"; $""], it1).
Proof. do 2 eexists. vm_compute. repeat split; reflexivity. Qed.

(** C06 does not hold in slash and dash style: every argument is followed by an
    empty one. *)
Theorem C06_values_verbatim_refuted : exists it0 it r it1,
  tok_reachable (KPrefix "/"%char) it0 /\
  it_next it0 = Ok (Some ($"/x"), it) /\ it_current it = Some ($"/x") /\
  it_remaining it = Ok (r, it1) /\
  ~ value_drains it r /\
  r = [$"a"; $"b"] /\ value_drains it [$"a"; $""; $"b"; $""].
Proof.
  exists (it_start (KPrefix "/"%char) [$"/x"; $"a"; $"b"]). do 3 eexists.
  split; [exists [$"/x"; $"a"; $"b"], []; reflexivity|].
  split; [vm_compute; reflexivity|]. split; [reflexivity|].
  split; [vm_compute; reflexivity|].
  assert (D : value_drains
                (mk_iter (KPrefix "/"%char) [$"/x"; $"a"; $"b"] Npos)
                [$"a"; $""; $"b"; $""]).
  { repeat (eapply vdrains_value; [vm_compute; reflexivity|]).
    eapply vdrains_end. vm_compute. reflexivity. }
  split; [|split; [reflexivity|exact D]].
  intros X. pose proof (value_drains_fun _ _ X _ D) as E. discriminate E.
Qed.
Print Assumptions C06_values_verbatim_refuted.

(** C07. Inserted arguments are read next, followed by what had not been read
    yet; and they come first among the remaining arguments. *)
Theorem C07_inserted_read_next : forall k it new it' r it1,
  tok_reachable k it -> it_insert it new = Ok it' ->
  it_remaining it = Ok (r, it1) ->
  (forall ts, drains it' ts <-> drains (it_start (it_kind it) (new ++ r)) ts) /\
  it_remaining it' = Ok (new ++ r, it').
Proof.
  exact (fun k it new it' r it1 R =>
    insert_next_wf it new it' r it1 (proj1 (reachable_wf _ _ R))).
Qed.
Print Assumptions C07_inserted_read_next.

Example C07_example : exists it it' it1,
  it_next (it_start KStandard [$"-ab"; $"y"]) = Ok (Some ($"-a"), it) /\
  it_insert it [$"-n"; $"5"] = Ok it' /\
  it_remaining it = Ok ([$"-b"; $"y"], it1) /\
  drains it' [$"-n"; $"5"; $"-b"; $"y"].
Proof.
  do 3 eexists. split; [vm_compute; reflexivity|].
  split; [vm_compute; reflexivity|]. split; [vm_compute; reflexivity|].
  repeat (eapply drains_token; [vm_compute; reflexivity|]).
  eapply drains_end. vm_compute. reflexivity.
Qed.

(** C07 does not extend to reading values: after an insertion in the middle of a
    group of flags, the next value is empty instead of the first inserted
    argument (this concerns LAST_OPTION options with a callback). *)
Theorem C07_inserted_value_next_refuted : exists it it',
  tok_reachable KStandard it /\ it_insert it [$"new"] = Ok it' /\
  exists it2, it_next_value it' = Ok (Some ($""), it2).
Proof.
  exists (mk_iter KStandard [$"-ab"] (At 2)). eexists.
  split; [exists [$"-ab"], [TNext]; reflexivity|].
  split; [vm_compute; reflexivity|]. eexists. vm_compute. reflexivity.
Qed.
Print Assumptions C07_inserted_value_next_refuted.

(** C08. The remaining arguments are exactly what has not been read: reading on
    gives the same tokens as reading the remaining arguments afresh. The last
    hypothesis excludes a group of flags in which '-' is the next flag. *)
Theorem C08_remaining_is_unread : forall k it r it1,
  tok_reachable k it -> it_remaining it = Ok (r, it1) ->
  (forall it2, it_next it = Ok (Some ($"--"), it2) -> it_kind it = KStandard ->
     hd_error r = Some ($"--")) ->
  forall ts, drains it ts <-> drains (it_start (it_kind it) r) ts.
Proof.
  exact (fun k it r it1 R =>
    remaining_is_unread_wf it r it1 (proj1 (reachable_wf _ _ R))).
Qed.
Print Assumptions C08_remaining_is_unread.

Example C08_example : exists it it1,
  tok_run [TNext; TNext; TNext] (it_start KStandard [$"x"; $"-abc"; $"y"]) = Ok it /\
  it_remaining it = Ok ([$"-c"; $"y"], it1) /\ drains it [$"-c"; $"y"].
Proof.
  do 2 eexists. split; [vm_compute; reflexivity|].
  split; [vm_compute; reflexivity|].
  repeat (eapply drains_token; [vm_compute; reflexivity|]).
  eapply drains_end. vm_compute. reflexivity.
Qed.

(** Without that hypothesis C08 fails: "-a-b" read up to "-a" has the tokens
    "--" and "-b" left, but the remaining argument is "--b". *)
Theorem C08_remaining_is_unread_refuted : exists it it1,
  tok_reachable KStandard it /\ it_remaining it = Ok ([$"--b"], it1) /\
  drains it [$"--"; $"-b"] /\ drains (it_start KStandard [$"--b"]) [$"--b"].
Proof.
  exists (mk_iter KStandard [$"-a-b"] (At 2)). eexists.
  split; [exists [$"-a-b"], [TNext]; reflexivity|].
  split; [vm_compute; reflexivity|]. split.
  - repeat (eapply drains_token; [vm_compute; reflexivity|]).
    eapply drains_end. vm_compute. reflexivity.
  - repeat (eapply drains_token; [vm_compute; reflexivity|]).
    eapply drains_end. vm_compute. reflexivity.
Qed.
Print Assumptions C08_remaining_is_unread_refuted.

(** C08, continued: without insertions, the remaining arguments are the end of
    the command line, possibly preceded by the unread flags [s] of a group. *)
Theorem C08_remaining_from_argv : forall k args ops it r it1,
  Forall (fun op => op = TNext \/ op = TNextValue \/ op = TCopy) ops ->
  tok_run ops (it_start k args) = Ok it ->
  it_remaining it = Ok (r, it1) ->
  suffix_of r args \/
  exists read p s rest, args = read ++ (p ++ s) :: rest /\
    r = ("-"%char :: s) :: rest /\ p <> [] /\ s <> [] /\
    nth_error (p ++ s) 1 <> Some "-"%char /\ k = KStandard.
Proof. exact remaining_from_argv_proof. Qed.
Print Assumptions C08_remaining_from_argv.
