(** C07: arguments inserted by callbacks. C74: the arguments are counted again. *)
From Verif Require Import Base MStrings MOptIter MData MCounter MValues MParser
  STok SIndex SDef SValues SCounter SParser SStep SLook SInsert SExamples ExProofs LookProofs InsertProofs.
Open Scope nat_scope.

(* ------------------------------------------------------------------------ *)
(** ** C07 *)

(** What the callbacks of an option insert is read next, followed by what had not been
    read before, including the rest of a flag group. The arguments inserted by the
    parser's option callback, which is called last, come before those of the option's
    own callback. If the option ends the parsing, all of them are unprocessed arguments. *)
Theorem C07_option : forall p q args st n t it o r st',
  let cfg := d_settings q in
  finish_parser p = Val q -> reached cfg (d_command q) args st n ->
  ps_mode st = ARGUMENTS_AND_OPTIONS -> it_next (ps_iter st) = Ok (Some t, it) ->
  looks_like_option (s_style cfg) t -> dependable cfg (ps_command st) t ->
  selects (s_case_insensitive cfg) (s_abbreviations cfg) (c_options (ps_command st)) t o ->
  next cfg st = Ret r st' -> ir_code r <> IC_ERROR ->
  exists it' vs1 vs2, let v := ir_value r in
    reads_value o it v it' /\
    changed (option_change o v) (l_values (ps_cur st)) vs1 /\
    (changes_nothing (o_callback o) (ps_calls st) -> vs2 = vs1) /\
    left_to_read (l_unprocessed (ps_cur st)) it'
      (new_of (option_cb cfg o) (ps_calls st + calls_of (o_callback o)) v vs2 ++
       new_of (o_callback o) (ps_calls st) v vs1) st'.
Proof. exact (fun p q args st n t it o r st' H => option_inserts_proof p q H args st n t it o r st'). Qed.
Print Assumptions C07_option.

(** The same for positional arguments. *)
Theorem C07_argument : forall p q args st n r st',
  let cfg := d_settings q in
  finish_parser p = Val q -> reached cfg (d_command q) args st n ->
  next cfg st = Ret r st' -> ir_code r = IC_ARGUMENT ->
  exists a it vs1 vs2, let v := ir_value r in
    ir_item r = ItArgument a /\ reads st (Some v) it /\
    changed (argument_change a v) (l_values (ps_cur st)) vs1 /\
    (changes_nothing (a_callback a) (ps_calls st) -> vs2 = vs1) /\
    left_to_read (l_unprocessed (ps_cur st)) it
      (new_of (argument_cb cfg a) (ps_calls st + calls_of (a_callback a)) v vs2 ++
       new_of (a_callback a) (ps_calls st) v vs1) st'.
Proof. exact (fun p q args st n r st' H => argument_inserts_proof p q H args st n r st'). Qed.
Print Assumptions C07_argument.

(** The example: SRC (1 to 3) and DST; -x inserts the arguments [new] if its callback is
    the first to be called, the argument callback of SRC inserts [new']. *)
Definition ex_counted (new new' : list str) : cmd_data := ex_command ($"c")
  [ex_argument ($"SRC") 1 3 (if is_empty new' then None else Some (cb_insert_once new'));
   ex_argument ($"DST") 1 1 None]
  [ex_option [$"-v"] [] ($"1") OP_APPEND OT_NORMAL true None;
   ex_option [$"-x"] [] ($"1") OP_APPEND OT_NORMAL true
     (if is_empty new then None else Some (cb_insert_once new));
   ex_option [$"--"] [] [] OP_NONE OT_LAST_OPTION true None;
   ex_option [$"--end"] [] [] OP_NONE OT_LAST_ARGUMENT true None]
  [] false.

(** "-xv b" and the parser's option callback, which is called second, inserts as well:
    "-v" "y" is read before "a", and the rest of the group after it. *)
Definition ex_both : parser_data := mk_data (ex_counted [$"a"] [])
  (mk_settings None (Some (fun _ n v vs => mk_eff [] [] false (if Nat.eqb n 1 then [$"-v"; $"y"] else [])))
     STANDARD false false false false false true 0 64) [] 0 [].

Example C07_parser_example :
  let q := completed ex_both in let cfg := d_settings q in
  let st := after ex_both [$"-xv"; $"b"] 0 in
  finish_parser ex_both = Val q /\ reached cfg (d_command q) [$"-xv"; $"b"] st 0%N /\
  ps_mode st = ARGUMENTS_AND_OPTIONS /\
  exists it o r st' it3,
  it_next (ps_iter st) = Ok (Some ($"-x"), it) /\ looks_like_option (s_style cfg) ($"-x") /\
  dependable cfg (ps_command st) ($"-x") /\
  selects (s_case_insensitive cfg) (s_abbreviations cfg) (c_options (ps_command st)) ($"-x") o /\
  next cfg st = Ret r st' /\ ir_code r <> IC_ERROR /\
  it_remaining (ps_iter st') = Ok ([$"-v"; $"y"; $"a"; $"-v"; $"b"], it3).
Proof.
  intros q cfg st. split; [vm_compute; reflexivity|]. split; [solve_reached_at|]. split; [reflexivity|].
  do 5 eexists. split; [vm_compute; reflexivity|].
  split; [exists "x"%char, []; reflexivity|].
  split; [split; discriminate|].
  split; [left; left; exists ($"-x"); split; [split; [vm_compute; right; left; reflexivity|vm_compute; left; reflexivity]|reflexivity]|].
  split; [vm_compute; reflexivity|]. split; [discriminate|vm_compute; reflexivity].
Qed.

(* ------------------------------------------------------------------------ *)
(** ** C74 *)

(** If the callbacks called for an item insert arguments, the arguments of the current
    command are counted again, and those that follow are distributed fairly: they are
    what follows in the fair distribution of as many arguments as there are now. For
    commands whose arguments need no counting ([predictable]) see C29 and C43. *)
Theorem C74_counted_again : forall p q args st n r st' rs,
  finish_parser p = Val q -> sound (d_command q) -> s_ignore_arguments (d_settings q) = false ->
  reached (d_settings q) (d_command q) args st n -> next (d_settings q) st = Ret r st' ->
  inserting_item (d_settings q) (ps_calls st) r ->
  ~ predictable (c_arguments (ps_command st')) ->
  no_insertions_from (d_settings q) (d_command q) (ps_calls st') ->
  ps_mode st' = ARGUMENTS_AND_OPTIONS ->
  Forall (fun l => c_multi (l_command l) = false) (ps_parents st') ->
  rest_of_command (d_settings q) st' rs ->
  Forall (foreseeable (d_settings q) (ps_command st')) rs ->
  distributed_from (c_arguments (ps_command st')) (count_after st n r st') (received rs).
Proof.
  exact (fun p q args st n r st' rs H Sd Ig => counted_again_proof p q H args Sd Ig st n r st' rs).
Qed.
Print Assumptions C74_counted_again.

(** The premises of C74_counted_again up to the first one on what follows. *)
Definition inserted_at (p q : parser_data) (args : list str) (st : pstate) (n : N) (r : iter_result) (st' : pstate) : Prop :=
  finish_parser p = Val q /\ sound (d_command q) /\ s_ignore_arguments (d_settings q) = false /\
  reached (d_settings q) (d_command q) args st n /\ next (d_settings q) st = Ret r st' /\
  inserting_item (d_settings q) (ps_calls st) r /\
  ~ predictable (c_arguments (ps_command st')) /\
  no_insertions_from (d_settings q) (d_command q) (ps_calls st').

Ltac solve_callbacks :=
  let x := fresh in let I := fresh in
  intros x I; vm_compute in I;
  repeat (destruct I as [<-|I]; [first [left; reflexivity|right; eexists; reflexivity]|]); destruct I.
Ltac solve_once := split; [solve_callbacks|split; [solve_callbacks|]].
Ltac solve_inserted :=
  split; [vm_compute; reflexivity|];
  split; [apply (sound_check_sound 5); vm_compute; reflexivity|];
  split; [vm_compute; reflexivity|];
  split; [solve_reached_at|];
  split; [vm_compute; reflexivity|];
  split; [first [left; eexists; split; [vm_compute; reflexivity|intros ?; vm_compute; discriminate]
                |right; eexists; split; [vm_compute; reflexivity|intros ?; vm_compute; discriminate]]|];
  split; [let X := fresh in intros X;
          refine (_ (X [_] _ eq_refl _ (or_introl eq_refl))); vm_compute; discriminate|].

(** "a -x b", where -x inserts "c" "-v" "d": a, c and d go to SRC and b to DST, although a
    and b were counted at first. *)
Definition ex_recount : parser_data := ex_data false false (ex_counted [$"c"; $"-v"; $"d"] []).

Example C74_example :
  let q := completed ex_recount in let args := [$"a"; $"-x"; $"b"] in
  exists r st' rs,
  inserted_at ex_recount q args (after ex_recount args 1) 1 r st' /\
  ps_mode st' = ARGUMENTS_AND_OPTIONS /\ ps_parents st' = [] /\
  rest_of_command (d_settings q) st' rs /\
  Forall (foreseeable (d_settings q) (ps_command st')) rs /\
  count_after (after ex_recount args 1) 1 r st' = 1%N /\
  map a_name (received rs) = [$"SRC"; $"SRC"; $"DST"].
Proof.
  intros q args. do 3 eexists. split.
  { solve_inserted. apply (inserts_once_sound 1); [|reflexivity|reflexivity].
    solve_once. intros d I. destruct I. }
  split; [vm_compute; reflexivity|]. split; [vm_compute; reflexivity|].
  split; [apply (items_sound _ 20); vm_compute; reflexivity|]. split.
  { repeat (apply Forall_cons || apply Forall_nil); cbv [foreseeable]; vm_compute;
      try (split; [discriminate|intros X; contradiction X; reflexivity]); try exact I; left; reflexivity. }
  split; vm_compute; reflexivity.
Qed.

(** The number of values that the argument [a] has received. *)
Definition values_given (a : arg_data) (vs : store) : N :=
  N.of_nat (length (filter (fun e => N.eqb (snd (snd e)) (a_argument_id a)) vs)).

(** What C74 does not say is that the arguments read before fit those read afterwards: in
    "a b -x", -x inserts "c". a goes to SRC, b to DST and c to DST as well, although
    DST takes one argument; and parse() is successful. *)
Theorem C74_maximum_refuted : exists p q args st a,
  finish_parser p = Val q /\ sound (d_command q) /\ parsed (d_settings q) (d_command q) args st /\
  l_result (ps_cur st) = RC_SUCCESS /\ ps_parents st = [] /\
  In a (c_arguments (d_command q)) /\ (a_max a < values_given a (l_values (ps_cur st)))%N.
Proof.
  pose (p := ex_data false false (ex_counted [$"c"] [])).
  exists p, (completed p), [$"a"; $"b"; $"-x"], (final p [$"a"; $"b"; $"-x"]). eexists.
  split; [vm_compute; reflexivity|]. split; [apply (sound_check_sound 5); vm_compute; reflexivity|].
  split; [exists 100; vm_compute; reflexivity|].
  split; [vm_compute; reflexivity|]. split; [vm_compute; reflexivity|].
  split; [right; left; reflexivity|]. vm_compute. reflexivity.
Qed.
Print Assumptions C74_maximum_refuted.

(** Likewise for the minimum: in "a b -x c d", -x inserts "--end", a LAST_ARGUMENT option.
    Then there are only two arguments, both of which have gone to SRC, and DST, which is
    mandatory, has none; parse() is successful. *)
Theorem C74_minimum_refuted : exists p q args st a,
  finish_parser p = Val q /\ sound (d_command q) /\ parsed (d_settings q) (d_command q) args st /\
  l_result (ps_cur st) = RC_SUCCESS /\ ps_parents st = [] /\
  In a (c_arguments (d_command q)) /\ (values_given a (l_values (ps_cur st)) < a_min a)%N.
Proof.
  pose (p := ex_data false false (ex_counted [$"--end"] [])).
  exists p, (completed p), [$"a"; $"b"; $"-x"; $"c"; $"d"], (final p [$"a"; $"b"; $"-x"; $"c"; $"d"]). eexists.
  split; [vm_compute; reflexivity|]. split; [apply (sound_check_sound 5); vm_compute; reflexivity|].
  split; [exists 100; vm_compute; reflexivity|].
  split; [vm_compute; reflexivity|]. split; [vm_compute; reflexivity|].
  split; [right; left; reflexivity|]. vm_compute. reflexivity.
Qed.
Print Assumptions C74_minimum_refuted.

(** After a LAST_OPTION option, everything is an argument, but when the arguments are
    counted again, what looks like an option is not counted. In "-- a -b -c", the callback
    of SRC inserts "x" after a: there are four arguments then, as many as permitted, but
    -b is one too many. *)
Theorem C74_last_option_refuted : exists p q args st n r st' rest c st2,
  inserted_at p q args st n r st' /\ ps_mode st' = ARGUMENTS_ONLY /\ ps_parents st' = [] /\
  value_drains (ps_iter st') rest /\
  (minima (c_arguments (ps_command st')) <= count_after st n r st' + N.of_nat (length rest)
     <= maxima (c_arguments (ps_command st')))%N /\
  parsed (d_settings q) (d_command q) args st2 /\ l_result (ps_cur st2) = RC_FAILURE /\
  In (EvError c (MsgTooManyArguments ($"-b"))) (ps_events st2).
Proof.
  pose (p := ex_data false false (ex_counted [] [$"x"])).
  exists p, (completed p), [$"--"; $"a"; $"-b"; $"-c"], (after p [$"--"; $"a"; $"-b"; $"-c"] 1), 0%N.
  do 2 eexists. exists [$"x"; $"-b"; $"-c"]. eexists. exists (final p [$"--"; $"a"; $"-b"; $"-c"]).
  split.
  { solve_inserted. apply (inserts_once_sound 1); [|reflexivity|reflexivity].
    solve_once. intros d I. destruct I. }
  split; [vm_compute; reflexivity|]. split; [vm_compute; reflexivity|].
  split; [repeat (eapply vdrains_value; [vm_compute; reflexivity|]); eapply vdrains_end; vm_compute; reflexivity|].
  split; [vm_compute; split; discriminate|].
  split; [exists 100; vm_compute; reflexivity|].
  split; vm_compute; [reflexivity|right; left; reflexivity].
Qed.
Print Assumptions C74_last_option_refuted.

(** If several sub-commands may be given, the name of the next one can be taken for an
    argument when the arguments are counted again: in "add a b -x rm", -x inserts "-v" and
    no argument at all, add has got its two mandatory arguments, and rm is a sub-command.
    But rm becomes an argument of add. Without the insertion it does not. *)
Definition ex_siblings (new : list str) : parser_data := ex_data false false
  (ex_command ($"tool") [] []
     [ex_command ($"add") [ex_argument ($"SRC") 1 3 None; ex_argument ($"DST") 1 1 None]
        [ex_option [$"-v"] [] ($"1") OP_APPEND OT_NORMAL true None;
         ex_option [$"-x"] [] ($"1") OP_APPEND OT_NORMAL true
           (if is_empty new then None else Some (cb_insert_once new))] [] false;
      ex_command ($"rm") [] [] [] false] true).

Theorem C74_siblings_refuted : exists p q args st n r st' st2 o v st3,
  inserted_at p q args st n r st' /\ ps_mode st' = ARGUMENTS_AND_OPTIONS /\
  next (d_settings q) st' = Ret (mk_ir IC_OPTION (ItOption o) v) st2 /\
  ps_command st2 = ps_command st /\ ps_parents st2 = ps_parents st /\
  (minima (c_arguments (ps_command st2)) <= n)%N /\ ~ no_sibling (d_settings q) st2 ($"rm") /\
  exists a, next (d_settings q) st2 = Ret (mk_ir IC_ARGUMENT (ItArgument a) ($"rm")) st3.
Proof.
  pose (p := ex_siblings [$"-v"]). pose (args := [$"add"; $"a"; $"b"; $"-x"; $"rm"]).
  exists p, (completed p), args, (after p args 3), 2%N. do 6 eexists.
  split.
  { solve_inserted. apply (inserts_once_sound 3); [|reflexivity|reflexivity].
    solve_once. intros d I. vm_compute in I.
    repeat (destruct I as [<-|I]; [solve_once; intros ? X; destruct X|]). destruct I. }
  split; [vm_compute; reflexivity|]. split; [vm_compute; reflexivity|].
  split; [vm_compute; reflexivity|]. split; [vm_compute; reflexivity|].
  split; [vm_compute; discriminate|]. split.
  - intros X. eapply X; [left; reflexivity|reflexivity|right; left; reflexivity|]. vm_compute. reflexivity.
  - eexists. vm_compute. reflexivity.
Qed.
Print Assumptions C74_siblings_refuted.

Example C74_siblings_example : exists e,
  parsed (d_settings (completed (ex_siblings []))) (d_command (completed (ex_siblings [])))
    [$"add"; $"a"; $"b"; $"-x"; $"rm"] e /\
  l_result (ps_cur e) = RC_SUCCESS /\
  map (fun t => map fst (map snd (l_values t))) (l_subs (toplevel e)) = [[$"a"; $"b"; $"1"]; []].
Proof.
  eexists. split; [exists 100; vm_compute; reflexivity|]. split; vm_compute; reflexivity.
Qed.
