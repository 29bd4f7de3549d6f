(** C43: looking ahead. C65: what is in order is accepted. *)
From Verif Require Import Base MStrings MOptIter MData MCounter MValues MParser
  SIndex SDef SValues SCounter SParser SStep SLook SExamples ExProofs LookProofs AcceptProofs.
Open Scope nat_scope.

(** From the moment a command is entered (the main command, a sub-command, or the next
    of several sub-commands) until it ends, its positional arguments are distributed
    over its definitions as if their number had been known from the beginning: the
    distribution is the fair one for the number of arguments that are in fact read,
    whatever options, option values, unknown options, LAST_OPTION, LAST_ARGUMENT, STOP
    and HELP options and names of further commands are on the command line. *)
Theorem C43_distribution : forall p q args st rs,
  finish_parser p = Val q -> sound (d_command q) ->
  no_insertions (d_settings q) (d_command q) -> s_ignore_arguments (d_settings q) = false ->
  entered (d_settings q) (d_command q) args st -> rest_of_command (d_settings q) st rs ->
  Forall (foreseeable (d_settings q) (ps_command st)) rs ->
  distributed (c_arguments (ps_command st)) (received rs).
Proof. exact look_ahead_proof. Qed.
Print Assumptions C43_distribution.

(** Two of the conditions of [foreseeable] are needed here, for the third one see
    C65_beginning_refuted. The definition used below has the arguments A (any number up
    to 5) and B (exactly one). *)
Definition ex_ab (abbreviations : bool) (opts : list opt_data) : parser_data :=
  mk_data (ex_command ($"p") [ex_argument ($"A") 0 5 None; ex_argument ($"B") 1 1 None] opts [] false)
    (mk_settings None None STANDARD false abbreviations false false false (negb abbreviations) 0 64) [] 0 [].

Definition misjudged (q : parser_data) (st : pstate) (rs : list iter_result) : Prop :=
  sound (d_command q) /\ no_insertions (d_settings q) (d_command q) /\
  s_ignore_arguments (d_settings q) = false /\ rest_of_command (d_settings q) st rs /\
  ~ distributed (c_arguments (ps_command st)) (received rs).

Ltac solve_misjudged :=
  split; [apply (sound_check_sound 5); vm_compute; reflexivity|];
  split; [intros f C; exfalso; revert f C; apply no_callbacks_sound with (n := 5); vm_compute; reflexivity|];
  split; [vm_compute; reflexivity|];
  split; [apply (items_sound _ 20); vm_compute; reflexivity|];
  apply not_distributed;
  [ intros a I; vm_compute in I; repeat (destruct I as [<-|I]; [vm_compute; split; discriminate|]); destruct I
  | vm_compute; reflexivity | vm_compute; split; discriminate | vm_compute; discriminate ].

(** Arguments after an EXIT option are counted: in "a -e b", a goes to A and B gets
    nothing. *)
Theorem C43_exit_refuted : exists p q args st rs,
  finish_parser p = Val q /\ entered (d_settings q) (d_command q) args st /\ misjudged q st rs /\
  s_abbreviations (d_settings q) = false /\
  (forall r o, In r rs -> ir_item r = ItOption o -> o_argument o = []).
Proof.
  pose (p := ex_ab false [ex_option [$"-e"] [] [] OP_NONE OT_EXIT true None]).
  exists p, (completed p), [$"a"; $"-e"; $"b"], (after p [$"a"; $"-e"; $"b"] 0). eexists.
  split; [vm_compute; reflexivity|]. split; [apply entered_start; vm_compute; reflexivity|].
  split; [solve_misjudged|]. split; [reflexivity|].
  intros r o I. vm_compute in I. repeat (destruct I as [<-|I]; [intros E; vm_compute in E; inversion E; reflexivity|]).
  destruct I.
Qed.
Print Assumptions C43_exit_refuted.

(** An option that has an argument but reads no value hides the next argument from
    look-ahead: in "a -n --stop b", the argument b after the STOP option is counted. *)
Theorem C43_unread_refuted : exists p q args st rs,
  finish_parser p = Val q /\ entered (d_settings q) (d_command q) args st /\ misjudged q st rs /\
  s_abbreviations (d_settings q) = false /\
  (forall r o, In r rs -> ir_item r = ItOption o -> o_type o <> OT_EXIT).
Proof.
  pose (p := ex_ab false [ex_option [$"-n"] ($"X") [] OP_NONE OT_NORMAL true None;
                          ex_option [$"--stop"] [] [] OP_NONE OT_STOP true None]).
  exists p, (completed p), [$"a"; $"-n"; $"--stop"; $"b"], (after p [$"a"; $"-n"; $"--stop"; $"b"] 0). eexists.
  split; [vm_compute; reflexivity|]. split; [apply entered_start; vm_compute; reflexivity|].
  split; [solve_misjudged|]. split; [reflexivity|].
  intros r o I. vm_compute in I. repeat (destruct I as [<-|I]; [intros E; vm_compute in E; inversion E; discriminate|]).
  destruct I.
Qed.
Print Assumptions C43_unread_refuted.

(** Two sub-commands, the second entered after the first is complete: mv [-s SUFFIX]
    SOURCE(0..5) TARGET; five arguments with options among them for the first, one for
    the second. *)
Definition ex_mv : parser_data := mk_data
  (ex_command ($"p") []
     [] [ex_command ($"mv") [ex_argument ($"SOURCE") 0 5 None; ex_argument ($"TARGET") 1 1 None]
           [ex_option [$"-s"] ($"SUFFIX") [] OP_ASSIGN OT_NORMAL true None;
            ex_option [$"--"] [] [] OP_NONE OT_LAST_OPTION true None] [] false] true)
  (mk_settings None None STANDARD false false true false false true 0 64) [] 0 [].
Ltac solve_foreseeable :=
  vm_compute; repeat (apply Forall_cons; [
    first [exact I | left; reflexivity
          | split; [discriminate|intros _; split; [left|]; reflexivity]
          | split; [discriminate|intros X; exfalso; apply X; reflexivity]]|]);
  apply Forall_nil.
Definition ex_mv_args : list str :=
  [$"mv"; $"a"; $"-smv"; $"b"; $"-x"; $"-s"; $"--"; $"--"; $"-c"; $"mv"; $"x"].
Definition ex_mv_items (n : nat) : list iter_result :=
  match items (d_settings (completed ex_mv)) 20 (after ex_mv ex_mv_args n) with Some rs => rs | None => [] end.
Example C43_example :
  finish_parser ex_mv = Val (completed ex_mv) /\ sound (d_command (completed ex_mv)) /\
  no_insertions (d_settings (completed ex_mv)) (d_command (completed ex_mv)) /\
  s_ignore_arguments (d_settings (completed ex_mv)) = false /\
  (forall n, In n [0; 1; 9] ->
    entered (d_settings (completed ex_mv)) (d_command (completed ex_mv)) ex_mv_args (after ex_mv ex_mv_args n) /\
    rest_of_command (d_settings (completed ex_mv)) (after ex_mv ex_mv_args n) (ex_mv_items n) /\
    Forall (foreseeable (d_settings (completed ex_mv)) (ps_command (after ex_mv ex_mv_args n))) (ex_mv_items n)) /\
  map a_name (received (ex_mv_items 1)) = [$"SOURCE"; $"SOURCE"; $"TARGET"] /\
  map a_name (received (ex_mv_items 9)) = [$"TARGET"].
Proof.
  split; [vm_compute; reflexivity|]. split; [apply (sound_check_sound 5); vm_compute; reflexivity|].
  split; [intros f C; exfalso; revert f C; apply no_callbacks_sound with (n := 5); vm_compute; reflexivity|].
  split; [reflexivity|]. split; [|vm_compute; split; reflexivity].
  assert (R0 : exists m, reached (d_settings (completed ex_mv)) (d_command (completed ex_mv)) ex_mv_args
                           (after ex_mv ex_mv_args 0) m) by solve_reached.
  assert (R8 : exists m, reached (d_settings (completed ex_mv)) (d_command (completed ex_mv)) ex_mv_args
                           (after ex_mv ex_mv_args 8) m) by solve_reached.
  destruct R0 as (m0 & R0), R8 as (m8 & R8).
  intros n [<-|[<-|[<-|[]]]].
  - split; [apply entered_start; vm_compute; reflexivity|].
    split; [apply (items_sound _ 20); vm_compute; reflexivity|].
    solve_foreseeable.
  - split; [|split; [apply (items_sound _ 20); vm_compute; reflexivity|]].
    + eapply entered_command; [exact R0|vm_compute; reflexivity|reflexivity].
    + solve_foreseeable.
  - split; [|split; [apply (items_sound _ 20); vm_compute; reflexivity|]].
    + eapply entered_command; [exact R8|vm_compute; reflexivity|reflexivity].
    + solve_foreseeable.
Qed.

(* ------------------------------------------------------------------------ *)
(** ** C65 *)

(** As long as a command has received fewer arguments than the sum of the maxima, it
    accepts another one (unless it is the name of a further command). [rs] are the items
    of the command so far. *)
Theorem C65_argument : forall p q args st rs st' t it r s',
  let cfg := d_settings q in
  finish_parser p = Val q -> sound (d_command q) ->
  no_insertions cfg (d_command q) -> s_ignore_arguments cfg = false ->
  entered cfg (d_command q) args st -> proceeds cfg st rs st' ->
  Forall (foreseeable cfg (ps_command st)) rs ->
  reads st' (Some t) it -> (ps_mode st' = ARGUMENTS_ONLY \/ ~ looks_like_option (s_style cfg) t) ->
  c_commands (ps_command st) = [] -> no_beginning cfg (ps_command st) t -> no_sibling cfg st' t ->
  (N.of_nat (length (received rs)) < maxima (c_arguments (ps_command st)))%N ->
  next cfg st' = Ret r s' ->
  exists a, In a (c_arguments (ps_command st)) /\ r = mk_ir IC_ARGUMENT (ItArgument a) t.
Proof.
  exact (fun p q args st rs st' t it r s' H Sd Hn Ig => accept_argument_proof p q H Sd Hn Ig args st rs st' t it r s').
Qed.
Print Assumptions C65_argument.

(** When the command line is at its end, the number of arguments is within the limits,
    the last definition has received one of them if they had to be counted, all
    mandatory options of the command have values and a sub-command was given if one is
    required, then parsing succeeds: no error is reported and all open commands get the
    result SUCCESS. *)
Theorem C65_success : forall p q args st rs st' it,
  let cfg := d_settings q in
  finish_parser p = Val q -> sound (d_command q) ->
  no_insertions cfg (d_command q) -> s_ignore_arguments cfg = false ->
  entered cfg (d_command q) args st -> proceeds cfg st rs st' ->
  Forall (foreseeable cfg (ps_command st)) rs ->
  reads st' None it -> options_given st' ->
  (c_require (ps_command st) = Some true -> l_subs (ps_cur st') <> []) ->
  (minima (c_arguments (ps_command st)) <= N.of_nat (length (received rs)) <= maxima (c_arguments (ps_command st)))%N ->
  last_used (c_arguments (ps_command st)) (N.of_nat (length (received rs))) ->
  exists s', next cfg st' = Ret (mk_ir IC_DONE ItNone []) s' /\ ps_mode s' = ST_DONE /\
    ps_events s' = ps_events st' /\ map l_values (open_levels s') = map l_values (open_levels st') /\
    forall l, In l (open_levels s') -> l_result l = RC_SUCCESS.
Proof.
  exact (fun p q args st rs st' it H Sd Hn Ig => accept_end_proof p q H Sd Hn Ig args st rs st' it).
Qed.
Print Assumptions C65_success.

(** The name of a further sub-command starts it as soon as the current command has
    received enough arguments. *)
Theorem C65_sibling : forall p q args st rs st' t it d r s',
  let cfg := d_settings q in
  finish_parser p = Val q -> sound (d_command q) ->
  no_insertions cfg (d_command q) -> s_ignore_arguments cfg = false ->
  entered cfg (d_command q) args st -> proceeds cfg st rs st' ->
  Forall (foreseeable cfg (ps_command st)) rs ->
  reads st' (Some t) it -> (ps_mode st' = ARGUMENTS_ONLY \/ ~ looks_like_option (s_style cfg) t) ->
  c_commands (ps_command st) = [] -> no_beginning cfg (ps_command st) t -> sibling cfg st' t d ->
  (minima (c_arguments (ps_command st)) <= N.of_nat (length (received rs)) <= maxima (c_arguments (ps_command st)))%N ->
  last_used (c_arguments (ps_command st)) (N.of_nat (length (received rs))) ->
  next cfg st' = Ret r s' ->
  ir_code r = IC_COMMAND /\ exists d', ir_item r = ItCommand d' /\ sibling cfg st' t d' /\ ps_command s' = d'.
Proof.
  exact (fun p q args st rs st' t it d r s' H Sd Hn Ig =>
    accept_sibling_proof p q H Sd Hn Ig args st rs st' t it d r s').
Qed.
Print Assumptions C65_sibling.

(** The conditions are needed. [rejected]: parsing the line fails although the limits
    for the number of arguments are [lo] and [hi], and the line has [k] arguments. *)
Definition rejected (q : parser_data) (args : list str) : Prop :=
  sound (d_command q) /\ no_insertions (d_settings q) (d_command q) /\
  exists st, parsed (d_settings q) (d_command q) args st /\ l_result (toplevel st) = RC_FAILURE.

Ltac solve_rejected :=
  split; [apply (sound_check_sound 5); vm_compute; reflexivity|];
  split; [intros f C; exfalso; revert f C; apply no_callbacks_sound with (n := 5); vm_compute; reflexivity|];
  eexists; split; [exists 100; vm_compute; reflexivity|vm_compute; reflexivity].

(** [A] [B] with one argument: too few arguments, although no argument is mandatory. *)
Theorem C65_last_unused_refuted : exists p q x,
  finish_parser p = Val q /\ rejected q [x] /\ ~ looks_like_option (s_style (d_settings q)) x /\
  minima (c_arguments (d_command q)) = 0%N /\ maxima (c_arguments (d_command q)) = 2%N /\
  (forall o, In o (c_options (d_command q)) -> o_optional o = true).
Proof.
  pose (p := ex_data false false (ex_command ($"p") [ex_argument ($"A") 0 1 None; ex_argument ($"B") 0 1 None] [] [] false)).
  exists p, (completed p), ($"x"). split; [vm_compute; reflexivity|]. split; [solve_rejected|].
  split; [intros (c & r & E); discriminate|]. split; [reflexivity|]. split; [reflexivity|].
  intros o I. vm_compute in I. repeat (destruct I as [<-|I]; [reflexivity|]). destruct I.
Qed.
Print Assumptions C65_last_unused_refuted.

(** If abbreviations are allowed and "--only" is the only flag, look-ahead takes "-" for
    this option: "x -" is too many arguments, although up to 6 are allowed. *)
Theorem C65_beginning_refuted : exists p q x y,
  finish_parser p = Val q /\ rejected q [x; y] /\
  ~ looks_like_option (s_style (d_settings q)) x /\ ~ looks_like_option (s_style (d_settings q)) y /\
  minima (c_arguments (d_command q)) = 1%N /\ maxima (c_arguments (d_command q)) = 6%N /\
  (forall o, In o (c_options (d_command q)) -> o_optional o = true).
Proof.
  pose (p := ex_ab true [ex_option [$"--only"] [] [] OP_NONE OT_STOP true None]).
  exists p, (completed p), ($"x"), ($"-"). split; [vm_compute; reflexivity|]. split; [solve_rejected|].
  split; [intros (c & r & E); discriminate|]. split; [intros (c & r & E); discriminate|].
  split; [reflexivity|]. split; [reflexivity|].
  intros o I. vm_compute in I. repeat (destruct I as [<-|I]; [reflexivity|]). destruct I.
Qed.
Print Assumptions C65_beginning_refuted.

(** "-n" has an argument but reads no value: "-n x y" is too many arguments, although up
    to 6 are allowed. *)
Theorem C65_unread_refuted : exists p q o f x y,
  finish_parser p = Val q /\ rejected q [f; x; y] /\ In o (c_options (d_command q)) /\ In f (o_flags o) /\
  ~ takes_value o /\
  ~ looks_like_option (s_style (d_settings q)) x /\ ~ looks_like_option (s_style (d_settings q)) y /\
  minima (c_arguments (d_command q)) = 1%N /\ maxima (c_arguments (d_command q)) = 6%N /\
  (forall o, In o (c_options (d_command q)) -> o_optional o = true).
Proof.
  pose (p := ex_ab false [ex_option [$"-n"] ($"X") [] OP_NONE OT_NORMAL true None]).
  exists p, (completed p). eexists. exists ($"-n"), ($"x"), ($"y"). split; [vm_compute; reflexivity|]. split; [solve_rejected|].
  split; [vm_compute; left; reflexivity|]. split; [left; reflexivity|].
  split; [intros ([X|X] & _); discriminate X|].
  split; [intros (c & r & E); discriminate|]. split; [intros (c & r & E); discriminate|].
  split; [reflexivity|]. split; [reflexivity|].
  intros o I. vm_compute in I. repeat (destruct I as [<-|I]; [reflexivity|]). destruct I.
Qed.
Print Assumptions C65_unread_refuted.

(** The program above: after "mv a -smv b -x" another argument is accepted; after
    "-c" the second "mv" starts the sub-command again; at the end parsing succeeds. *)
Example C65_example :
  let cfg := d_settings (completed ex_mv) in let top := d_command (completed ex_mv) in
  let mv := after ex_mv ex_mv_args in
  (exists rs it, entered cfg top ex_mv_args (mv 1) /\ proceeds cfg (mv 1) rs (mv 7) /\
     Forall (foreseeable cfg (ps_command (mv 1))) rs /\ length (received rs) = 2 /\
     reads (mv 7) (Some ($"-c")) it /\ ps_mode (mv 7) = ARGUMENTS_ONLY /\
     c_commands (ps_command (mv 1)) = [] /\ no_beginning cfg (ps_command (mv 1)) ($"-c") /\
     no_sibling cfg (mv 7) ($"-c") /\ maxima (c_arguments (ps_command (mv 1))) = 6%N /\
     exists r s', next cfg (mv 7) = Ret r s') /\
  (exists rs it d, proceeds cfg (mv 1) rs (mv 8) /\
     Forall (foreseeable cfg (ps_command (mv 1))) rs /\ length (received rs) = 3 /\
     reads (mv 8) (Some ($"mv")) it /\ sibling cfg (mv 8) ($"mv") d /\
     last_used (c_arguments (ps_command (mv 1))) 3 /\
     exists r s', next cfg (mv 8) = Ret r s') /\
  (exists rs it, entered cfg top ex_mv_args (mv 9) /\ proceeds cfg (mv 9) rs (mv 10) /\
     Forall (foreseeable cfg (ps_command (mv 9))) rs /\ length (received rs) = 1 /\
     reads (mv 10) None it /\ options_given (mv 10) /\ c_require (ps_command (mv 9)) = Some false /\
     last_used (c_arguments (ps_command (mv 9))) 1).
Proof.
  cbv zeta.
  assert (R : forall k, exists m, reached (d_settings (completed ex_mv)) (d_command (completed ex_mv)) ex_mv_args
                           (after ex_mv ex_mv_args k) m) by (intros k; solve_reached).
  assert (P16 : exists rs, proceeds (d_settings (completed ex_mv)) (after ex_mv ex_mv_args 1) rs (after ex_mv ex_mv_args 7) /\
     Forall (foreseeable (d_settings (completed ex_mv)) (ps_command (after ex_mv ex_mv_args 1))) rs /\ length (received rs) = 2).
  { eexists. split; [eapply (steps_proceed _ 6); vm_compute; reflexivity|].
    split; [solve_foreseeable|vm_compute; reflexivity]. }
  assert (P17 : exists rs, proceeds (d_settings (completed ex_mv)) (after ex_mv ex_mv_args 1) rs (after ex_mv ex_mv_args 8) /\
     Forall (foreseeable (d_settings (completed ex_mv)) (ps_command (after ex_mv ex_mv_args 1))) rs /\ length (received rs) = 3).
  { eexists. split; [eapply (steps_proceed _ 7); vm_compute; reflexivity|].
    split; [solve_foreseeable|vm_compute; reflexivity]. }
  assert (P89 : exists rs, proceeds (d_settings (completed ex_mv)) (after ex_mv ex_mv_args 9) rs (after ex_mv ex_mv_args 10) /\
     Forall (foreseeable (d_settings (completed ex_mv)) (ps_command (after ex_mv ex_mv_args 9))) rs /\ length (received rs) = 1).
  { eexists. split; [eapply (steps_proceed _ 1); vm_compute; reflexivity|].
    split; [solve_foreseeable|vm_compute; reflexivity]. }
  destruct P16 as (rs & P1 & P2 & P3), P17 as (rs2 & Q1 & Q2 & Q3), P89 as (rs3 & T1 & T2 & T3).
  destruct (R 0) as (m0 & R0), (R 8) as (m7 & R7).
  split; [|split].
  - exists rs. eexists. split; [eapply entered_command; [exact R0|vm_compute; reflexivity|reflexivity]|].
    split; [exact P1|]. split; [exact P2|]. split; [exact P3|].
    split; [vm_compute; reflexivity|]. split; [vm_compute; reflexivity|]. split; [vm_compute; reflexivity|].
    split; [left; reflexivity|]. split.
    { intros l d I _ J E. vm_compute in I. destruct I as [<-|[]]. vm_compute in J. destruct J as [<-|[]].
      vm_compute in E. discriminate. }
    split; [vm_compute; reflexivity|]. do 2 eexists. vm_compute. reflexivity.
  - exists rs2. do 2 eexists. split; [exact Q1|]. split; [exact Q2|]. split; [exact Q3|].
    split; [vm_compute; reflexivity|]. split.
    { exists [], (hd (new_level (ps_command (after ex_mv ex_mv_args 8))) (ps_parents (after ex_mv ex_mv_args 8))), [].
      split; [vm_compute; reflexivity|]. split; [constructor|]. split; [vm_compute; reflexivity|].
      split; [vm_compute; left; reflexivity|]. vm_compute. reflexivity. }
    split.
    { right. exists [2%N; 1%N]. split; [|discriminate]. apply (fair_pair _ _ 2 1); vm_compute; repeat split; discriminate. }
    do 2 eexists. vm_compute. reflexivity.
  - exists rs3. eexists. split; [eapply entered_command; [exact R7|vm_compute; reflexivity|reflexivity]|].
    split; [exact T1|]. split; [exact T2|]. split; [exact T3|].
    split; [vm_compute; reflexivity|]. split.
    { intros o I E. vm_compute in I. repeat (destruct I as [<-|I]; [discriminate|]). destruct I. }
    split; [vm_compute; reflexivity|]. right. exists [0%N; 1%N]. split; [|discriminate]. apply (fair_pair _ _ 0 1); vm_compute; repeat split; discriminate.
Qed.
