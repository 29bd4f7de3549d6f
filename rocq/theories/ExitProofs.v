(** What auto_exit changes (C90). *)
From Verif Require Import Base BaseProofs MStrings MOptIter MData MCounter MValues MParser
  SStrings STok SIndex SDef SValues SCounter SParser SExit
  FinishProofs MonadProofs FrameProofs InvProofs NextProofs ParseProofs.
Open Scope nat_scope.

(* ------------------------------------------------------------------------ *)
(** ** Definitions *)

Lemma exit_finish_command : forall b st c full i a,
  finish_command (with_exit b st) full i a c = finish_command st full i a c.
Proof.
  intros b st. induction c as [c IH] using cmd_nested_ind. intros full i a. rewrite !finish_command_eq.
  change (s_style (with_exit b st)) with (s_style st). change (s_case_insensitive (with_exit b st)) with (s_case_insensitive st).
  destruct (validate_all (s_style st) (c_options c)) as [opts1|e]; [|reflexivity].
  destruct (update_require (c_require c) (c_commands c)) as [rq'|e]; [|reflexivity]. cbv zeta.
  change (add_help_option opts1 (c_current_section c) (with_exit b st)) with (add_help_option opts1 (c_current_section c) st).
  destruct (set_internal_ids _ _ _ _) as (((args' & opts') & vid') & aid').
  destruct (build_option_index _ _) as [index|e]; [|reflexivity].
  assert (G : finish_subs (with_exit b st) (c_name c) vid' aid' (c_commands c) = finish_subs st (c_name c) vid' aid' (c_commands c)).
  { induction IH as [|d l Hd Hl IHl]; [reflexivity|]. cbn [finish_subs]. rewrite Hd, IHl. reflexivity. }
  rewrite G. reflexivity.
Qed.

Lemma exit_finish : forall b p q, finish_parser p = Val q ->
  finish_parser (with_exit_parser b p) = Val (with_exit_parser b q).
Proof.
  intros b p q E. unfold finish_parser in E |- *. cbn [d_command d_settings d_version d_line_width d_word_rules with_exit_parser].
  change (add_version_option (c_options (d_command p)) (c_current_section (d_command p)) (c_name (d_command p)) (d_version p) (with_exit b (d_settings p)))
    with (add_version_option (c_options (d_command p)) (c_current_section (d_command p)) (c_name (d_command p)) (d_version p) (d_settings p)).
  cbv zeta in E |- *. rewrite exit_finish_command. destruct (finish_command _ _ _ _ _) as [c2|e]; [|discriminate].
  injection E as <-. reflexivity.
Qed.

(* ------------------------------------------------------------------------ *)
(** ** One step with and without auto_exit *)

Section Two.
Variable cfg : settings.
Notation on := (with_exit true cfg).
Notation off := (with_exit false cfg).

Definition refused (s1 s0 : pstate) : Prop := refused_there s1 s0 /\ ps_mode s0 = ST_ERROR.
Definition halted (s1 s0 : pstate) : Prop := stopped_there s1 s0 /\ ps_mode s0 = ST_DONE.

Inductive judged {A} (bad fine : A -> Prop) : outcome A -> outcome A -> Prop :=
| j_same : forall o, judged bad fine o o
| j_error : forall s1 s0 a, refused s1 s0 -> bad a -> judged bad fine (Exits (s_error_exit cfg) s1) (Ret a s0)
| j_throw : forall s1, judged bad fine (Exits (s_error_exit cfg) s1) (Throws EParseError s1)
| j_stop : forall s1 s0 a, halted s1 s0 -> fine a -> judged bad fine (Exits (s_normal_exit cfg) s1) (Ret a s0)
| j_undefined : forall c s1, judged bad fine (Exits c s1) Undefined.

Definition nothing {A} (a : A) : Prop := False.
Definition agree {A} (bad fine : A -> Prop) (m1 m0 : M A) : Prop := forall st, judged bad fine (m1 st) (m0 st).

Lemma agree_refl : forall {A} (bad fine : A -> Prop) (m : M A), agree bad fine m m.
Proof. intros A bad fine m st. apply j_same. Qed.

(** Nothing but an error can go wrong in the first part. *)
Lemma agree_bind : forall {A B} (bad : A -> Prop) (bad' fine' : B -> Prop) (m1 m0 : M A) (f1 f0 : A -> M B),
  agree bad nothing m1 m0 -> (forall a, agree bad' fine' (f1 a) (f0 a)) ->
  (forall a s, bad a -> exists b, f0 a s = Ret b s /\ bad' b) ->
  agree bad' fine' (bind m1 f1) (bind m0 f0).
Proof.
  intros A B bad bad' fine' m1 m0 f1 f0 Hm Hf Hb st. unfold bind.
  destruct (Hm st) as [o|s1 s0 a R Ba|s1|s1 s0 a R Fa|c s1].
  - destruct o; try apply j_same. apply Hf.
  - destruct (Hb a s0 Ba) as (b & -> & Bb). exact (j_error _ _ _ _ _ R Bb).
  - apply j_throw.
  - destruct Fa.
  - apply j_undefined.
Qed.

Lemma agree_then : forall {A B} (bad' fine' : B -> Prop) (m : M A) (f1 f0 : A -> M B),
  (forall a, agree bad' fine' (f1 a) (f0 a)) -> agree bad' fine' (bind m f1) (bind m f0).
Proof. intros A B bad' fine' m f1 f0 Hf. apply (agree_bind nothing); [apply agree_refl|exact Hf|intros a s []]. Qed.

Lemma bind_steps : forall {A B} (m : M A) (f : A -> M B) st, bind m f st =
  match m st with Ret a s => f a s | Exits c s => Exits c s | Throws e s => Throws e s | Undefined => Undefined | NoFuel => NoFuel end.
Proof. reflexivity. Qed.

Lemma same_level_refl : forall l, same_level l l.
Proof. intros l. repeat split. exists []. rewrite app_nil_r. reflexivity. Qed.

Lemma same_levels_refl : forall ls, Forall2 same_level ls ls.
Proof. induction ls; constructor; [apply same_level_refl|assumption]. Qed.

Lemma same_levels_set : forall rc ls, Forall2 same_level ls (map (set_result rc) ls).
Proof. induction ls as [|l ls IH]; constructor; [|exact IH]. destruct l. repeat split. exists []. cbn. rewrite app_nil_r. reflexivity. Qed.

Lemma agree_error : forall {A} (bad fine : A -> Prop) m (r : A), bad r ->
  agree bad fine (error on m ;;; ret r) (error off m ;;; ret r).
Proof.
  intros A bad fine m r Br st. unfold error. rewrite !bind_assoc, !bind_gets, !bind_assoc.
  unfold bind at 1, emit, modify. cbn [s_auto_exit with_exit].
  match goal with |- judged _ _ _ (bind ?e _ _) => unfold bind at 2 end.
  unfold bind, modify, copy_remaining, exit_with, ret. destruct (it_remaining _) as [(l, it)|]; [|apply j_undefined].
  change (s_error_exit on) with (s_error_exit cfg).
  apply j_error; [|exact Br]. repeat split.
  - constructor.
    + destruct (ps_cur st) as [c vs un rc stp sb] eqn:Ec. cbn. rewrite Ec. repeat split. exists l. reflexivity.
    + cbn. apply same_levels_set.
  - constructor; [reflexivity|]. cbn. clear. induction (ps_parents st); constructor; [reflexivity|assumption].
Qed.

Lemma agree_user : forall (bad fine : unit -> Prop) msg, agree bad fine (user_error on msg) (user_error off msg).
Proof. intros bad fine msg st. unfold user_error. rewrite !bind_gets. apply j_throw. Qed.

Lemma agree_ops : forall ops, agree (@nothing unit) nothing (run_value_ops on ops) (run_value_ops off ops).
Proof.
  induction ops as [|op ops IH]; [apply agree_refl|]. cbn [run_value_ops].
  apply (agree_bind nothing); [|intros _; exact IH|intros a s []].
  destruct op as [k v|k v|k|m|m a]; try apply agree_refl; [apply agree_user|].
  apply agree_then. intros n. apply agree_user.
Qed.

Lemma exit_count : count_arguments on = count_arguments off.
Proof. reflexivity. Qed.
Lemma exit_update : update_arguments on = update_arguments off.
Proof. reflexivity. Qed.
Lemma exit_start : start_counter on = start_counter off.
Proof. reflexivity. Qed.
Lemma exit_command : process_command on = process_command off.
Proof. reflexivity. Qed.

Lemma agree_callback : forall cb ev v, agree (@nothing unit) nothing (run_callback on cb ev v) (run_callback off cb ev v).
Proof.
  intros [f|] ev v; [|apply agree_refl]. cbn [run_callback].
  apply agree_then. intros _. apply agree_then. intros eff. apply agree_then. intros _. apply agree_then. intros _.
  apply (agree_bind nothing); [apply agree_ops| |intros a s []]. intros _. apply agree_then. intros _. apply agree_refl.
Qed.

Definition is_false (b : bool) : Prop := b = false.
Lemma agree_mandatory : forall opts, agree is_false nothing (has_all_mandatory on opts) (has_all_mandatory off opts).
Proof.
  induction opts as [|o opts IH]; [apply agree_refl|]. cbn [has_all_mandatory]. apply agree_then. intros vs.
  destruct (negb (o_optional o) && negb (has_value vs (o_value_id o))); [|exact IH]. apply agree_error. reflexivity.
Qed.

Lemma agree_counts : agree is_false nothing (check_counts on) (check_counts off).
Proof.
  unfold check_counts. apply agree_then. intros c. apply (agree_bind is_false); [apply agree_mandatory| |].
  - intros [|]; [|apply agree_refl]. cbn [negb]. destruct (c_require c) as [rq|]; [|apply agree_refl]. apply agree_then. intros subs.
    destruct (rq && is_empty subs); [apply agree_error; reflexivity|]. apply agree_then. intros ac.
    destruct (is_complete ac); [apply agree_refl|]. destruct (get_min_max_count (c_arguments c)). apply agree_error. reflexivity.
  - intros a s ->. exists false. split; reflexivity.
Qed.

Definition is_none (v : option str) : Prop := v = None.
Lemma agree_operation : forall o flag, agree is_none nothing (apply_operation on o flag) (apply_operation off o flag).
Proof.
  intros o flag. unfold apply_operation. destruct (o_operation o); try apply agree_refl.
  all: destruct (negb (is_empty (o_constant o))); [apply agree_refl|]; apply agree_then; intros [v|]; [apply agree_refl|];
    apply agree_error; reflexivity.
Qed.

Definition is_or_error (ra : option_result * str) : Prop := fst ra = OR_ERROR.
Lemma agree_known : forall o flag, agree is_or_error nothing (process_known_option on o flag) (process_known_option off o flag).
Proof.
  intros o flag. unfold process_known_option. apply (agree_bind is_none); [apply agree_operation| |].
  - intros [v|]; [|apply agree_refl]. apply (agree_bind nothing); [apply agree_callback| |intros a s []]. intros _.
    apply (agree_bind nothing); [exact (agree_callback (option_cb cfg o) _ _)| |intros a s []]. intros _. apply agree_refl.
  - intros a s ->. eexists. split; reflexivity.
Qed.

(** After an option that ends the program, that option is the one that stopped the parser. *)
Lemma known_exit : forall c0 o flag st arg s, process_known_option c0 o flag st = Ret (OR_EXIT, arg) s ->
  ps_mode s = ST_DONE /\ l_result (ps_cur s) = RC_STOP /\ l_stop (ps_cur s) = Some o /\ (o_type o = OT_HELP \/ o_type o = OT_EXIT).
Proof.
  intros c0 o flag st arg s E. unfold process_known_option, bind in E.
  destruct (apply_operation c0 o flag st) as [[v|] s1| | | |]; try discriminate E.
  destruct (run_callback c0 (o_callback o) _ v s1) as [u s2| | | |]; try discriminate E.
  destruct (run_callback c0 (option_cb c0 o) _ v s2) as [u' s3| | | |]; try discriminate E.
  unfold apply_type in E. destruct (o_type o) eqn:T; unfold gets, bind, emit, modify, ret in E; try discriminate E;
    injection E as <- <-; repeat split; auto.
Qed.

Definition is_ir_error (r : iter_result) : Prop := ir_code r = IC_ERROR.
Definition is_ir_option (r : iter_result) : Prop := ir_code r = IC_OPTION.

Lemma agree_option : forall flag, agree is_ir_error is_ir_option (process_option on flag) (process_option off flag).
Proof.
  intros flag. unfold process_option. apply agree_then. intros c.
  change (s_abbreviations on) with (s_abbreviations cfg). change (s_abbreviations off) with (s_abbreviations cfg).
  change (s_case_insensitive on) with (s_case_insensitive cfg). change (s_case_insensitive off) with (s_case_insensitive cfg).
  change (s_ignore_options on) with (s_ignore_options cfg). change (s_ignore_options off) with (s_ignore_options cfg).
  destruct (find_option c flag _ _) as [o|].
  - intros st. rewrite !bind_steps.
    destruct (process_known_option off o flag st) as [(r, arg) s| | | |] eqn:E0;
      pose proof (agree_known o flag st) as J; rewrite E0 in J; inversion J; subst;
      try match goal with X : process_known_option on o flag st = _ |- _ => rewrite X | X : _ = process_known_option on o flag st |- _ => rewrite <- X end;
      try (now apply j_same); try (now apply j_throw); try (now apply j_undefined).
    + destruct r; try apply j_same.
      * refine (agree_bind is_false is_ir_error is_ir_option _ _ _ _ agree_counts _ _ s).
        -- intros [|]; apply agree_refl.
        -- intros a s' ->. eexists. split; reflexivity.
      * cbn [s_auto_exit with_exit]. unfold bind, copy_remaining, exit_with, ret.
        destruct (known_exit _ _ _ _ _ _ E0) as (Md & Rs & Sp & Ty).
        destruct (it_remaining (ps_iter s)) as [(l, it)|]; [|apply j_undefined].
        change (s_normal_exit on) with (s_normal_exit cfg). apply j_stop; [|reflexivity].
        split; [|exact Md]. split; [|split; [exact Rs|exists o; repeat split; assumption]].
        repeat split. constructor; [|apply same_levels_refl].
        cbn. repeat split. exists l. reflexivity.
    + match goal with X : is_or_error _ |- _ => unfold is_or_error in X; cbn in X; subst end. apply j_error; [assumption|reflexivity].
    + match goal with X : nothing _ |- _ => destruct X end.
  - destruct (negb (s_ignore_options cfg)).
    + apply agree_then. intros cur. apply agree_error. reflexivity.
    + apply agree_then. intros cur. destruct (negb (starts_with_cs cur flag)); [apply agree_error; reflexivity|apply agree_refl].
Qed.

Lemma agree_argument : forall v, agree is_ir_error is_ir_option (process_argument on v) (process_argument off v).
Proof.
  intros v. unfold process_argument. change (find_sibling_command on) with (find_sibling_command off).
  apply agree_then. intros [(c, k)|]; [rewrite exit_command; apply agree_refl|]. apply agree_then. intros [a|].
  - apply agree_then. intros _. apply (agree_bind nothing); [apply agree_callback| |intros x s []]. intros _.
    apply (agree_bind nothing); [exact (agree_callback (argument_cb cfg a) _ _)| |intros x s []]. intros _. apply agree_refl.
  - change (s_ignore_arguments on) with (s_ignore_arguments off). destruct (s_ignore_arguments off); [apply agree_refl|].
    apply agree_error. reflexivity.
Qed.

Lemma agree_next : agree is_ir_error is_ir_option (next on) (next off).
Proof.
  unfold next. apply agree_then. intros mode.
  assert (T : forall m, agree is_ir_error is_ir_option
    (t <- (m : M (option str)) ;; match t with None => ok <- check_counts on ;; ret (mk_ir (if (ok : bool) then IC_DONE else IC_ERROR) ItNone [])
       | Some arg => process_token on mode arg end)
    (t <- m ;; match t with None => ok <- check_counts off ;; ret (mk_ir (if (ok : bool) then IC_DONE else IC_ERROR) ItNone [])
       | Some arg => process_token off mode arg end)).
  { intros m. apply agree_then. intros [arg|].
    - unfold process_token. apply agree_then. intros c. change (s_style on) with (s_style off).
      destruct (_ && is_option arg (s_style off)); [apply agree_option|].
      destruct (is_empty (c_commands c)); [apply agree_argument|].
      change (s_case_insensitive on) with (s_case_insensitive off). destruct (find_command _ _ _); [rewrite exit_command; apply agree_refl|].
      apply agree_error. reflexivity.
    - apply (agree_bind is_false); [apply agree_counts|intros b; apply agree_refl|]. intros a s ->. eexists. split; reflexivity. }
  destruct mode; try apply agree_refl; apply T.
Qed.

(* ------------------------------------------------------------------------ *)
(** ** The whole command line *)

Lemma agree_loop : forall k st, parse_loop on k st = parse_loop off k st \/
  exists c s1, parse_loop on k st = Exits c s1 /\ judged (fun _ => True) (fun _ => True) (Exits c s1) (parse_loop off (S k) st) /\
    (forall c' s', parse_loop off (S k) st <> Exits c' s') /\
    (parse_loop off k st = NoFuel \/ parse_loop off k st = parse_loop off (S k) st).
Proof.
  induction k as [|k IH]; intros st; [left; reflexivity|].
  assert (U : forall c0 n, parse_loop c0 (S n) st = match next c0 st with
    | Ret r s => match ir_code r with IC_ERROR | IC_DONE => Ret tt s | _ => parse_loop c0 n s end
    | Exits c s => Exits c s | Throws e s => Throws e s | Undefined => Undefined | NoFuel => NoFuel end).
  { intros c0 n. cbn [parse_loop]. unfold bind. destruct (next c0 st) as [r s| | | |]; try reflexivity. destruct (ir_code r); reflexivity. }
  rewrite !U. destruct (agree_next st) as [o|s1 s0 a R Ba|s1|s1 s0 a R Fa|c s1].
  - destruct o as [r s| | | |]; try (left; reflexivity). destruct (ir_code r); try (left; reflexivity); apply IH.
  - right. exists (s_error_exit cfg), s1. rewrite Ba. split; [reflexivity|]. split; [apply j_error; [exact R|exact I]|].
    split; [discriminate|right; reflexivity].
  - right. exists (s_error_exit cfg), s1. split; [reflexivity|]. split; [apply j_throw|]. split; [discriminate|right; reflexivity].
  - right. exists (s_normal_exit cfg), s1. rewrite Fa. split; [reflexivity|].
    assert (V : forall n, parse_loop off (S n) s0 = Ret tt s0).
    { intros n. cbn [parse_loop]. unfold bind, next. rewrite bind_gets, (proj2 R). reflexivity. }
    rewrite V. split; [apply j_stop; [exact R|exact I]|]. split; [discriminate|].
    destruct k; [left; reflexivity|right; apply V].
  - right. exists c, s1. split; [reflexivity|]. split; [apply j_undefined|]. split; [discriminate|right; reflexivity].
Qed.

Lemma agree_run : forall k top args, run_parser on k top args = run_parser off k top args \/
  exists c s1, run_parser on k top args = Exits c s1 /\
    judged (fun _ => True) (fun _ => True) (Exits c s1) (run_parser off (S k) top args) /\
    (forall c' s', run_parser off (S k) top args <> Exits c' s') /\
    (run_parser off k top args = NoFuel \/ run_parser off k top args = run_parser off (S k) top args).
Proof.
  intros k top args. unfold run_parser. change (initial_state on) with (initial_state off). rewrite exit_start. unfold bind.
  destruct (start_counter off _) as [u s| | | |]; try (left; reflexivity). apply agree_loop.
Qed.

End Two.

Section Parser.
Variables p q : parser_data.
Hypothesis H : finish_parser p = Val q.
Notation run b fuel args := (run_parser (with_exit b (d_settings q)) fuel (d_command q) args).

Lemma off_safe : forall fuel args, run false fuel args <> Undefined.
Proof.
  intros fuel args E. pose proof (safety_proof (with_exit false (d_settings q)) (d_command q) (finish_parser_prepared _ _ (exit_finish false p q H)) fuel args) as X.
  cbn [d_settings d_command with_exit_parser] in X. rewrite E in X. exact X.
Qed.

Lemma off_stays : forall fuel args c s, run false fuel args <> Exits c s.
Proof.
  intros fuel args c s E.
  destruct (exits_proof (with_exit false (d_settings q)) (d_command q) (finish_parser_prepared _ _ (exit_finish false p q H)) fuel args c s E) as (X & _). discriminate X.
Qed.

Lemma exit_same : forall fuel args, (forall c s, run true fuel args <> Exits c s) -> run true fuel args = run false fuel args.
Proof. intros fuel args N. destruct (agree_run (d_settings q) fuel (d_command q) args) as [E|(c & s1 & E & _)]; [exact E|]. destruct (N _ _ E). Qed.

Lemma exit_exits : forall fuel args c s1, run true fuel args = Exits c s1 ->
  (c = s_error_exit (d_settings q) /\ exists s0, run false (S fuel) args = Ret tt s0 /\ refused_there s1 s0) \/
  (c = s_error_exit (d_settings q) /\ run false (S fuel) args = Throws EParseError s1) \/
  (c = s_normal_exit (d_settings q) /\ exists s0, run false (S fuel) args = Ret tt s0 /\ stopped_there s1 s0).
Proof.
  intros fuel args c s1 E. destruct (agree_run (d_settings q) fuel (d_command q) args) as [X|(c' & s' & X & J & N & _)].
  - rewrite E in X. symmetry in X. destruct (off_stays _ _ _ _ X).
  - rewrite E in X. injection X as <- <-. pose proof (off_safe (S fuel) args) as Sf.
    inversion J as [o Eo Eo'|s2 s0 [] R _ Ec Eo|s2 Ec Eo|s2 s0 [] R _ Ec Eo|c2 s2 Ec Eo]; subst.
    + symmetry in Eo'. destruct (off_stays _ _ _ _ Eo').
    + left. split; [reflexivity|]. exists s0. split; [reflexivity|exact (proj1 R)].
    + right. left. split; reflexivity.
    + right. right. split; [reflexivity|]. exists s0. split; [reflexivity|exact (proj1 R)].
    + destruct Sf. congruence.
Qed.

(** And the other way around. *)
Lemma exit_back : forall fuel args, run true fuel args = run false fuel args \/
  exists c s1, run true fuel args = Exits c s1 /\
    (run false fuel args = NoFuel \/ run false fuel args = run false (S fuel) args).
Proof.
  intros fuel args. destruct (agree_run (d_settings q) fuel (d_command q) args) as [X|(c & s & X & _ & _ & D)]; [left; exact X|].
  right. exists c, s. split; assumption.
Qed.

Lemma exit_returned : forall fuel args s0, run false fuel args = Ret tt s0 ->
  run true fuel args = Ret tt s0 \/
  (exists s1, run true fuel args = Exits (s_error_exit (d_settings q)) s1 /\ refused_there s1 s0) \/
  (exists s1, run true fuel args = Exits (s_normal_exit (d_settings q)) s1 /\ stopped_there s1 s0).
Proof.
  intros fuel args s0 E. destruct (exit_back fuel args) as [X|(c & s1 & X & D)]; [left; congruence|]. right.
  destruct D as [D|D]; [congruence|]. rewrite E in D. symmetry in D.
  destruct (exit_exits fuel args c s1 X) as [(-> & s & F & R)|[(-> & F)|(-> & s & F & R)]]; rewrite F in D; try discriminate D; injection D as ->.
  - left. exists s1. split; assumption.
  - right. exists s1. split; assumption.
Qed.

Lemma exit_thrown : forall fuel args e s0, run false fuel args = Throws e s0 ->
  run true fuel args = Throws e s0 \/
  (e = EParseError /\ run true fuel args = Exits (s_error_exit (d_settings q)) s0).
Proof.
  intros fuel args e s0 E. destruct (exit_back fuel args) as [X|(c & s1 & X & D)]; [left; congruence|]. right.
  destruct D as [D|D]; [congruence|]. rewrite E in D. symmetry in D.
  destruct (exit_exits fuel args c s1 X) as [(-> & s & F & R)|[(-> & F)|(-> & s & F & R)]]; rewrite F in D; try discriminate D; injection D as <- <-.
  split; [reflexivity|exact X].
Qed.

(* ------------------------------------------------------------------------ *)
(** ** The iterator *)

Lemma exit_reached : forall args st n, reached (with_exit true (d_settings q)) (d_command q) args st n ->
  reached (with_exit false (d_settings q)) (d_command q) args st n.
Proof.
  intros args st n R. induction R as [st E|st n r st' R IH E]; [apply reached_start; exact E|].
  apply reached_next; [exact IH|]. pose proof (agree_next (d_settings q) st) as J. rewrite E in J. inversion J. reflexivity.
Qed.

Lemma exit_next_same : forall st, (forall c s, next (with_exit true (d_settings q)) st <> Exits c s) ->
  next (with_exit true (d_settings q)) st = next (with_exit false (d_settings q)) st.
Proof.
  intros st N. pose proof (agree_next (d_settings q) st) as J.
  inversion J as [o E1 E2|s1 s0 a R B E1 E2|s1 E1 E2|s1 s0 a R F E1 E2|c s1 E1 E2]; try (symmetry in E1; destruct (N _ _ E1)). reflexivity.
Qed.

Lemma exit_next_exits : forall args st n c s1, reached (with_exit true (d_settings q)) (d_command q) args st n ->
  next (with_exit true (d_settings q)) st = Exits c s1 ->
  (c = s_error_exit (d_settings q) /\ exists r s0, next (with_exit false (d_settings q)) st = Ret r s0 /\
     ir_code r = IC_ERROR /\ refused_there s1 s0) \/
  (c = s_error_exit (d_settings q) /\ next (with_exit false (d_settings q)) st = Throws EParseError s1) \/
  (c = s_normal_exit (d_settings q) /\ exists r s0, next (with_exit false (d_settings q)) st = Ret r s0 /\
     ir_code r = IC_OPTION /\ stopped_there s1 s0).
Proof.
  intros args st n c s1 R E. apply exit_reached in R.
  pose proof (finish_parser_prepared _ _ (exit_finish false p q H)) as Pq.
  pose proof (inv_next _ _ Pq _ _ (reached_inv (with_exit false (d_settings q)) (d_command q) Pq _ _ _ R)) as V.
  pose proof (agree_next (d_settings q) st) as J. rewrite E in J.
  inversion J as [o E1 E2|s2 s0 a Rf B E1 E2|s2 E1 E2|s2 s0 a Rf F E1 E2|c2 s2 E1 E2]; subst.
  - rewrite <- E2 in V. destruct V as (X & _). discriminate X.
  - left. split; [reflexivity|]. exists a, s0. split; [reflexivity|]. split; [exact B|exact (proj1 Rf)].
  - right. left. split; reflexivity.
  - right. right. split; [reflexivity|]. exists a, s0. split; [reflexivity|]. split; [exact F|exact (proj1 Rf)].
  - rewrite <- E2 in V. destruct V.
Qed.

End Parser.
