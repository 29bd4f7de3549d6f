(** What ignore_undefined_options and ignore_undefined_arguments change (C94). *)
From Verif Require Import Base BaseProofs MStrings MOptIter MData MCounter MValues MParser
  SStrings STok SIndex SDef SValues SCounter SParser SExit SLenient
  FinishProofs MonadProofs FrameProofs InvProofs NextProofs ParseProofs.
Open Scope nat_scope.

(* ------------------------------------------------------------------------ *)
(** ** Definitions *)

Lemma lenient_finish_command : forall o a st c full i b,
  finish_command (lenient o a st) full i b c = finish_command st full i b c.
Proof.
  intros o a st. induction c as [c IH] using cmd_nested_ind. intros full i b. rewrite !finish_command_eq.
  change (s_style (lenient o a st)) with (s_style st). change (s_case_insensitive (lenient o a st)) with (s_case_insensitive st).
  destruct (validate_all (s_style st) (c_options c)) as [opts1|e]; [|reflexivity].
  destruct (update_require (c_require c) (c_commands c)) as [rq'|e]; [|reflexivity]. cbv zeta.
  change (add_help_option opts1 (c_current_section c) (lenient o a st)) with (add_help_option opts1 (c_current_section c) st).
  destruct (set_internal_ids _ _ _ _) as (((args' & opts') & vid') & aid').
  destruct (build_option_index _ _) as [index|e]; [|reflexivity].
  assert (G : finish_subs (lenient o a st) (c_name c) vid' aid' (c_commands c) = finish_subs st (c_name c) vid' aid' (c_commands c)).
  { induction IH as [|d l Hd Hl IHl]; [reflexivity|]. cbn [finish_subs]. rewrite Hd, IHl. reflexivity. }
  rewrite G. reflexivity.
Qed.

Lemma lenient_finish : forall o a p, finish_parser (lenient_parser o a p) =
  match finish_parser p with Val q => Val (lenient_parser o a q) | Exn e => Exn e end.
Proof.
  intros o a p. unfold finish_parser. cbn [d_command d_settings d_version d_line_width d_word_rules lenient_parser].
  change (add_version_option (c_options (d_command p)) (c_current_section (d_command p)) (c_name (d_command p)) (d_version p) (lenient o a (d_settings p)))
    with (add_version_option (c_options (d_command p)) (c_current_section (d_command p)) (c_name (d_command p)) (d_version p) (d_settings p)).
  cbv zeta. rewrite lenient_finish_command. destruct (finish_command _ _ _ _ _) as [c2|e]; reflexivity.
Qed.

(* ------------------------------------------------------------------------ *)
(** ** What has been done is not undone *)

Section Growth.
Variable cfg : settings.
Variable base : list event.

Definition has (st : pstate) : Prop := exists l, ps_events st = base ++ l.
Definition grows {A} (m : M A) : Prop := forall st, has st ->
  match m st with Ret _ s | Exits _ s | Throws _ s => has s | _ => True end.

Lemma grows_bind : forall {A B} (m : M A) (f : A -> M B), grows m -> (forall a, grows (f a)) -> grows (bind m f).
Proof.
  intros A B m f Hm Hf st H. unfold bind. specialize (Hm st H). destruct (m st); try exact Hm. apply Hf. exact Hm.
Qed.
Lemma grows_ret : forall {A} (a : A), grows (ret a).
Proof. intros A a st H. exact H. Qed.
Lemma grows_gets : forall {A} (g : pstate -> A), grows (gets g).
Proof. intros A g st H. exact H. Qed.
Lemma grows_modify : forall f, (forall st, ps_events (f st) = ps_events st) -> grows (modify f).
Proof. intros f E st (l & H). exists l. rewrite E. exact H. Qed.
Lemma grows_throw : forall {A} e, @grows A (throw e).
Proof. intros A e st H. exact H. Qed.
Lemma grows_exit : forall {A} e, @grows A (exit_with e).
Proof. intros A e st H. exact H. Qed.
Lemma grows_emit : forall e, grows (emit e).
Proof. intros e st (l & H). exists (l ++ [e]). cbn. rewrite H, app_assoc. reflexivity. Qed.
Lemma grows_next : grows m_next.
Proof. intros st H. unfold m_next. destruct (it_next _) as [(t, it)|]; [exact H|exact I]. Qed.
Lemma grows_next_value : grows m_next_value.
Proof. intros st H. unfold m_next_value. destruct (it_next_value _) as [(t, it)|]; [exact H|exact I]. Qed.
Lemma grows_current : grows m_current.
Proof. intros st H. unfold m_current. destruct (it_current _); exact H. Qed.
Lemma grows_copy : grows copy_remaining.
Proof. intros st H. unfold copy_remaining. destruct (it_remaining _) as [(t, it)|]; [exact H|exact I]. Qed.
Lemma grows_undefined : forall {A}, @grows A (fun _ => Undefined).
Proof. intros A st H. exact I. Qed.
Lemma grows_argument : grows m_next_argument.
Proof. intros st H. unfold m_next_argument. destruct (next_argument _) as (x, ac). exact H. Qed.

Create HintDb grow.
Hint Resolve grows_ret grows_gets grows_throw grows_exit grows_emit grows_next grows_next_value grows_current
  grows_copy grows_undefined grows_argument : grow.

Ltac grow := repeat first
  [ solve [auto with grow nocore]
  | apply grows_bind; [|intros ?]
  | apply grows_modify; intros ?; reflexivity
  | match goal with
    | |- grows (match ?x with _ => _ end) => destruct x
    | |- grows (if ?x then _ else _) => destruct x
    end ].

Lemma grows_error : forall m, grows (error cfg m).
Proof. intros m. unfold error. grow. Qed.
Hint Resolve grows_error : grow.
Lemma grows_count : grows (count_arguments cfg).
Proof. intros st H. unfold count_arguments. cbv zeta. destruct (count_tokens _ _ _ _ _ _); [exact H|exact I|exact I]. Qed.
Hint Resolve grows_count : grow.
Lemma grows_start : grows (start_counter cfg).
Proof. unfold start_counter. grow. Qed.
Hint Resolve grows_start : grow.
Lemma grows_insert : forall new, grows (fun st => match it_insert (ps_iter st) new with
  | Ok it => Ret tt (set_iter st it) | Bad => Undefined end).
Proof. intros new st H. destruct (it_insert _ _); [exact H|exact I]. Qed.
Hint Resolve grows_insert : grow.
Lemma grows_update : forall new, grows (update_arguments cfg new).
Proof. intros new. unfold update_arguments. grow. Qed.
Hint Resolve grows_update : grow.
Lemma grows_resolve : forall k, grows (resolve_key k).
Proof. intros [name|v a] st H; cbn [resolve_key]; [destruct (get_value_id _ _); exact H|exact H]. Qed.
Hint Resolve grows_resolve : grow.
Lemma grows_user_error : forall msg, grows (user_error cfg msg).
Proof. intros msg. unfold user_error. grow. Qed.
Hint Resolve grows_user_error : grow.
Lemma grows_value_op : forall op, grows (run_value_op cfg op).
Proof. intros op. unfold run_value_op. grow. Qed.
Hint Resolve grows_value_op : grow.
Lemma grows_value_ops : forall ops, grows (run_value_ops cfg ops).
Proof. induction ops as [|op ops IH]; cbn [run_value_ops]; grow. Qed.
Lemma grows_texts : forall ts, grows (emit_texts ts).
Proof. induction ts as [|t ts IH]; cbn [emit_texts]; grow. Qed.
Hint Resolve grows_value_ops grows_texts : grow.
Lemma grows_callback : forall cb ev value, grows (run_callback cfg cb ev value).
Proof. intros cb ev value. unfold run_callback. grow. Qed.
Hint Resolve grows_callback : grow.
Lemma grows_mandatory : forall opts, grows (has_all_mandatory cfg opts).
Proof. induction opts as [|o opts IH]; cbn [has_all_mandatory]; grow. Qed.
Hint Resolve grows_mandatory : grow.
Lemma grows_check : grows (check_counts cfg).
Proof. unfold check_counts. grow. Qed.
Hint Resolve grows_check : grow.
Lemma grows_reactivate : forall k, grows (reactivate k).
Proof. intros k st H. unfold reactivate, modify. destruct (pop_levels _ _ _) as (cur, ps). exact H. Qed.
Hint Resolve grows_reactivate : grow.
Lemma grows_operation : forall o flag, grows (apply_operation cfg o flag).
Proof. intros o flag. unfold apply_operation. grow. Qed.
Lemma grows_type : forall o, grows (apply_type o).
Proof. intros o. unfold apply_type. grow. Qed.
Hint Resolve grows_operation grows_type : grow.
Lemma grows_known : forall o flag, grows (process_known_option cfg o flag).
Proof. intros o flag. unfold process_known_option. grow. Qed.
Hint Resolve grows_known : grow.
Lemma grows_option : forall flag, grows (process_option cfg flag).
Proof. intros flag. unfold process_option. grow. Qed.
Lemma grows_command : forall c, grows (process_command cfg c).
Proof. intros c. unfold process_command. grow. Qed.
Hint Resolve grows_option grows_command : grow.
Lemma grows_process_argument : forall value, grows (process_argument cfg value).
Proof. intros value. unfold process_argument. grow. Qed.
Hint Resolve grows_process_argument : grow.
Lemma grows_token : forall mode arg, grows (process_token cfg mode arg).
Proof. intros mode arg. unfold process_token. grow. Qed.
Hint Resolve grows_token : grow.
Lemma grows_api_next : grows (next cfg).
Proof. unfold next. grow. Qed.
Hint Resolve grows_api_next : grow.
Lemma grows_loop : forall fuel, grows (parse_loop cfg fuel).
Proof.
  induction fuel as [|fuel IH]; [intros st H; exact I|]. cbn [parse_loop]. grow.
Qed.
End Growth.

(* ------------------------------------------------------------------------ *)
(** ** One step with and without the settings *)

Section Two.
Variable o a : bool.
Variable cfg : settings.
Notation len := (lenient o a cfg).

(** The first parser objects, the second goes on. *)
Definition parted (st : pstate) (x y : outcome iter_result) : Prop :=
  match x with
  | Ret r s => s_auto_exit cfg = false /\ ir_code r = IC_ERROR /\ ps_mode s = ST_ERROR /\ all_failed s /\
               objected o a (ps_events st) s
  | Exits c s => s_auto_exit cfg = true /\ c = s_error_exit cfg /\ objected o a (ps_events st) s
  | Undefined => True
  | _ => False
  end /\
  match y with
  | Ret r s => ir_code r = IC_UNKNOWN /\ ps_events s = ps_events st
  | Throws e s => e = ENoCurrent /\ ps_events s = ps_events st
  | _ => False
  end.

Lemma parted_error : forall st m r y, forgiven o a m -> ir_code r = IC_ERROR ->
  match y with
  | Ret r s => ir_code r = IC_UNKNOWN /\ ps_events s = ps_events st
  | Throws e s => e = ENoCurrent /\ ps_events s = ps_events st
  | _ => False
  end -> parted st ((error cfg m ;;; ret r) st) y.
Proof.
  intros st m r y F Er Hy. split; [|exact Hy]. unfold error, bind, gets, emit, modify, exit_with, copy_remaining, ret.
  destruct (s_auto_exit cfg) eqn:Au.
  - split; [reflexivity|]. split; [reflexivity|]. exists (ps_command st), m. split; [exact F|reflexivity].
  - destruct (it_remaining _) as [(l, it)|]; [|exact I].
    split; [reflexivity|]. split; [exact Er|]. split; [reflexivity|]. split.
    + unfold all_failed, all_levels. cbn. constructor; [reflexivity|]. apply Forall_forall. intros x Hx.
      apply in_map_iff in Hx. destruct Hx as (x0 & <- & _). reflexivity.
    + exists (ps_command st), m. split; [exact F|reflexivity].
Qed.

Lemma lenient_option : forall flag st,
  process_option len flag st = process_option cfg flag st \/
  parted st (process_option cfg flag st) (process_option len flag st).
Proof.
  intros flag st. unfold process_option. rewrite !bind_gets.
  change (s_abbreviations len) with (s_abbreviations cfg). change (s_case_insensitive len) with (s_case_insensitive cfg).
  destruct (find_option _ _ _ _) as [op|]; [left; reflexivity|].
  cbn [s_ignore_options lenient]. destruct (s_ignore_options cfg) eqn:Ig.
  { left. destruct o; reflexivity. }
  destruct o eqn:Eo; [|left; reflexivity]. cbn [negb].
  assert (B : forall (f : str -> M iter_result), (cur <- m_current ;; f cur) st =
    match it_current (ps_iter st) with Some s => f s st | None => Throws ENoCurrent st end).
  { intros f. unfold bind, m_current. destruct (it_current (ps_iter st)); reflexivity. }
  rewrite !B. destruct (it_current (ps_iter st)) as [cur|]; [|left; reflexivity].
  destruct (starts_with_cs cur flag); cbn [negb]; [|left; reflexivity].
  right. apply parted_error; [exact Eo|reflexivity|]. split; reflexivity.
Qed.

Lemma lenient_argument : forall value st,
  process_argument len value st = process_argument cfg value st \/
  parted st (process_argument cfg value st) (process_argument len value st).
Proof.
  intros value st. unfold process_argument. rewrite !bind_gets.
  change (find_sibling_command len st value) with (find_sibling_command cfg st value).
  destruct (find_sibling_command cfg st value) as [(c, k)|]; [left; reflexivity|].
  assert (B : forall (f : option arg_data -> M iter_result), (x <- m_next_argument ;; f x) st =
    let (x, ac) := next_argument (ps_counter st) in f x (set_counter st ac)).
  { intros f. unfold bind, m_next_argument. destruct (next_argument (ps_counter st)); reflexivity. }
  rewrite !B. destruct (next_argument (ps_counter st)) as ([arg|], ac); [left; reflexivity|].
  cbn [s_ignore_arguments lenient]. destruct (s_ignore_arguments cfg) eqn:Ig.
  { left. destruct a; reflexivity. }
  destruct a eqn:Ea; [|left; reflexivity]. right.
  change (parted (set_counter st ac)
    ((error cfg (MsgTooManyArguments value) ;;; ret (mk_ir IC_ERROR ItNone [])) (set_counter st ac))
    ((modify (fun st => set_cur st (add_unprocessed (ps_cur st) [value])) ;;;
      cur <- m_current ;; ret (mk_ir IC_UNKNOWN ItNone cur)) (set_counter st ac))).
  apply parted_error; [exact Ea|reflexivity|].
  unfold bind, modify, m_current. destruct (it_current _); split; reflexivity.
Qed.

Lemma lenient_token : forall mode arg st,
  process_token len mode arg st = process_token cfg mode arg st \/
  parted st (process_token cfg mode arg st) (process_token len mode arg st).
Proof.
  intros mode arg st. unfold process_token. rewrite !bind_gets.
  change (s_style len) with (s_style cfg). change (s_case_insensitive len) with (s_case_insensitive cfg).
  destruct (_ && _); [apply lenient_option|].
  destruct (is_empty _); [apply lenient_argument|]. left. destruct (find_command _ _ _); reflexivity.
Qed.

Lemma lenient_next : forall st,
  next len st = next cfg st \/ parted st (next cfg st) (next len st).
Proof.
  intros st. unfold next. rewrite !bind_gets.
  destruct (ps_mode st) eqn:Em; try (left; reflexivity).
  - assert (B : forall (f : option str -> M iter_result), (t <- m_next ;; f t) st =
      match it_next (ps_iter st) with Ok (t, it) => f t (set_iter st it) | Bad => Undefined end).
    { intros f. unfold bind, m_next. destruct (it_next (ps_iter st)) as [(t, it)|]; reflexivity. }
    rewrite !B. destruct (it_next (ps_iter st)) as [([arg|], it)|]; try (left; reflexivity).
    exact (lenient_token ARGUMENTS_AND_OPTIONS arg (set_iter st it)).
  - assert (B : forall (f : option str -> M iter_result), (t <- m_next_value ;; f t) st =
      match it_next_value (ps_iter st) with Ok (t, it) => f t (set_iter st it) | Bad => Undefined end).
    { intros f. unfold bind, m_next_value. destruct (it_next_value (ps_iter st)) as [(t, it)|]; reflexivity. }
    rewrite !B. destruct (it_next_value (ps_iter st)) as [([arg|], it)|]; try (left; reflexivity).
    exact (lenient_token ARGUMENTS_ONLY arg (set_iter st it)).
Qed.

Definition ended_there (before : list event) (x : outcome unit) : Prop :=
  match x with
  | Ret _ s => s_auto_exit cfg = false /\ all_failed s /\ objected o a before s
  | Exits c s => s_auto_exit cfg = true /\ c = s_error_exit cfg /\ objected o a before s
  | Undefined => True
  | _ => False
  end.

Lemma lenient_loop : forall fuel st,
  parse_loop len fuel st = parse_loop cfg fuel st \/
  exists before, ended_there before (parse_loop cfg fuel st) /\
    (begins before (parse_loop len fuel st) \/ parse_loop len fuel st = Undefined).
Proof.
  induction fuel as [|fuel IH]; intros st; [left; reflexivity|]. cbn [parse_loop]. unfold bind.
  destruct (lenient_next st) as [E|(X & Y)].
  - rewrite E. destruct (next cfg st) as [r s|c s|e s| |]; try (left; reflexivity).
    destruct (ir_code r); try apply IH; left; reflexivity.
  - right. exists (ps_events st). split.
    + destruct (next cfg st) as [r s|c s|e s| |]; try exact X.
      destruct X as (A1 & A2 & A3 & A4 & A5). rewrite A2. split; [exact A1|]. split; [exact A4|exact A5].
    + destruct (next len st) as [r s|c s|e s| |]; try (destruct Y; fail).
      * destruct Y as (Yc & Ye). rewrite Yc.
        assert (Hs : has (ps_events st) s) by (exists []; rewrite app_nil_r; exact Ye).
        pose proof (grows_loop len (ps_events st) fuel s Hs) as G.
        destruct (parse_loop len fuel s); [left; exact G|left; exact G|left; exact G|right; reflexivity|left; exact I].
      * destruct Y as (_ & Ye). left. exists []. rewrite app_nil_r. exact Ye.
Qed.
End Two.

(* ------------------------------------------------------------------------ *)
(** ** The calls *)

Section Calls.
Variable o a : bool.
Variables p q : parser_data.
Hypothesis H : finish_parser p = Val q.
Notation cfg := (d_settings q).
Notation top := (d_command q).
Notation len := (lenient o a cfg).

Lemma lenient_parse : forall fuel args,
  run_parser len fuel top args = run_parser cfg fuel top args \/
  exists before st, objected o a before st /\
    run_parser cfg fuel top args = (if s_auto_exit cfg then Exits (s_error_exit cfg) st else Ret tt st) /\
    (s_auto_exit cfg = false -> all_failed st) /\
    begins before (run_parser len fuel top args).
Proof.
  intros fuel args.
  pose proof (finish_parser_prepared _ _ H) as Pq.
  pose proof (safety_proof cfg top Pq fuel args) as S0. pose proof (safety_proof len top Pq fuel args) as S1.
  assert (D : run_parser len fuel top args = run_parser cfg fuel top args \/
    exists before, ended_there o a cfg before (run_parser cfg fuel top args) /\
      (begins before (run_parser len fuel top args) \/ run_parser len fuel top args = Undefined)).
  { unfold run_parser. change (initial_state len top args) with (initial_state cfg top args). unfold bind.
    change (start_counter len (initial_state cfg top args)) with (start_counter cfg (initial_state cfg top args)).
    destruct (start_counter cfg (initial_state cfg top args)) as [u s|c s|e s| |]; try (left; reflexivity). apply lenient_loop. }
  destruct D as [D|(before & X & Y)]; [left; exact D|right].
  assert (Y' : begins before (run_parser len fuel top args)).
  { destruct Y as [Y|Y]; [exact Y|]. rewrite Y in S1. destruct S1. }
  clear S1 Y. exists before.
  destruct (run_parser cfg fuel top args) as [[] s|c s|e s| |]; try (destruct X; fail); try (destruct S0; fail).
  - destruct X as (A1 & A2 & A3). exists s. rewrite A1. auto.
  - destruct X as (A1 & -> & A3). exists s. rewrite A1. repeat split; [exact A3|discriminate|exact Y'].
Qed.

Lemma lenient_same : forall fuel args,
  (forall before s, objected o a before s -> run_parser cfg fuel top args <> Ret tt s /\
     run_parser cfg fuel top args <> Exits (s_error_exit cfg) s) ->
  run_parser len fuel top args = run_parser cfg fuel top args.
Proof.
  intros fuel args N. destruct (lenient_parse fuel args) as [E|(before & st & O & E & _)]; [exact E|].
  destruct (N before st O) as (N1 & N2). destruct (s_auto_exit cfg); congruence.
Qed.

Lemma lenient_reached : forall args st n, reached cfg top args st n ->
  reached len top args st n \/
  (next cfg st = Throws ENextAfterError st /\ all_failed st /\ exists before, objected o a before st).
Proof.
  intros args st n R. induction R as [st E|st n r st' R IH E]; [left; apply reached_start; exact E|].
  destruct IH as [IH|(X & _)]; [|congruence].
  destruct (lenient_next o a cfg st) as [D|(X & _)].
  - left. apply reached_next; [exact IH|]. rewrite D. exact E.
  - right. rewrite E in X. destruct X as (_ & _ & M & F & O). split; [|split; [exact F|eexists; exact O]].
    unfold next. rewrite bind_gets, M. reflexivity.
Qed.

Lemma lenient_step : forall args st n, reached cfg top args st n ->
  next len st = next cfg st \/
  exists s, objected o a (ps_events st) s /\
    (if s_auto_exit cfg then next cfg st = Exits (s_error_exit cfg) s
     else all_failed s /\ exists r, next cfg st = Ret r s /\ ir_code r = IC_ERROR) /\
    exists r' s', next len st = Ret r' s' /\ ir_code r' = IC_UNKNOWN /\ ps_events s' = ps_events st.
Proof.
  intros args st n R. pose proof (finish_parser_prepared _ _ H) as Pq.
  destruct (lenient_next o a cfg st) as [D|(X & Y)]; [left; exact D|right].
  destruct (lenient_reached args st n R) as [R'|(T & _)]; [|rewrite T in X; destruct X].
  pose proof (inv_next cfg top Pq _ _ (reached_inv cfg top Pq _ _ _ R)) as V.
  pose proof (inv_next len top Pq _ _ (reached_inv len top Pq _ _ _ R')) as W.
  assert (Y' : exists r' s', next len st = Ret r' s' /\ ir_code r' = IC_UNKNOWN /\ ps_events s' = ps_events st).
  { destruct (next len st) as [r s|c s|e s| |]; try (destruct Y; fail).
    - exists r, s. split; [reflexivity|exact Y].
    - destruct Y as (-> & _). exfalso. cbn in W. destruct W as [(W & _)|W]; [discriminate|].
      destruct W as ([(W & _)|([W|(nm & W)] & _)] & _); discriminate. }
  destruct (next cfg st) as [r s|c s|e s| |]; try (destruct X; fail); [| |destruct V].
  - destruct X as (A1 & A2 & A3 & A4 & A5). exists s. split; [exact A5|]. rewrite A1. split; [|exact Y'].
    split; [exact A4|]. exists r. split; [reflexivity|exact A2].
  - destruct X as (A1 & -> & A3). exists s. split; [exact A3|]. rewrite A1. split; [reflexivity|exact Y'].
Qed.
End Calls.
