(** What the exit codes change (C95). *)
From Verif Require Import Base BaseProofs MStrings MOptIter MData MCounter MValues MParser
  SStrings STok SIndex SDef SValues SCounter SParser SExit SCodes
  FinishProofs MonadProofs FrameProofs InvProofs NextProofs ParseProofs.
Open Scope nat_scope.

Lemma codes_finish_command : forall o a st c full i b,
  finish_command (with_codes o a st) full i b c = finish_command st full i b c.
Proof.
  intros o a st. induction c as [c IH] using cmd_nested_ind. intros full i b. rewrite !finish_command_eq.
  change (s_style (with_codes o a st)) with (s_style st). change (s_case_insensitive (with_codes o a st)) with (s_case_insensitive st).
  destruct (validate_all (s_style st) (c_options c)) as [opts1|e]; [|reflexivity].
  destruct (update_require (c_require c) (c_commands c)) as [rq'|e]; [|reflexivity]. cbv zeta.
  change (add_help_option opts1 (c_current_section c) (with_codes o a st)) with (add_help_option opts1 (c_current_section c) st).
  destruct (set_internal_ids _ _ _ _) as (((args' & opts') & vid') & aid').
  destruct (build_option_index _ _) as [index|e]; [|reflexivity].
  assert (G : finish_subs (with_codes o a st) (c_name c) vid' aid' (c_commands c) = finish_subs st (c_name c) vid' aid' (c_commands c)).
  { induction IH as [|d l Hd Hl IHl]; [reflexivity|]. cbn [finish_subs]. rewrite Hd, IHl. reflexivity. }
  rewrite G. reflexivity.
Qed.

Lemma codes_finish : forall o a p, finish_parser (with_codes_parser o a p) =
  match finish_parser p with Val q => Val (with_codes_parser o a q) | Exn e => Exn e end.
Proof.
  intros o a p. unfold finish_parser. cbn [d_command d_settings d_version d_line_width d_word_rules with_codes_parser].
  change (add_version_option (c_options (d_command p)) (c_current_section (d_command p)) (c_name (d_command p)) (d_version p) (with_codes o a (d_settings p)))
    with (add_version_option (c_options (d_command p)) (c_current_section (d_command p)) (c_name (d_command p)) (d_version p) (d_settings p)).
  cbv zeta. rewrite codes_finish_command. destruct (finish_command _ _ _ _ _) as [c2|e]; reflexivity.
Qed.

Section Two.
Variables nm er : Z.
Variable cfg : settings.
Notation new := (with_codes nm er cfg).
Notation R := (same_but_code cfg nm er).
Definition sim {A} (x y : M A) : Prop := forall st, R (x st) (y st).

Lemma sim_bind : forall {A B} (x y : M A) (f g : A -> M B), sim x y -> (forall a, sim (f a) (g a)) -> sim (bind x f) (bind y g).
Proof.
  intros A B x y f g H1 H2 st. unfold bind. destruct (H1 st) as [z N|s E|s E].
  - destruct z as [a s|c s|e s| |]; [apply H2|destruct (N c s eq_refl)|apply sc_same; discriminate..].
  - apply sc_error. exact E.
  - apply sc_normal. exact E.
Qed.
Lemma sim_same : forall {A} (x : M A), (forall st c s, x st <> Exits c s) -> sim x x.
Proof. intros A x N st. apply sc_same. intros c s. apply N. Qed.

Ltac same := apply sim_same; intros ?st ?c ?s;
  unfold ret, gets, modify, emit, throw, m_next, m_next_value, m_current, copy_remaining, m_next_argument, reactivate, count_arguments;
  cbv zeta; repeat match goal with |- context [match ?x with _ => _ end] => destruct x end; discriminate.

Create HintDb codes.
Lemma sim_ret : forall A (x : A), sim (ret x) (ret x). Proof. intros. same. Qed.
Lemma sim_gets : forall A (g : pstate -> A), sim (gets g) (gets g). Proof. intros. same. Qed.
Lemma sim_modify : forall f, sim (modify f) (modify f). Proof. intros. same. Qed.
Lemma sim_emit : forall e, sim (emit e) (emit e). Proof. intros. same. Qed.
Lemma sim_throw : forall A e, sim (@throw A e) (throw e). Proof. intros. same. Qed.
Lemma sim_undefined : forall A, @sim A (fun _ => Undefined) (fun _ => Undefined). Proof. intros. same. Qed.
Lemma sim_m_next : sim m_next m_next. Proof. same. Qed.
Lemma sim_m_next_value : sim m_next_value m_next_value. Proof. same. Qed.
Lemma sim_m_current : sim m_current m_current. Proof. same. Qed.
Lemma sim_copy : sim copy_remaining copy_remaining. Proof. same. Qed.
Lemma sim_m_next_argument : sim m_next_argument m_next_argument. Proof. same. Qed.
Lemma sim_reactivate : forall k, sim (reactivate k) (reactivate k). Proof. intros. same. Qed.
Lemma sim_count : sim (count_arguments cfg) (count_arguments new).
Proof. change (count_arguments new) with (count_arguments cfg). same. Qed.
Lemma sim_resolve : forall k, sim (resolve_key k) (resolve_key k).
Proof. intros k. apply sim_same. intros st c s. destruct k; cbn [resolve_key]; [destruct (get_value_id _ _)|]; discriminate. Qed.
Lemma sim_insert : forall l, sim (fun st => match it_insert (ps_iter st) l with
  | Ok it => Ret tt (set_iter st it) | Bad => Undefined end) (fun st => match it_insert (ps_iter st) l with
  | Ok it => Ret tt (set_iter st it) | Bad => Undefined end).
Proof. intros l. apply sim_same. intros st c s. destruct (it_insert _ _); discriminate. Qed.
Hint Resolve sim_ret sim_gets sim_modify sim_emit sim_throw sim_undefined sim_m_next sim_m_next_value sim_m_current
  sim_copy sim_m_next_argument sim_reactivate sim_count sim_resolve sim_insert : codes.

Ltac go := cbn [s_auto_exit s_abbreviations s_ignore_options s_ignore_arguments s_case_insensitive s_style with_codes];
  repeat first
  [ solve [auto with codes nocore]
  | apply sim_bind; [|intros ?]
  | match goal with
    | |- sim (match ?x with _ => _ end) _ => destruct x
    | |- sim (if ?x then _ else _) _ => destruct x
    end ].

Lemma sim_error : forall m, sim (error cfg m) (error new m).
Proof.
  intros m st. unfold error. rewrite !bind_gets. cbn [s_auto_exit with_codes s_error_exit]. destruct (s_auto_exit cfg).
  - unfold bind, emit, modify, exit_with. apply sc_error. exists (ps_events st), (ps_command st), m. reflexivity.
  - match goal with |- R (?x st) (?y st) => assert (G : sim x y) end; [|apply G]. go.
Qed.
Hint Resolve sim_error : codes.
Lemma sim_user_error : forall m, sim (user_error cfg m) (user_error new m).
Proof.
  intros m st. unfold user_error. rewrite !bind_gets. cbn [s_auto_exit with_codes s_error_exit]. destruct (s_auto_exit cfg).
  - unfold bind, emit, modify, exit_with. apply sc_error. exists (ps_events st), (l_command (ps_cur st)), (MsgUser m). reflexivity.
  - match goal with |- R (?x st) (?y st) => assert (G : sim x y) end; [|apply G]. go.
Qed.
Hint Resolve sim_user_error : codes.
Lemma sim_start : sim (start_counter cfg) (start_counter new).
Proof. unfold start_counter. go. Qed.
Lemma sim_update : forall l, sim (update_arguments cfg l) (update_arguments new l).
Proof. intros l. unfold update_arguments. go. Qed.
Lemma sim_value_op : forall op, sim (run_value_op cfg op) (run_value_op new op).
Proof. intros op. unfold run_value_op. go. Qed.
Hint Resolve sim_start sim_update sim_value_op : codes.
Lemma sim_value_ops : forall ops, sim (run_value_ops cfg ops) (run_value_ops new ops).
Proof. induction ops as [|op ops IH]; cbn [run_value_ops]; go. Qed.
Lemma sim_texts : forall ts, sim (emit_texts ts) (emit_texts ts).
Proof. induction ts as [|t ts IH]; cbn [emit_texts]; go. Qed.
Hint Resolve sim_value_ops sim_texts : codes.
Lemma sim_callback : forall cb ev value, sim (run_callback cfg cb ev value) (run_callback new cb ev value).
Proof. intros cb ev value. unfold run_callback. go. Qed.
Hint Resolve sim_callback : codes.
Lemma sim_mandatory : forall opts, sim (has_all_mandatory cfg opts) (has_all_mandatory new opts).
Proof. induction opts as [|o opts IH]; cbn [has_all_mandatory]; go. Qed.
Hint Resolve sim_mandatory : codes.
Lemma sim_check : sim (check_counts cfg) (check_counts new).
Proof. unfold check_counts. go. Qed.
Hint Resolve sim_check : codes.
Lemma sim_operation : forall o flag, sim (apply_operation cfg o flag) (apply_operation new o flag).
Proof. intros o flag. unfold apply_operation. go. Qed.
Lemma sim_type : forall o, sim (apply_type o) (apply_type o).
Proof. intros o. unfold apply_type. go. Qed.
Hint Resolve sim_operation sim_type : codes.
Lemma sim_known : forall o flag, sim (process_known_option cfg o flag) (process_known_option new o flag).
Proof.
  intros o flag. unfold process_known_option.
  change (option_cb new o) with (option_cb cfg o). go.
Qed.
Hint Resolve sim_known : codes.

(** A result OR_EXIT is given only after an option that ends the program. *)
Lemma known_exit : forall o flag st arg s, process_known_option cfg o flag st = Ret (OR_EXIT, arg) s -> met_exit s.
Proof.
  intros o flag st arg s. unfold process_known_option, bind.
  destruct (apply_operation cfg o flag st) as [[v|] s1|c s1|e s1| |]; try discriminate.
  destruct (run_callback cfg (o_callback o) _ v s1) as [[] s2|c s2|e s2| |]; try discriminate.
  destruct (run_callback cfg (option_cb cfg o) _ v s2) as [[] s3|c s3|e s3| |]; try discriminate.
  unfold apply_type, bind, gets, emit, modify, ret. destruct (o_type o) eqn:T; try discriminate.
  all: intros E; injection E as _ <-; exists o; split; [reflexivity|rewrite T; auto].
Qed.

Lemma known_then : forall o flag st (f g : option_result * str -> M iter_result),
  (forall r arg, r <> OR_EXIT -> sim (f (r, arg)) (g (r, arg))) ->
  (forall arg s, met_exit s -> R (f (OR_EXIT, arg) s) (g (OR_EXIT, arg) s)) ->
  R ((ra <- process_known_option cfg o flag ;; f ra) st) ((ra <- process_known_option new o flag ;; g ra) st).
Proof.
  intros o flag st f g Hn Hx. unfold bind. pose proof (sim_known o flag st) as K. pose proof (known_exit o flag st) as X.
  destruct K as [z N|s E|s E]; [|apply sc_error; exact E|apply sc_normal; exact E].
  destruct z as [(r, arg) s|c s|e s| |]; [|destruct (N c s eq_refl)|apply sc_same; discriminate..].
  destruct r; try (apply Hn; discriminate). apply Hx. exact (X arg s eq_refl).
Qed.

Lemma sim_option : forall flag, sim (process_option cfg flag) (process_option new flag).
Proof.
  intros flag st. unfold process_option. rewrite !bind_gets. cbn [s_abbreviations s_case_insensitive with_codes].
  destruct (find_option _ _ _ _) as [o|].
  - apply known_then.
    + intros r arg Nr. destruct r; try congruence; go.
    + intros arg s E. cbn [s_auto_exit s_normal_exit with_codes]. destruct (s_auto_exit cfg); [apply sc_normal; exact E|].
      match goal with |- R (?x s) (?y s) => assert (G' : sim x y) end; [go|apply G'].
  - match goal with |- R (?x st) (?y st) => assert (G : sim x y) end; [|apply G]. go.
Qed.
Lemma sim_command : forall c, sim (process_command cfg c) (process_command new c).
Proof. intros c. unfold process_command. go. Qed.
Hint Resolve sim_option sim_command : codes.
Lemma sim_argument : forall value, sim (process_argument cfg value) (process_argument new value).
Proof.
  intros value st. unfold process_argument. rewrite !bind_gets.
  change (find_sibling_command new st value) with (find_sibling_command cfg st value).
  destruct (find_sibling_command cfg st value) as [(c, k)|];
    (match goal with |- R (?x st) (?y st) => assert (G : sim x y) end; [|apply G]); [go|].
  apply sim_bind; [go|]. intros [x|]; [|go]. change (argument_cb new x) with (argument_cb cfg x). go.
Qed.
Hint Resolve sim_argument : codes.
Lemma sim_token : forall mode arg, sim (process_token cfg mode arg) (process_token new mode arg).
Proof. intros mode arg. unfold process_token. go. Qed.
Hint Resolve sim_token : codes.
Lemma sim_next : sim (next cfg) (next new).
Proof. unfold next. go. Qed.
Hint Resolve sim_next : codes.
Lemma sim_loop : forall fuel, sim (parse_loop cfg fuel) (parse_loop new fuel).
Proof.
  induction fuel as [|fuel IH]; [apply sim_same; discriminate|]. cbn [parse_loop]. go.
Qed.
Lemma codes_run : forall fuel top args, R (run_parser cfg fuel top args) (run_parser new fuel top args).
Proof.
  intros fuel top args. unfold run_parser. change (initial_state new top args) with (initial_state cfg top args).
  apply sim_bind; [apply sim_start|intros _; apply sim_loop].
Qed.
Lemma codes_reached : forall top args st n, reached cfg top args st n -> reached new top args st n.
Proof.
  intros top args st n H. induction H as [st E|st n r st' H IH E].
  - apply reached_start. pose proof (sim_start (initial_state cfg top args)) as K. rewrite E in K.
    change (initial_state new top args) with (initial_state cfg top args). inversion K. reflexivity.
  - apply reached_next; [exact IH|]. pose proof (sim_next st) as K. rewrite E in K. inversion K. reflexivity.
Qed.
End Two.
