(** What ignore_undefined_arguments does not change, and that nothing is too much with it (C89). *)
From Verif Require Import Base BaseProofs MStrings MOptIter MData MCounter MValues MParser
  SParser SSurplus MonadProofs SurplusProofs.
Open Scope nat_scope.

Definition complains (e : event) : Prop := match e with EvError _ (MsgTooManyArguments _) => True | _ => False end.
Definition uncomplaining (st : pstate) : Prop := Forall (fun e => ~ complains e) (ps_events st).
Definition mild {A} (o : outcome A) : Prop :=
  match o with Ret _ s | Exits _ s | Throws _ s => uncomplaining s | _ => True end.
Definition keeps {A} (m : M A) : Prop := forall st, uncomplaining st -> mild (m st).

Lemma keeps_ret : forall A (a : A), keeps (ret a).
Proof. intros A a st U. exact U. Qed.
Lemma keeps_bind : forall A B (m : M A) (f : A -> M B), keeps m -> (forall a, keeps (f a)) -> keeps (bind m f).
Proof.
  intros A B m f Km Kf st U. unfold bind. specialize (Km st U). destruct (m st); try exact Km. exact (Kf a _ Km).
Qed.
Lemma keeps_modify : forall f, (forall st, ps_events (f st) = ps_events st) -> keeps (modify f).
Proof. intros f E st U. unfold modify, mild, uncomplaining. rewrite E. exact U. Qed.
Lemma keeps_gets : forall A (f : pstate -> A), keeps (gets f).
Proof. intros A f st U. exact U. Qed.
Lemma keeps_throw : forall A e, keeps (@throw A e).
Proof. intros A e st U. exact U. Qed.
Lemma keeps_exit : forall A c, keeps (@exit_with A c).
Proof. intros A c st U. exact U. Qed.
Lemma keeps_emit : forall e, ~ complains e -> keeps (emit e).
Proof. intros e N0 st U. unfold emit, modify, mild, uncomplaining. cbn. apply Forall_app. split; [exact U|]. constructor; [exact N0|constructor]. Qed.
Lemma keeps_next : keeps m_next.
Proof. intros st U. unfold m_next. destruct (it_next (ps_iter st)) as [(r, it)|]; exact U || exact I. Qed.
Lemma keeps_value : keeps m_next_value.
Proof. intros st U. unfold m_next_value. destruct (it_next_value (ps_iter st)) as [(r, it)|]; exact U || exact I. Qed.
Lemma keeps_current : keeps m_current.
Proof. intros st U. unfold m_current. destruct (it_current (ps_iter st)) as [s|]; exact U. Qed.
Lemma keeps_copy : keeps copy_remaining.
Proof. intros st U. unfold copy_remaining. destruct (it_remaining (ps_iter st)) as [(r, it)|]; exact U || exact I. Qed.
Lemma keeps_argument : keeps m_next_argument.
Proof. intros st U. unfold m_next_argument. destruct (next_argument (ps_counter st)). exact U. Qed.
Lemma keeps_key : forall k, keeps (resolve_key k).
Proof. intros k st U. unfold resolve_key. destruct k; [|exact U] || destruct k. all: try exact U. destruct (get_value_id _ _); exact U. Qed.
Lemma keeps_reactivate : forall k, keeps (reactivate k).
Proof.
  intros k st U. unfold reactivate, modify, mild, uncomplaining. destruct (pop_levels k (ps_cur st) (ps_parents st)). exact U.
Qed.
Lemma keeps_undefined : forall A, keeps (fun _ => @Undefined A).
Proof. intros A st U. exact I. Qed.
Lemma keeps_count : forall cfg, keeps (count_arguments cfg).
Proof. intros cfg st U. unfold count_arguments. destruct (count_tokens _ _ _ _ _ _); exact U || exact I. Qed.

Ltac keep := repeat first
  [ apply keeps_ret | apply keeps_gets | apply keeps_throw | apply keeps_exit | apply keeps_next | apply keeps_value
  | apply keeps_current | apply keeps_copy | apply keeps_argument | apply keeps_key | apply keeps_reactivate
  | apply keeps_undefined | apply keeps_count
  | (apply keeps_emit; exact (fun x => x))
  | (apply keeps_modify; intros; reflexivity)
  | match goal with |- keeps (bind _ _) => apply keeps_bind; [|intros ?] end ].

Lemma keeps_error : forall cfg m, match m with MsgTooManyArguments _ => False | _ => True end -> keeps (error cfg m).
Proof.
  intros cfg m N0. unfold error. keep; [|destruct (s_auto_exit cfg); keep]. apply keeps_emit. destruct m; try exact (fun x => x); destruct N0.
Qed.

Section Keeps.
Variable cfg : settings.

Lemma keeps_start : keeps (start_counter cfg).
Proof. unfold start_counter. keep. destruct (negb _); keep. Qed.
Lemma keeps_insert : forall new, keeps (update_arguments cfg new).
Proof.
  intros new. unfold update_arguments. destruct (is_empty new); keep.
  - intros st U. destruct (it_insert (ps_iter st) new); exact U || exact I.
  - destruct (negb _); keep.
Qed.
Lemma keeps_user : forall msg, keeps (user_error cfg msg).
Proof. intros msg. unfold user_error. keep. destruct (s_auto_exit cfg); keep. Qed.
Lemma keeps_op : forall op, keeps (run_value_op cfg op).
Proof. intros []; cbn; keep; apply keeps_user. Qed.
Lemma keeps_ops : forall ops, keeps (run_value_ops cfg ops).
Proof. induction ops as [|op ops IH]; cbn; keep; [apply keeps_op|exact IH]. Qed.
Lemma keeps_texts : forall ts, keeps (emit_texts ts).
Proof. induction ts as [|t ts IH]; cbn; keep. exact IH. Qed.
Lemma keeps_callback : forall cb ev v, ~ complains ev -> keeps (run_callback cfg cb ev v).
Proof.
  intros [f|] ev v N0; cbn; keep.
  - apply keeps_emit. exact N0.
  - apply keeps_texts.
  - apply keeps_ops.
  - destruct (eff_throws _); keep.
  - apply keeps_insert.
Qed.
Lemma keeps_mandatory : forall opts, keeps (has_all_mandatory cfg opts).
Proof.
  induction opts as [|o opts IH]; cbn; keep. destruct (_ && _); keep; [|exact IH]. apply keeps_error. exact I.
Qed.
Lemma keeps_counts : keeps (check_counts cfg).
Proof.
  unfold check_counts. keep; [apply keeps_mandatory|]. destruct (negb _); keep. destruct (c_require _) as [req|]; keep.
  destruct (_ && _); keep; [apply keeps_error; exact I|]. destruct (is_complete _); keep.
  destruct (get_min_max_count _). keep. apply keeps_error. exact I.
Qed.
Lemma keeps_operation : forall o flag, keeps (apply_operation cfg o flag).
Proof.
  intros o flag. unfold apply_operation. destruct (o_operation o); try destruct (negb _); keep;
    (match goal with |- keeps (match ?v with _ => _ end) => destruct v end; keep; apply keeps_error; exact I).
Qed.
Lemma keeps_type : forall o, keeps (apply_type o).
Proof. intros o. unfold apply_type. destruct (o_type o); keep. Qed.
Lemma keeps_known : forall o flag, keeps (process_known_option cfg o flag).
Proof.
  intros o flag. unfold process_known_option. keep; [apply keeps_operation|]. destruct a as [arg|]; keep;
    (apply keeps_type || (apply keeps_callback; exact (fun x => x))).
Qed.
Lemma keeps_option : forall flag, keeps (process_option cfg flag).
Proof.
  intros flag. unfold process_option. keep. destruct (find_option _ _ _ _) as [o|].
  - keep; [apply keeps_known|]. destruct a0 as (r, arg). destruct r; keep.
    + apply keeps_counts.
    + destruct (negb _); keep. match goal with |- keeps (match ?v with _ => _ end) => destruct v end; keep.
    + destruct (s_auto_exit cfg); keep.
  - destruct (negb _); keep; [apply keeps_error; exact I|]. destruct (negb _); keep. apply keeps_error. exact I.
Qed.
Lemma keeps_command : forall c, keeps (process_command cfg c).
Proof. intros c. unfold process_command. keep. apply keeps_start. Qed.
Hypothesis Ig : s_ignore_arguments cfg = true.
Lemma keeps_positional : forall v, keeps (process_argument cfg v).
Proof.
  intros v. unfold process_argument. keep. destruct a as [(c, k)|]; keep; [apply keeps_command|].
  destruct a as [a|]; [|rewrite Ig]; keep; apply keeps_callback; exact (fun x => x).
Qed.
Lemma keeps_step : keeps (next cfg).
Proof.
  unfold next. keep. destruct a; keep;
    (match goal with |- keeps (match ?v with _ => _ end) => destruct v as [arg|] end; keep; [|apply keeps_counts];
     unfold process_token; keep; destruct (_ && _); [apply keeps_option|]; destruct (is_empty _); [apply keeps_positional|];
     destruct (find_command _ _ _); [apply keeps_command|]; keep; apply keeps_error; exact I).
Qed.
Lemma keeps_loop : forall k, keeps (parse_loop cfg k).
Proof.
  induction k as [|k IH]; cbn [parse_loop]; [intros st U; exact I|]. keep; [apply keeps_step|]. destruct (ir_code a); keep; exact IH.
Qed.

Lemma never_too_many : forall fuel top args, mild (run_parser cfg fuel top args).
Proof.
  intros fuel top args. unfold run_parser. apply (keeps_bind _ _ _ _ keeps_start (fun _ => keeps_loop fuel)). constructor.
Qed.
End Keeps.

(** The same run, if nothing is too much. *)
Definition calm_end {A} (o : outcome A) : Prop :=
  match o with Ret _ s | Exits _ s | Throws _ s => uncomplaining s | _ => False end.

Lemma error_complains : forall cfg v (r : iter_result) s1 k,
  ~ calm_end (bind (error cfg (MsgTooManyArguments v) ;;; ret r) (fun r => match ir_code r with IC_ERROR | IC_DONE => ret tt | _ => k end) s1) \/
  ir_code r <> IC_ERROR.
Proof.
  intros cfg v r s1 k. destruct (ir_code r) eqn:Cr; try (right; congruence). left. intros U.
  unfold bind at 1 in U. destruct ((error cfg (MsgTooManyArguments v) ;;; ret r) s1) as [r' s|c s|e s| |] eqn:E; try exact U.
  - assert (r' = r) as ->.
    { unfold bind in E. destruct (error cfg _ s1); try discriminate E. unfold ret in E. congruence. }
    rewrite Cr in U. destruct (error_noted _ _ _ _ _ E) as (c & Ic). cbn in U. unfold uncomplaining in U. rewrite Forall_forall in U. exact (U _ Ic I).
  - unfold error in E. rewrite bind_assoc, bind_gets, bind_assoc in E. unfold bind at 1, emit, modify in E.
    destruct (s_auto_exit cfg).
    + injection E as <- <-. unfold calm_end, uncomplaining in U. cbn in U. apply Forall_app in U. destruct U as (_ & U). inversion U as [|? ? X _]. exact (X I).
    + rewrite bind_assoc in E. unfold bind at 1, copy_remaining in E. destruct (it_remaining _) as [(l, it)|]; discriminate E.
  - unfold error in E. rewrite bind_assoc, bind_gets, bind_assoc in E. unfold bind at 1, emit, modify in E.
    destruct (s_auto_exit cfg); [discriminate E|].
    rewrite bind_assoc in E. unfold bind at 1, copy_remaining in E. destruct (it_remaining _) as [(l, it)|]; discriminate E.
Qed.

Lemma lenient_same : forall cfg k st, calm_end (parse_loop cfg k st) -> parse_loop (lenient cfg) k st = parse_loop cfg k st.
Proof.
  intros cfg. induction k as [|k IH]; intros st U; [reflexivity|]. cbn [parse_loop] in U |- *.
  destruct (lenient_next cfg st) as [X|(v & s1 & X)].
  - unfold bind in U |- *. rewrite X. destruct (next cfg st) as [r s| | | |]; try reflexivity. destruct (ir_code r); try reflexivity; apply IH; exact U.
  - exfalso. destruct (error_complains cfg v (mk_ir IC_ERROR ItNone []) s1 (parse_loop cfg k)) as [N0|N0]; [|apply N0; reflexivity].
    apply N0. unfold bind at 1 in U. rewrite X in U. exact U.
Qed.

Lemma lenient_run : forall cfg fuel top args, calm_end (run_parser cfg fuel top args) ->
  run_parser (lenient cfg) fuel top args = run_parser cfg fuel top args.
Proof.
  intros cfg fuel top args U. unfold run_parser in *. rewrite lenient_initial. unfold bind in *. rewrite lenient_start.
  destruct (start_counter cfg (initial_state cfg top args)) as [[] s| | | |]; try reflexivity. apply lenient_same. exact U.
Qed.
