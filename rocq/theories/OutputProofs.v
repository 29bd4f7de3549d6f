(** Proofs about what parse() writes (C70). *)
From Verif Require Import Base BaseProofs MStrings MOptIter MData MCounter MValues MParser MText MHelp MApi MOutput
  STok SIndex SStrings SDef SText SFormat SHelp SParser SWrap SHelpWrap SOutput
  DefProofs FinishProofs CounterInv MonadProofs FrameProofs InvProofs NextProofs ParseProofs HelpProofs2 HelpExact HelpApi HelpApi2
  WrapProofs WrapProofs2 WrapProofs3 HelpWrap HelpWrap2 HelpWrap3.
Open Scope nat_scope.

(* ------------------------------------------------------------------------ *)
(** ** The commands in events are commands of the definition, and texts come from callbacks *)

Section Placed.
Variable cfg : settings.
Variable top : cmd_data.
Hypothesis P : prepared top.

Definition spoken (s : str) : Prop := exists f n v vs, callback_of cfg top f /\ In s (eff_out (f n v vs)).
Definition known_argument (a : arg_data) : Prop := exists c, within top c /\ In a (c_arguments c).
Definition counter_known (ac : arg_counter) : Prop := forall a, In a (map snd (ac_counters ac)) -> known_argument a.

Definition about (e : event) (c : cmd_data) : Prop :=
  match e with EvHelp d => d = c | EvError d _ => d = c | _ => False end.

Record placed (st : pstate) : Prop := {
  pl_command : within top (ps_command st);
  pl_levels : Forall (fun l => within top (l_command l)) (open_levels st);
  pl_events : forall e c, In e (ps_events st) -> about e c -> within top c;
  pl_counter : counter_known (ps_counter st);
  pl_texts : forall s, In (EvText s) (ps_events st) -> spoken s
}.

Definition keeps {A} (m : M A) : Prop := forall st, placed st ->
  post (fun _ => placed) (fun _ => placed) (fun _ => placed) True True (m st).

Lemma keeps_bind : forall {A B} (m : M A) (f : A -> M B), keeps m -> (forall a, keeps (f a)) -> keeps (bind m f).
Proof.
  intros A B m f Hm Hf st H. eapply post_seq; [apply Hm; exact H| |auto|auto|auto|auto].
  intros a s Hs. apply Hf. exact Hs.
Qed.

Lemma keeps_gets : forall {A B} (g : pstate -> A) (f : A -> M B),
  (forall st, placed st -> post (fun _ => placed) (fun _ => placed) (fun _ => placed) True True (f (g st) st)) ->
  keeps (bind (gets g) f).
Proof. intros A B g f H st Hs. rewrite bind_gets. apply H. exact Hs. Qed.

Lemma keeps_ret : forall {A} (a : A), keeps (ret a).
Proof. intros A a st H. exact H. Qed.

Lemma keeps_modify : forall f, (forall st, placed st -> placed (f st)) -> keeps (modify f).
Proof. intros f H st Hs. apply H. exact Hs. Qed.

Lemma keeps_throw : forall {A} e, @keeps A (throw e).
Proof. intros A e st H. exact H. Qed.
Lemma keeps_exit : forall {A} e, @keeps A (exit_with e).
Proof. intros A e st H. exact H. Qed.

(** The same commands and events. *)
Lemma placed_same : forall st st', ps_command st' = ps_command st ->
  map l_command (open_levels st') = map l_command (open_levels st) ->
  ps_events st' = ps_events st -> ps_counter st' = ps_counter st -> placed st -> placed st'.
Proof.
  intros st st' E1 E2 E3 E4 [A B C D E]. constructor.
  - rewrite E1. exact A.
  - rewrite <- (Forall_map l_command (within top)) in *. rewrite E2. exact B.
  - rewrite E3. exact C.
  - rewrite E4. exact D.
  - rewrite E3. exact E.
Qed.

Lemma placed_iter : forall st it, placed st -> placed (set_iter st it).
Proof. intros st it H. eapply placed_same; [| | | |exact H]; reflexivity. Qed.

Lemma keeps_next : keeps m_next.
Proof.
  intros st H. unfold m_next. destruct (it_next (ps_iter st)) as [(r & it)|]; simpl; [|exact I].
  apply placed_iter. exact H.
Qed.
Lemma keeps_next_value : keeps m_next_value.
Proof.
  intros st H. unfold m_next_value. destruct (it_next_value (ps_iter st)) as [(r & it)|]; simpl; [|exact I].
  apply placed_iter. exact H.
Qed.
Lemma keeps_current : keeps m_current.
Proof. intros st H. unfold m_current. destruct (it_current (ps_iter st)); simpl; exact H. Qed.

Lemma keeps_copy : keeps copy_remaining.
Proof.
  intros st H. unfold copy_remaining. destruct (it_remaining (ps_iter st)) as [(r & it)|]; simpl; [|exact I].
  eapply placed_same; [| | | |exact H]; reflexivity.
Qed.

Lemma keeps_values : forall f, keeps (modify (fun st => set_values st (f st))).
Proof. intros f. apply keeps_modify. intros st H. eapply placed_same; [| | | |exact H]; reflexivity. Qed.

Lemma keeps_mode : forall m, keeps (modify (fun st => set_mode st m)).
Proof. intros m. apply keeps_modify. intros st H. eapply placed_same; [| | | |exact H]; reflexivity. Qed.

Lemma placed_results : forall rc st, placed st -> placed (set_all_results rc st).
Proof.
  intros rc st H. eapply placed_same; [| | | |exact H]; try reflexivity.
  unfold open_levels, set_all_results. cbn [ps_cur ps_parents set_parents set_cur map]. f_equal.
  rewrite map_map. apply map_ext. intros []; reflexivity.
Qed.

Lemma placed_emit : forall st e, placed st -> (forall c, about e c -> within top c) ->
  (forall s, e = EvText s -> spoken s) -> placed (add_event st e).
Proof.
  intros st e [A B C D E] H H'. constructor; [exact A|exact B| |exact D|].
  2:{ cbn [add_event ps_events]. intros s Hi. apply in_app_or in Hi. destruct Hi as [Hi|[Hi|[]]]; [apply E|apply H']; exact Hi. }
  cbn [add_event ps_events]. intros e' c Hi Ha. apply in_app_or in Hi. destruct Hi as [Hi|[<-|[]]]; [eapply C; eassumption|apply H; exact Ha].
Qed.

Lemma keeps_error : forall m, keeps (error cfg m).
Proof.
  intros m. unfold error. apply keeps_gets. intros st H. rewrite bind_emit.
  assert (H1 : placed (add_event st (EvError (ps_command st) m))).
  { apply placed_emit; [exact H| |discriminate]. simpl. intros c <-. apply H. }
  revert H1. generalize (add_event st (EvError (ps_command st) m)). clear st H. intros st H.
  destruct (s_auto_exit cfg); [apply keeps_exit; exact H|].
  revert st H. change (keeps (copy_remaining ;;; modify (set_all_results RC_FAILURE) ;;; modify (fun st => set_mode st ST_ERROR))).
  apply keeps_bind; [apply keeps_copy|]. intros _. apply keeps_bind; [|intros _; apply keeps_mode].
  apply keeps_modify. intros st H. apply placed_results. exact H.
Qed.

Lemma pop_levels_placed : forall k cur parents,
  Forall (fun l => within top (l_command l)) (cur :: parents) ->
  let (c, p) := pop_levels k cur parents in Forall (fun l => within top (l_command l)) (c :: p).
Proof.
  induction k as [|k IH]; intros cur [|p r] H; simpl; try exact H.
  apply IH. inversion H as [|? ? H1 H2]; subst. inversion H2 as [|? ? H3 H4]; subst. constructor; [exact H3|exact H4].
Qed.

Lemma keeps_reactivate : forall k, keeps (reactivate k).
Proof.
  intros k. apply keeps_modify. intros st [A B C D E].
  pose proof (pop_levels_placed k (ps_cur st) (ps_parents st) B) as Hp.
  destruct (pop_levels k (ps_cur st) (ps_parents st)) as (c & p). constructor.
  - inversion Hp; assumption.
  - exact Hp.
  - exact C.
  - intros a [].
  - exact E.
Qed.

Lemma keeps_count : keeps (count_arguments cfg).
Proof. intros st H. unfold count_arguments. destruct (count_tokens _ _ _ _ _); simpl; auto. Qed.

Lemma keeps_counter : forall ac, counter_known ac -> keeps (modify (fun st => set_counter st ac)).
Proof. intros ac Hc. apply keeps_modify. intros st [A B C D E]. constructor; assumption. Qed.

Lemma known_plain : forall c, within top c -> counter_known (plain_counter (c_arguments c)).
Proof. intros c W a H. exists c. split; [exact W|]. exact (counter_from_plain (c_arguments c) a H). Qed.
Lemma known_counted : forall c n k, within top c -> counter_known (counted_counter (c_arguments c) n k).
Proof. intros c n k W a H. exists c. split; [exact W|]. exact (counter_from_counted (c_arguments c) n k a H). Qed.

Lemma keeps_pure : forall {A} (g : pstate -> A), keeps (gets g).
Proof. intros A g st H. exact H. Qed.

Lemma keeps_start : keeps (start_counter cfg).
Proof.
  apply keeps_gets. intros st H. pose proof (pl_command _ H) as W. revert W. generalize (ps_command st). intros c W.
  destruct (negb _); [apply keeps_counter; [apply known_plain; exact W|exact H]|].
  revert st H. match goal with |- forall st, placed st -> post _ _ _ _ _ (?m st) => change (keeps m) end.
  apply keeps_bind; [apply keeps_count|]. intros n. apply keeps_counter, known_counted. exact W.
Qed.

Lemma keeps_update : forall new, keeps (update_arguments cfg new).
Proof.
  intros new. unfold update_arguments. destruct (is_empty new); [apply keeps_ret|].
  apply keeps_bind.
  { intros st H. destruct (it_insert (ps_iter st) new) as [it|]; simpl; [apply placed_iter; exact H|exact I]. }
  intros _. apply keeps_gets. intros st H. pose proof (pl_command _ H) as W. revert W. generalize (ps_command st). intros c W.
  destruct (negb _); [exact H|].
  revert st H. match goal with |- forall st, placed st -> post _ _ _ _ _ (?m st) => change (keeps m) end.
  apply keeps_bind; [apply keeps_pure|]. intros n. apply keeps_bind; [apply keeps_count|]. intros n'.
  apply keeps_counter, known_counted. exact W.
Qed.

Lemma keeps_resolve : forall k, keeps (resolve_key k).
Proof.
  intros k st H. unfold resolve_key. destruct k; [|exact H].
  destruct (get_value_id _ _); exact H.
Qed.

Lemma keeps_user_error : forall msg, keeps (user_error cfg msg).
Proof.
  intros msg. unfold user_error. apply keeps_gets. intros st H. rewrite bind_emit.
  assert (H1 : placed (add_event st (EvError (l_command (ps_cur st)) (MsgUser msg)))).
  { apply placed_emit; [exact H| |discriminate]. simpl. intros c <-. pose proof (pl_levels _ H) as L. inversion L; assumption. }
  destruct (s_auto_exit cfg); exact H1.
Qed.

Lemma keeps_value_op : forall op, keeps (run_value_op cfg op).
Proof.
  intros [k v|k v|k|msg|msg aid]; cbn [run_value_op].
  1-3: apply keeps_bind; [apply keeps_resolve|intros ids; apply keeps_values].
  - apply keeps_user_error.
  - apply keeps_gets. intros st H. apply keeps_user_error. exact H.
Qed.

Lemma keeps_value_ops : forall ops, keeps (run_value_ops cfg ops).
Proof.
  induction ops as [|op ops IH]; [apply keeps_ret|]. cbn [run_value_ops].
  apply keeps_bind; [apply keeps_value_op|intros _; exact IH].
Qed.

Lemma keeps_emit : forall e, (forall c, ~ about e c) -> (forall s, e = EvText s -> spoken s) -> keeps (emit e).
Proof. intros e H H'. apply keeps_modify. intros st Hs. apply placed_emit; [exact Hs| |exact H']. intros c Hc. destruct (H c Hc). Qed.

Lemma keeps_texts : forall ts, (forall s, In s ts -> spoken s) -> keeps (emit_texts ts).
Proof.
  induction ts as [|t ts IH]; intros Hs; [apply keeps_ret|]. cbn [emit_texts].
  apply keeps_bind; [|intros _; apply IH; intros s H; apply Hs; right; exact H].
  apply keeps_emit; [intros c []|]. intros s Es. injection Es as <-. apply Hs. left. reflexivity.
Qed.

Lemma keeps_callback : forall cb ev value, cb_event ev = true -> (forall f, cb = Some f -> callback_of cfg top f) ->
  keeps (run_callback cfg cb ev value).
Proof.
  intros [f|] ev value Hev Hf; [|apply keeps_ret]. unfold run_callback.
  apply keeps_bind.
  { apply keeps_emit; [intros c Hc|intros s Es]; destruct ev; try discriminate Hev; first [exact Hc|discriminate Es]. }
  intros _. apply keeps_gets. intros st H.
  assert (Ht : forall s, In s (eff_out (f (ps_calls st) value (l_values (ps_cur st)))) -> spoken s).
  { intros s Hs. exists f, (ps_calls st), value, (l_values (ps_cur st)). split; [apply Hf; reflexivity|exact Hs]. }
  revert Ht. generalize (f (ps_calls st) value (l_values (ps_cur st))). intros eff Ht.
  revert st H. match goal with |- forall st, placed st -> post _ _ _ _ _ (?m st) => change (keeps m) end.
  apply keeps_bind; [apply keeps_modify; intros st H; eapply placed_same; [| | | |exact H]; reflexivity|]. intros _.
  apply keeps_bind; [apply keeps_texts; exact Ht|]. intros _. apply keeps_bind; [apply keeps_value_ops|]. intros _.
  apply keeps_bind; [destruct (eff_throws eff); [apply keeps_throw|apply keeps_ret]|]. intros _. apply keeps_update.
Qed.

Lemma keeps_mandatory : forall opts, keeps (has_all_mandatory cfg opts).
Proof.
  induction opts as [|o opts IH]; [apply keeps_ret|]. cbn [has_all_mandatory].
  apply keeps_bind; [apply keeps_pure|]. intros vs. destruct (_ && _); [|exact IH].
  apply keeps_bind; [apply keeps_error|intros _; apply keeps_ret].
Qed.

Lemma keeps_check : keeps (check_counts cfg).
Proof.
  unfold check_counts. apply keeps_bind; [apply keeps_pure|]. intros c.
  apply keeps_bind; [apply keeps_mandatory|]. intros ok. destruct (negb ok); [apply keeps_ret|].
  destruct (c_require c) as [req|]; [|intros st H; exact I].
  apply keeps_bind; [apply keeps_pure|]. intros subs. destruct (_ && _).
  { apply keeps_bind; [apply keeps_error|intros _; apply keeps_ret]. }
  apply keeps_bind; [apply keeps_pure|]. intros ac. destruct (is_complete ac).
  - apply keeps_bind; [|intros _; apply keeps_ret]. apply keeps_modify. intros st H. apply placed_results.
    eapply placed_same; [| | | |exact H]; reflexivity.
  - destruct (get_min_max_count _) as (lo & hi). apply keeps_bind; [apply keeps_error|intros _; apply keeps_ret].
Qed.

Lemma keeps_operation : forall o flag, keeps (apply_operation cfg o flag).
Proof.
  intros o flag. unfold apply_operation.
  destruct (o_operation o); try (apply keeps_ret); try (apply keeps_bind; [apply keeps_values|intros _; apply keeps_ret]).
  - destruct (negb (is_empty (o_constant o))); [apply keeps_bind; [apply keeps_values|intros _; apply keeps_ret]|].
    apply keeps_bind; [apply keeps_next_value|]. intros [v|]; apply keeps_bind;
      [apply keeps_values|intros _; apply keeps_ret|apply keeps_error|intros _; apply keeps_ret].
  - destruct (negb (is_empty (o_constant o))); [apply keeps_bind; [apply keeps_values|intros _; apply keeps_ret]|].
    apply keeps_bind; [apply keeps_next_value|]. intros [v|]; apply keeps_bind;
      [apply keeps_values|intros _; apply keeps_ret|apply keeps_error|intros _; apply keeps_ret].
Qed.

Lemma keeps_breaking : forall o, keeps (modify (fun st => set_cur st (set_breaking_option o (ps_cur st)))).
Proof. intros o. apply keeps_modify. intros st H. eapply placed_same; [| | | |exact H]; reflexivity. Qed.

Lemma keeps_type : forall o, keeps (apply_type o).
Proof.
  intros o. unfold apply_type. destruct (o_type o); try apply keeps_ret.
  { apply keeps_gets. intros st H. rewrite bind_emit.
    assert (H1 : placed (add_event st (EvHelp (ps_command st)))).
    { apply placed_emit; [exact H| |discriminate]. simpl. intros c <-. apply H. }
    revert H1. generalize (add_event st (EvHelp (ps_command st))). clear st H.
    change (keeps (modify (fun st => set_mode st ST_DONE) ;;; modify (fun st => set_cur st (set_breaking_option o (ps_cur st))) ;;; ret OR_EXIT)).
    apply keeps_bind; [apply keeps_mode|]. intros _. apply keeps_bind; [apply keeps_breaking|]. intros _. apply keeps_ret. }
  1-2: apply keeps_bind; [apply keeps_mode|]; intros _; apply keeps_bind; [apply keeps_breaking|]; intros _; apply keeps_ret.
  1-2: apply keeps_bind; [apply keeps_mode|]; intros _; apply keeps_ret.
Qed.

Lemma keeps_known : forall c o flag, within top c -> In o (c_options c) -> keeps (process_known_option cfg o flag).
Proof.
  intros c o flag W Ho. apply keeps_bind; [apply keeps_operation|]. intros [arg|]; [|apply keeps_ret].
  apply keeps_bind; [apply keeps_callback; [reflexivity|intros f E; eapply cb_option_own; eassumption]|]. intros _.
  apply keeps_bind; [apply keeps_callback; [reflexivity|intros f E; eapply cb_option_global; eassumption]|]. intros _.
  apply keeps_bind; [apply keeps_type|]. intros r. apply keeps_ret.
Qed.

Lemma keeps_unprocessed : forall us, keeps (modify (fun st => set_cur st (add_unprocessed (ps_cur st) us))).
Proof. intros us. apply keeps_modify. intros st H. eapply placed_same; [| | | |exact H]; reflexivity. Qed.

Lemma keeps_option : forall flag, keeps (process_option cfg flag).
Proof.
  intros flag. apply keeps_gets. intros st H. pose proof (pl_command _ H) as W. revert W. generalize (ps_command st). intros c W.
  revert st H. match goal with |- forall st, placed st -> post _ _ _ _ _ (?m st) => change (keeps m) end.
  destruct (find_option _ _ _ _) as [o|] eqn:Eo.
  - apply (find_option_in_options top) in Eo; [|exact P|exact W].
    apply keeps_bind; [apply (keeps_known c); assumption|]. intros (r & arg). destruct r.
    + apply keeps_ret.
    + apply keeps_bind; [apply keeps_check|]. intros ok. destruct (negb ok); [apply keeps_ret|].
      apply keeps_bind; [apply keeps_pure|]. intros [k|];
        (apply keeps_bind; [first [apply keeps_reactivate|apply keeps_copy]|intros _; apply keeps_ret]).
    + apply keeps_bind; [apply keeps_copy|intros _; apply keeps_ret].
    + destruct (s_auto_exit cfg); [apply keeps_exit|]. apply keeps_bind; [apply keeps_copy|intros _; apply keeps_ret].
    + apply keeps_ret.
  - destruct (negb _); (apply keeps_bind; [apply keeps_current|]; intros cur).
    + apply keeps_bind; [apply keeps_error|intros _; apply keeps_ret].
    + destruct (negb _); [apply keeps_bind; [apply keeps_error|intros _; apply keeps_ret]|].
      apply keeps_bind; [apply keeps_unprocessed|intros _; apply keeps_ret].
Qed.

Lemma keeps_command : forall c, within top c -> keeps (process_command cfg c).
Proof.
  intros c W. apply keeps_bind.
  { apply keeps_modify. intros st [A B C D E]. constructor; [exact W| |exact C|exact D|exact E]. constructor; [exact W|exact B]. }
  intros _. apply keeps_bind; [apply keeps_start|]. intros _. apply keeps_bind; [apply keeps_mode|]. intros _.
  apply keeps_bind; [apply keeps_current|intros cur; apply keeps_ret].
Qed.

Lemma sibling_within : forall st name c k, placed st -> find_sibling_command cfg st name = Some (c, k) -> within top c.
Proof.
  intros st name c k H E. unfold find_sibling_command in E. destruct (negb _); [discriminate|].
  destruct (find_first_multi_command_parent st) as [k'|]; [|discriminate].
  destruct (parent_command st k') as [p|] eqn:Ep; [|discriminate].
  destruct (find_command p name _) as [d|] eqn:Ed; [|discriminate]. injection E as <- <-.
  apply find_command_in in Ed. destruct Ed as (Ed & _). eapply within_sub; [|exact Ed].
  pose proof (pl_levels _ H) as L. unfold open_levels in L. inversion L as [|? ? L1 L2]; subst.
  destruct k' as [|k']; simpl in Ep; [injection Ep as <-; exact L1|].
  destruct (nth_error (ps_parents st) k') as [l|] eqn:En; [|discriminate]. injection Ep as <-.
  apply nth_error_In in En. rewrite Forall_forall in L2. apply L2. exact En.
Qed.

Lemma keeps_argument : forall value, keeps (process_argument cfg value).
Proof.
  intros value. unfold process_argument. apply keeps_gets. intros st H.
  destruct (find_sibling_command cfg st value) as [(c & k)|] eqn:Es.
  - revert st H Es. intros st H Es. pose proof (sibling_within _ _ _ _ H Es) as W.
    apply (keeps_bind (reactivate k) (fun _ => process_command cfg c)); [apply keeps_reactivate| |exact H].
    intros _. apply keeps_command. exact W.
  - clear Es. revert st H.
    intros st H. unfold bind at 1. unfold m_next_argument.
    destruct (next_argument (ps_counter st)) as (a & ac) eqn:En.
    assert (Hk : counter_known ac /\ match a with Some x => known_argument x | None => True end).
    { destruct (next_from (ps_counter st)) as (E1 & E2). rewrite En in E1, E2. cbn [fst snd] in E1, E2.
      split; [intros x Hx; rewrite E1 in Hx; apply (pl_counter _ H); exact Hx|].
      destruct a as [a|]; [|exact I]. apply (pl_counter _ H). apply E2. reflexivity. }
    destruct Hk as (Hk & Ha).
    assert (H1 : placed (set_counter st ac)) by (destruct H as [A B C D E]; constructor; assumption).
    revert H1. generalize (set_counter st ac). clear st H En.
    match goal with |- forall st, placed st -> post _ _ _ _ _ (?m st) => change (keeps m) end.
    destruct a as [a|].
    + destruct Ha as (c & W & Ha).
      apply keeps_bind; [apply keeps_values|]. intros _.
      apply keeps_bind; [apply keeps_callback; [reflexivity|intros f E; eapply cb_argument_own; eassumption]|]. intros _.
      apply keeps_bind; [apply keeps_callback; [reflexivity|intros f E; eapply cb_argument_global; eassumption]|]. intros _. apply keeps_ret.
    + destruct (s_ignore_arguments cfg).
      * apply keeps_bind; [apply keeps_unprocessed|]. intros _. apply keeps_bind; [apply keeps_current|intros cur; apply keeps_ret].
      * apply keeps_bind; [apply keeps_error|intros _; apply keeps_ret].
Qed.

Lemma keeps_token : forall mode arg, keeps (process_token cfg mode arg).
Proof.
  intros mode arg. unfold process_token. apply keeps_gets. intros st H.
  destruct (_ && _); [apply keeps_option; exact H|]. destruct (is_empty _); [apply keeps_argument; exact H|].
  destruct (find_command _ _ _) as [d|] eqn:Ed.
  - apply keeps_command; [|exact H]. apply find_command_in in Ed. destruct Ed as (Ed & _).
    eapply within_sub; [apply H|exact Ed].
  - revert st H Ed. intros st H _. revert st H.
    match goal with |- forall st, placed st -> post _ _ _ _ _ (?m st) => change (keeps m) end.
    apply keeps_bind; [apply keeps_error|intros _; apply keeps_ret].
Qed.

Lemma keeps_api_next : keeps (next cfg).
Proof.
  unfold next. apply keeps_bind; [apply keeps_pure|]. intros mode.
  assert (G : forall m : M (option str), keeps m -> keeps (t <- m ;; match t with
      | None => ok <- check_counts cfg ;; ret (mk_ir (if (ok : bool) then IC_DONE else IC_ERROR) ItNone [])
      | Some arg => process_token cfg mode arg end)).
  { intros m Hm. apply keeps_bind; [exact Hm|]. intros [arg|]; [apply keeps_token|].
    apply keeps_bind; [apply keeps_check|intros ok; apply keeps_ret]. }
  destruct mode; [apply G, keeps_next|apply G, keeps_next_value|apply keeps_ret|apply keeps_throw].
Qed.

Lemma keeps_loop : forall fuel, keeps (parse_loop cfg fuel).
Proof.
  induction fuel as [|fuel IH]; [intros st H; exact I|]. cbn [parse_loop].
  apply keeps_bind; [apply keeps_api_next|]. intros r. destruct (ir_code r); first [apply keeps_ret|exact IH].
Qed.

Lemma keeps_run : forall fuel args,
  post (fun _ => placed) (fun _ => placed) (fun _ => placed) True True (run_parser cfg fuel top args).
Proof.
  intros fuel args. unfold run_parser.
  apply (keeps_bind (start_counter cfg) (fun _ => parse_loop cfg fuel)); [apply keeps_start|intros _; apply keeps_loop|].
  constructor; [constructor|repeat constructor|intros e c []|intros a []|intros s []].
Qed.
End Placed.

(* ------------------------------------------------------------------------ *)
(** ** Writing *)

Lemma write_events_app : forall console custom d a b,
  write_events console custom d (a ++ b) =
  tbind (write_events console custom d a) (fun x => tbind (write_events console custom d b) (fun y => TOk (x ++ y))).
Proof.
  intros console custom d a b. induction a as [|e a IH]; cbn [app write_events].
  - cbn [tbind]. destruct (write_events console custom d b); reflexivity.
  - rewrite IH. destruct (event_text console d e) as [s| | |]; cbn [tbind]; try reflexivity.
    destruct (write_events console custom d a) as [x| | |]; cbn [tbind]; try reflexivity.
    destruct (write_events console custom d b) as [y| | |]; cbn [tbind]; try reflexivity.
    destruct s; reflexivity.
Qed.

Lemma write_calm : forall console custom d evs, no_trouble evs ->
  write_events console custom d evs = TOk (callback_texts custom evs).
Proof.
  intros console custom d evs. induction evs as [|e evs IH]; intros H; [reflexivity|].
  assert (H1 : no_trouble evs) by (intros x Hx; apply H; right; exact Hx).
  destruct (H e (or_introl eq_refl)) as (He & Hh). cbn [write_events]. rewrite (IH H1).
  unfold callback_texts. cbn [map concat].
  destruct e as [s|c|c m|g a v|g a v]; try discriminate; cbn [event_text tbind]; try reflexivity.
  destruct s as [|x s]; [reflexivity|]. cbn [event_channel]. unfold normal_stream. destruct custom; reflexivity.
Qed.

Lemma callback_texts_app : forall custom a b, callback_texts custom (a ++ b) = callback_texts custom a ++ callback_texts custom b.
Proof. intros custom a b. unfold callback_texts. rewrite map_app, concat_app. reflexivity. Qed.

Lemma fresh_help : forall console q c f, help_ok console q -> 8 < help_width console q -> trimmed_rules (d_word_rules q) ->
  shapes_ok c -> readable_help (help_width console q) c -> write_help_text console q c = TOk f ->
  w_line (f_writer f) = [] /\ help_printed (d_word_rules q) (help_width console q) c (w_out (f_writer f)).
Proof.
  intros console q c f Oq HW HT S0 Hp E.
  destruct (fresh_start console q Oq) as (g & Ef & A & Sh & _). pose proof Oq as (_ & _ & HU & _).
  destruct (lays_help _ _ HU HT c HW S0 Hp [] g A) as (f1 & out & Ek & A1 & P & S1).
  unfold write_help_text in E. rewrite Ef in E. cbn [tbind] in E. cbv zeta in *. rewrite Ek in E. apply TOk_inj in E. subst f1.
  destruct (rd_fresh _ _ _ _ _ _ (as_writer _ _ _ _ _ A1) eq_refl) as (X & _). split; [exact X|].
  rewrite Sh in S1. unfold fshown, wshown in S1. rewrite X, app_nil_r in S1. rewrite S1. exact P.
Qed.

Lemma error_shown : forall console d q c msg, finish_parser d = Val q -> counts_ok (d_command d) -> help_ok console q ->
  labels_ok c -> within (d_command q) c -> exists f, write_error_message console q c msg = TOk f /\
    is_error_text (d_word_rules q) (help_width console q) c msg (w_out (f_writer f)).
Proof.
  intros console d q c msg Fq Hc Ho Hl W.
  destruct (error_layout console q c msg Ho Hl (finished_shapes _ _ _ Fq Hc W)) as (f & p & E & _ & E2 & L).
  exists f. split; [exact E|]. constructor.
  - constructor; [exact E2|exists p; exact L|apply (layout_text _ _ _ _ L)].
  - intros Hu Hm line. apply (error_width_lines console q c msg f line Ho Hl (finished_shapes _ _ _ Fq Hc W) Hu Hm E).
  - intros HW Hp Hm Hn Hf. destruct (error_exact console q c _ Ho HW (finished_shapes _ _ _ Fq Hc W) Hp Hm Hn Hf) as (f' & E' & _ & <-).
    rewrite E in E'. apply TOk_inj in E'. subst f'. reflexivity.
  - intros HT Hp Hn Hm. destruct (C79_error_proof console d q c msg Fq Hc W Ho HT Hp Hn Hm) as (f' & E' & _ & P).
    rewrite E in E'. apply TOk_inj in E'. subst f'. exact P.
Qed.

Section Written.
Variable console : nat.
Variable custom : bool.
Variable d q : parser_data.
Hypothesis Fq : finish_parser d = Val q.
Hypothesis Hc : counts_ok (d_command d).
Hypothesis Wr : writable console q.

Lemma write_help : forall c, within (d_command q) c -> exists s,
  is_help_text (d_word_rules q) (help_width console q) c s /\ write_events console custom q [EvHelp c] = TOk (chunk (normal_stream custom) s).
Proof.
  intros c W. destruct Wr as (Ho & Hl).
  destruct (help_layout console q c Ho (Hl c W) (finished_shapes _ _ _ Fq Hc W)) as (f & p & E & _ & E2 & L).
  exists (w_out (f_writer f)). split.
  - constructor.
    + constructor; [exact E2|exists p; exact L|apply (layout_text _ _ _ _ L)].
    + intros Hu line. apply (help_width_lines console q c f line Ho (Hl c W) (finished_shapes _ _ _ Fq Hc W) Hu E).
    + intros HW Hp Hn Hf. destruct (help_exact console q c Ho HW (finished_shapes _ _ _ Fq Hc W) Hp Hn Hf) as (f' & E' & _ & <-).
      rewrite E in E'. apply TOk_inj in E'. subst f'. reflexivity.
    + intros HW HT Hp. exact (proj2 (fresh_help console q c f Ho HW HT (finished_shapes _ _ _ Fq Hc W) Hp E)).
  - cbn [write_events event_text]. rewrite E. cbn [tbind]. unfold chunk, normal_stream, event_channel.
    destruct (w_out (f_writer f)); destruct custom; reflexivity.
Qed.

Lemma write_error : forall c m, within (d_command q) c -> exists s,
  is_error_text (d_word_rules q) (help_width console q) c (error_text m) s /\
  write_events console custom q [EvError c m] = TOk (chunk (error_stream custom) s).
Proof.
  intros c m W. destruct Wr as (Ho & Hl). destruct (error_shown console d q c (error_text m) Fq Hc Ho (Hl c W) W) as (f & E & X).
  exists (w_out (f_writer f)). split; [exact X|].
  cbn [write_events event_text]. rewrite E. cbn [tbind]. unfold chunk, error_stream, event_channel.
  destruct (w_out (f_writer f)); destruct custom; reflexivity.
Qed.

Lemma texts_help : forall evs c, callback_texts custom (evs ++ [EvHelp c]) = callback_texts custom evs.
Proof. intros. rewrite callback_texts_app. apply app_nil_r. Qed.
Lemma texts_error : forall evs c m, callback_texts custom (evs ++ [EvError c m]) = callback_texts custom evs.
Proof. intros. rewrite callback_texts_app. apply app_nil_r. Qed.

Lemma write_then_help : forall evs c, no_trouble evs -> within (d_command q) c -> exists s,
  is_help_text (d_word_rules q) (help_width console q) c s /\
  write_events console custom q (evs ++ [EvHelp c]) =
    TOk (callback_texts custom (evs ++ [EvHelp c]) ++ chunk (normal_stream custom) s).
Proof.
  intros evs c N0 W. destruct (write_help c W) as (s & Hs & E). exists s. split; [exact Hs|].
  rewrite write_events_app, (write_calm _ _ _ _ N0), E, texts_help. reflexivity.
Qed.

Lemma write_then_error : forall evs c m, no_trouble evs -> within (d_command q) c -> exists s,
  is_error_text (d_word_rules q) (help_width console q) c (error_text m) s /\
  write_events console custom q (evs ++ [EvError c m]) =
    TOk (callback_texts custom (evs ++ [EvError c m]) ++ chunk (error_stream custom) s).
Proof.
  intros evs c m N0 W. destruct (write_error c m W) as (s & Hs & E). exists s. split; [exact Hs|].
  rewrite write_events_app, (write_calm _ _ _ _ N0), E, texts_error. reflexivity.
Qed.

Lemma run_placed : forall fuel args,
  post (fun _ => placed (d_settings q) (d_command q)) (fun _ => placed (d_settings q) (d_command q))
    (fun _ => placed (d_settings q) (d_command q)) True True
    (run_parser (d_settings q) fuel (d_command q) args).
Proof. intros fuel args. apply keeps_run, (finish_parser_prepared _ _ Fq). Qed.

Lemma placed_cur : forall st, placed (d_settings q) (d_command q) st -> within (d_command q) (l_command (ps_cur st)).
Proof. intros st H. pose proof (pl_levels _ _ _ H) as L. inversion L; assumption. Qed.

Lemma returned_proof : forall fuel args st,
  run_parser (d_settings q) fuel (d_command q) args = Ret tt st ->
  exists out, parse_and_write console custom fuel d args = WReturn st out /\
    ((l_result (ps_cur st) = RC_SUCCESS /\ out = callback_texts custom (ps_events st)) \/
     (l_result (ps_cur st) = RC_FAILURE /\
      exists m s, In (EvError (l_command (ps_cur st)) m) (ps_events st) /\
        is_error_text (d_word_rules q) (help_width console q) (l_command (ps_cur st)) (error_text m) s /\
        out = callback_texts custom (ps_events st) ++ chunk (error_stream custom) s) \/
     (exists o, l_stop (ps_cur st) = Some o /\ o_type o <> OT_HELP /\
        out = callback_texts custom (ps_events st)) \/
     (exists o s, l_stop (ps_cur st) = Some o /\ o_type o = OT_HELP /\
        is_help_text (d_word_rules q) (help_width console q) (l_command (ps_cur st)) s /\
        out = callback_texts custom (ps_events st) ++ chunk (normal_stream custom) s)).
Proof.
  intros fuel args st E. unfold parse_and_write. rewrite Fq, E.
  pose proof (run_placed fuel args) as Pl. rewrite E in Pl. cbn [post] in Pl.
  pose proof (run_parser_post (d_settings q) (d_command q) (finish_parser_prepared _ _ Fq) args fuel) as H. rewrite E in H. cbn [post] in H.
  destruct H as (k & _ & [F|[S0|(o & S0 & _)]]).
  - destruct (fa_events _ _ _ F) as (evs & m & Ev & N0).
    rewrite (sh_command _ _ _ (fa_shape _ _ _ F)) in Ev.
    destruct (write_then_error evs (l_command (ps_cur st)) m N0 (placed_cur _ Pl)) as (s & Hs & Hw).
    rewrite Ev. unfold with_output. rewrite Hw. eexists. split; [reflexivity|]. right. left.
    split; [apply (fa_codes _ _ _ F); left; reflexivity|]. exists m, s. split; [|split; [exact Hs|reflexivity]].
    apply in_or_app. right. left. reflexivity.
  - unfold with_output. rewrite (write_calm _ _ _ _ (su_events _ _ _ _ S0)). eexists. split; [reflexivity|]. left.
    split; [apply (su_codes _ _ _ _ S0); left; reflexivity|reflexivity].
  - pose proof (sp_option _ _ _ _ S0) as So. destruct (sp_events _ _ _ _ S0) as [(T & N0)|(T & evs & Ev & N0)].
    + unfold with_output. rewrite (write_calm _ _ _ _ N0). eexists. split; [reflexivity|]. right. right. left.
      exists o. auto.
    + rewrite (sh_command _ _ _ (sp_shape _ _ _ _ S0)) in Ev.
      destruct (write_then_help evs (l_command (ps_cur st)) N0 (placed_cur _ Pl)) as (s & Hs & Hw).
      rewrite Ev. unfold with_output. rewrite Hw. eexists. split; [reflexivity|]. right. right. right.
      exists o, s. auto.
Qed.

Lemma exited_proof : forall fuel args code st,
  run_parser (d_settings q) fuel (d_command q) args = Exits code st ->
  exists out, parse_and_write console custom fuel d args = WExit code st out /\
    ((code = s_error_exit (d_settings q) /\
      exists m s, In (EvError (l_command (ps_cur st)) m) (ps_events st) /\
        is_error_text (d_word_rules q) (help_width console q) (l_command (ps_cur st)) (error_text m) s /\
        out = callback_texts custom (ps_events st) ++ chunk (error_stream custom) s) \/
     (code = s_normal_exit (d_settings q) /\ exists o, l_stop (ps_cur st) = Some o /\ o_type o = OT_EXIT /\
        out = callback_texts custom (ps_events st)) \/
     (code = s_normal_exit (d_settings q) /\ exists o s, l_stop (ps_cur st) = Some o /\ o_type o = OT_HELP /\
        is_help_text (d_word_rules q) (help_width console q) (ps_command st) s /\
        out = callback_texts custom (ps_events st) ++ chunk (normal_stream custom) s)).
Proof.
  intros fuel args code st E. unfold parse_and_write. rewrite Fq, E.
  pose proof (run_placed fuel args) as Pl. rewrite E in Pl. cbn [post] in Pl.
  pose proof (run_parser_post (d_settings q) (d_command q) (finish_parser_prepared _ _ Fq) args fuel) as H. rewrite E in H. cbn [post] in H.
  destruct H as (A & [(-> & evs & m & Ev & N0)|(-> & _ & o & So & _ & T & Hev)]).
  - destruct (write_then_error evs (l_command (ps_cur st)) m N0 (placed_cur _ Pl)) as (s & Hs & Hw).
    rewrite Ev. unfold with_output. rewrite Hw. eexists. split; [reflexivity|]. left.
    split; [reflexivity|]. exists m, s. split; [|split; [exact Hs|reflexivity]].
    apply in_or_app. right. left. reflexivity.
  - destruct Hev as [(T' & N0)|(T' & evs & Ev & N0)].
    + unfold with_output. rewrite (write_calm _ _ _ _ N0). eexists. split; [reflexivity|]. right. left.
      split; [reflexivity|]. exists o. split; [exact So|]. split; [|reflexivity]. destruct T as [T|T]; [contradiction|exact T].
    + destruct (write_then_help evs (ps_command st) N0 (pl_command _ _ _ Pl)) as (s & Hs & Hw).
      rewrite Ev. unfold with_output. rewrite Hw. eexists. split; [reflexivity|]. right. right.
      split; [reflexivity|]. exists o, s. auto.
Qed.

Lemma thrown_proof : forall fuel args e st,
  run_parser (d_settings q) fuel (d_command q) args = Throws e st ->
  exists out, parse_and_write console custom fuel d args = WThrow e out /\
    ((e = EParseError /\
      exists m s, In (EvError (l_command (ps_cur st)) m) (ps_events st) /\
        is_error_text (d_word_rules q) (help_width console q) (l_command (ps_cur st)) (error_text m) s /\
        out = callback_texts custom (ps_events st) ++ chunk (error_stream custom) s) \/
     ((e = ECallback \/ exists name, e = EUnknownValue name) /\ out = callback_texts custom (ps_events st))).
Proof.
  intros fuel args e st E. unfold parse_and_write. rewrite Fq, E.
  pose proof (run_placed fuel args) as Pl. rewrite E in Pl. cbn [post] in Pl.
  pose proof (run_parser_post (d_settings q) (d_command q) (finish_parser_prepared _ _ Fq) args fuel) as H. rewrite E in H. cbn [post] in H.
  destruct H as ([(-> & A & evs & m & Ev & N0)|(T & N0)] & _).
  - destruct (write_then_error evs (l_command (ps_cur st)) m N0 (placed_cur _ Pl)) as (s & Hs & Hw).
    rewrite Ev. unfold with_output. rewrite Hw. eexists. split; [reflexivity|]. left.
    split; [reflexivity|]. exists m, s. split; [|split; [exact Hs|reflexivity]].
    apply in_or_app. right. left. reflexivity.
  - unfold with_output. rewrite (write_calm _ _ _ _ N0). eexists. split; [reflexivity|]. right. auto.
Qed.
End Written.

(* ------------------------------------------------------------------------ *)
(** ** Streams *)

Lemma in_stream_app : forall ch a b, in_stream ch (a ++ b) = in_stream ch a ++ in_stream ch b.
Proof. intros ch a b. unfold in_stream. rewrite filter_app, map_app, concat_app. reflexivity. Qed.

Lemma in_stream_texts : forall ch custom evs, in_stream ch (callback_texts custom evs) =
  match ch, custom with Custom, true | Stdout, false => said evs | _, _ => [] end.
Proof.
  intros ch custom evs. induction evs as [|e evs IH]; [destruct ch, custom; reflexivity|].
  change (callback_texts custom (e :: evs)) with
    ((match e with EvText (x :: s) => [(normal_stream custom, x :: s)] | _ => [] end) ++ callback_texts custom evs).
  rewrite in_stream_app, IH. change (said (e :: evs)) with ((match e with EvText s => s | _ => [] end) ++ said evs).
  destruct e as [[|x s]|c|c m|g a v|g a v]; destruct ch, custom; cbn; try rewrite app_nil_r; reflexivity.
Qed.

Lemma in_stream_chunk : forall ch ch' s, in_stream ch (chunk ch' s) =
  match ch, ch' with Stdout, Stdout | Stderr, Stderr | Custom, Custom => s | _, _ => [] end.
Proof. intros ch ch' [|x s]; destruct ch, ch'; cbn; try rewrite app_nil_r; reflexivity. Qed.

Lemma streams_texts : forall custom evs, streams custom (callback_texts custom evs) (said evs) [].
Proof. intros [|] evs; unfold streams; rewrite !in_stream_texts; rewrite ?app_nil_r; auto. Qed.

Lemma streams_help : forall custom evs s,
  streams custom (callback_texts custom evs ++ chunk (normal_stream custom) s) (said evs ++ s) [].
Proof.
  intros [|] evs s; unfold streams, normal_stream; rewrite !in_stream_app, !in_stream_texts, !in_stream_chunk;
    rewrite ?app_nil_r; auto.
Qed.

Lemma streams_error : forall custom evs s,
  streams custom (callback_texts custom evs ++ chunk (error_stream custom) s) (said evs) s.
Proof.
  intros [|] evs s; unfold streams, error_stream; rewrite !in_stream_app, !in_stream_texts, !in_stream_chunk;
    rewrite ?app_nil_r; auto.
Qed.

Section Streams.
Variable console : nat.
Variable custom : bool.
Variable d q : parser_data.
Hypothesis Fq : finish_parser d = Val q.
Hypothesis Hc : counts_ok (d_command d).
Hypothesis Wr : writable console q.

Lemma success_written : forall fuel args st,
  run_parser (d_settings q) fuel (d_command q) args = Ret tt st -> l_result (ps_cur st) = RC_SUCCESS ->
  exists out, parse_and_write console custom fuel d args = WReturn st out /\
    streams custom out (said (ps_events st)) [].
Proof.
  intros fuel args st E R. pose proof (result_code_proof _ _ (finish_parser_prepared _ _ Fq) args st (ex_intro _ fuel E)) as Rc.
  destruct (returned_proof console custom d q Fq Hc Wr fuel args st E) as (out & Eo & H). exists out. split; [exact Eo|].
  destruct H as [(_ & ->)|[(Z & _)|[(o & So & _)|(o & s & So & _)]]]; [apply streams_texts|congruence| |];
    (destruct Rc as (_ & _ & _ & (_ & Rs) & _); rewrite Rs in R by eauto; discriminate).
Qed.

Lemma failure_written : forall fuel args st,
  run_parser (d_settings q) fuel (d_command q) args = Ret tt st -> l_result (ps_cur st) = RC_FAILURE ->
  exists m s out, parse_and_write console custom fuel d args = WReturn st out /\
    In (EvError (l_command (ps_cur st)) m) (ps_events st) /\
    is_error_text (d_word_rules q) (help_width console q) (l_command (ps_cur st)) (error_text m) s /\
    streams custom out (said (ps_events st)) s.
Proof.
  intros fuel args st E R. pose proof (result_code_proof _ _ (finish_parser_prepared _ _ Fq) args st (ex_intro _ fuel E)) as Rc.
  destruct (returned_proof console custom d q Fq Hc Wr fuel args st E) as (out & Eo & H).
  destruct H as [(Z & _)|[(_ & m & s & Hi & Hs & ->)|[(o & So & _)|(o & s & So & _)]]]; [congruence| | |].
  { exists m, s. eexists. split; [exact Eo|]. split; [exact Hi|]. split; [exact Hs|apply streams_error]. }
  all: destruct Rc as (_ & _ & _ & (_ & Rs) & _); rewrite Rs in R by eauto; discriminate.
Qed.

Lemma stop_written : forall fuel args st o,
  run_parser (d_settings q) fuel (d_command q) args = Ret tt st -> l_stop (ps_cur st) = Some o ->
  exists out, parse_and_write console custom fuel d args = WReturn st out /\
    if match o_type o with OT_HELP => true | _ => false end
    then exists s, is_help_text (d_word_rules q) (help_width console q) (l_command (ps_cur st)) s /\
           streams custom out (said (ps_events st) ++ s) []
    else streams custom out (said (ps_events st)) [].
Proof.
  intros fuel args st o E R. pose proof (result_code_proof _ _ (finish_parser_prepared _ _ Fq) args st (ex_intro _ fuel E)) as Rc.
  destruct (returned_proof console custom d q Fq Hc Wr fuel args st E) as (out & Eo & H). exists out. split; [exact Eo|].
  destruct Rc as (_ & _ & _ & (_ & Rs) & _). specialize (Rs (ex_intro _ o R)).
  destruct H as [(Z & _)|[(Z & _)|[(o' & So & T & ->)|(o' & s & So & T & Hs & ->)]]]; [congruence|congruence| |];
    assert (o' = o) by congruence; subst o'.
  - destruct (o_type o); try (apply streams_texts). congruence.
  - rewrite T. exists s. split; [exact Hs|apply streams_help].
Qed.

Lemma exit_written : forall fuel args code st,
  run_parser (d_settings q) fuel (d_command q) args = Exits code st ->
  exists out, parse_and_write console custom fuel d args = WExit code st out /\
    ((code = s_error_exit (d_settings q) /\
      exists m s, In (EvError (l_command (ps_cur st)) m) (ps_events st) /\
        is_error_text (d_word_rules q) (help_width console q) (l_command (ps_cur st)) (error_text m) s /\
        streams custom out (said (ps_events st)) s) \/
     (code = s_normal_exit (d_settings q) /\ exists o, l_stop (ps_cur st) = Some o /\ o_type o = OT_EXIT /\
        streams custom out (said (ps_events st)) []) \/
     (code = s_normal_exit (d_settings q) /\ exists o s, l_stop (ps_cur st) = Some o /\ o_type o = OT_HELP /\
        is_help_text (d_word_rules q) (help_width console q) (ps_command st) s /\
        streams custom out (said (ps_events st) ++ s) [])).
Proof.
  intros fuel args code st E. destruct (exited_proof console custom d q Fq Hc Wr fuel args code st E) as (out & Eo & H).
  exists out. split; [exact Eo|].
  destruct H as [(-> & m & s & Hi & Hs & ->)|[(-> & o & So & T & ->)|(-> & o & s & So & T & Hs & ->)]].
  - left. split; [reflexivity|]. exists m, s. split; [exact Hi|]. split; [exact Hs|apply streams_error].
  - right. left. split; [reflexivity|]. exists o. split; [exact So|]. split; [exact T|apply streams_texts].
  - right. right. split; [reflexivity|]. exists o, s. split; [exact So|]. split; [exact T|]. split; [exact Hs|apply streams_help].
Qed.

Lemma throw_written : forall fuel args e st,
  run_parser (d_settings q) fuel (d_command q) args = Throws e st ->
  exists out, parse_and_write console custom fuel d args = WThrow e out /\
    ((e = EParseError /\
      exists m s, In (EvError (l_command (ps_cur st)) m) (ps_events st) /\
        is_error_text (d_word_rules q) (help_width console q) (l_command (ps_cur st)) (error_text m) s /\
        streams custom out (said (ps_events st)) s) \/
     ((e = ECallback \/ exists name, e = EUnknownValue name) /\ streams custom out (said (ps_events st)) [])).
Proof.
  intros fuel args e st E. destruct (thrown_proof console custom d q Fq Hc Wr fuel args e st E) as (out & Eo & H).
  exists out. split; [exact Eo|].
  destruct H as [(-> & m & s & Hi & Hs & ->)|(T & ->)].
  - left. split; [reflexivity|]. exists m, s. split; [exact Hi|]. split; [exact Hs|apply streams_error].
  - right. split; [exact T|apply streams_texts].
Qed.
End Streams.

(** Texts come from callbacks. *)
Lemma said_callbacks : forall d q fuel args st s, finish_parser d = Val q ->
  (run_parser (d_settings q) fuel (d_command q) args = Ret tt st \/
   (exists code, run_parser (d_settings q) fuel (d_command q) args = Exits code st) \/
   (exists e, run_parser (d_settings q) fuel (d_command q) args = Throws e st)) ->
  In (EvText s) (ps_events st) ->
  exists f n v vs, callback_of (d_settings q) (d_command q) f /\ In s (eff_out (f n v vs)).
Proof.
  intros d q fuel args st s Fq E H. pose proof (run_placed d q Fq fuel args) as Pl.
  destruct E as [E|[(c & E)|(e & E)]]; rewrite E in Pl; exact (pl_texts _ _ _ Pl s H).
Qed.

Lemma said_nothing : forall d q fuel args st, finish_parser d = Val q ->
  (run_parser (d_settings q) fuel (d_command q) args = Ret tt st \/
   (exists code, run_parser (d_settings q) fuel (d_command q) args = Exits code st) \/
   (exists e, run_parser (d_settings q) fuel (d_command q) args = Throws e st)) ->
  (forall f n v vs, callback_of (d_settings q) (d_command q) f -> eff_out (f n v vs) = []) ->
  said (ps_events st) = [].
Proof.
  intros d q fuel args st Fq E H. pose proof (fun s => said_callbacks d q fuel args st s Fq E) as Hs.
  revert Hs. generalize (ps_events st). induction l as [|e l IH]; intros Hs; [reflexivity|].
  change (said (e :: l)) with ((match e with EvText s => s | _ => [] end) ++ said l).
  rewrite IH by (intros s Hi; apply Hs; right; exact Hi).
  destruct e as [s| | | |]; try reflexivity. destruct (Hs s (or_introl eq_refl)) as (f & n & v & vs & Cf & Hi).
  rewrite (H f n v vs Cf) in Hi. destruct Hi.
Qed.

(** The widths that cannot be used. *)
Lemma narrow_formatter : forall console q, 2 < console -> (0 < d_line_width q <= 2)%N ->
  help_formatter console q = TThrows TLineWidth.
Proof.
  intros console q Hc Hw. unfold help_formatter, new_formatter.
  assert (A : (console <=? 2) = false) by (apply Nat.leb_gt; lia). rewrite A. cbn [tbind].
  assert (B : (d_line_width q =? 0)%N = false) by (apply N.eqb_neq; lia). rewrite B. unfold set_line_width.
  assert (C : (N.to_nat (d_line_width q) <=? 2) = true) by (apply Nat.leb_le; lia). rewrite C. reflexivity.
Qed.

Lemma narrow_written : forall console custom fuel d q args st, finish_parser d = Val q -> 2 < console ->
  (0 < d_line_width q <= 2)%N -> run_parser (d_settings q) fuel (d_command q) args = Ret tt st ->
  l_result (ps_cur st) = RC_FAILURE -> parse_and_write console custom fuel d args = WFormat TLineWidth.
Proof.
  intros console custom fuel d q args st Fq Hc Hw E R. unfold parse_and_write. rewrite Fq, E.
  pose proof (run_parser_post (d_settings q) (d_command q) (finish_parser_prepared _ _ Fq) args fuel) as H.
  rewrite E in H. cbn [post] in H. destruct H as (k & _ & [F|[S0|(o & S0 & _)]]).
  - destruct (fa_events _ _ _ F) as (evs & m & Ev & N0). rewrite Ev. unfold with_output.
    rewrite write_events_app, (write_calm _ _ _ _ N0). cbn [tbind write_events event_text].
    unfold write_error_message. rewrite (narrow_formatter _ _ Hc Hw). reflexivity.
  - destruct (su_codes _ _ _ _ S0 (ps_cur st) (or_introl eq_refl)). congruence.
  - rewrite (sp_code _ _ _ _ S0) in R. discriminate.
Qed.
