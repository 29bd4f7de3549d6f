(** The items that an iterator reports determine the values (C64). *)
From Verif Require Import Base BaseProofs MStrings MOptIter MData MCounter MValues MParser MText MHelp MApi
  STok SIndex SDef SValues SCounter SParser SStep
  TokProofs IndexProofs DefProofs FinishProofs ValuesProofs CounterProofs CounterInv
  MonadProofs FrameProofs InvProofs NextProofs ParseProofs StepProofs StepProofs2 SApi ApiProofs.
Open Scope nat_scope.

Definition replay (c : option change) (vs : store) : store := match c with None => vs | Some c => apply_change vs c end.

Section Items.
Variables (p q : parser_data).
Hypothesis H : finish_parser p = Val q.
Let cfg := d_settings q.
Let top := d_command q.
Variable args : list str.
Hypothesis Hn : no_interference cfg top.
Hypothesis Hc : c_commands top = [].

Definition alone (st : pstate) : Prop := ps_parents st = [] /\ ps_command st = top.

Definition keeps_level (st st' : pstate) : Prop :=
  ps_parents st' = ps_parents st /\ ps_command st' = ps_command st /\ l_values (ps_cur st') = l_values (ps_cur st).

Lemma copy_level : forall st, wf_iter (ps_iter st) -> when (fun _ st' => keeps_level st st') (copy_remaining st).
Proof. intros st W. destruct (copy_remaining_eq st W) as (l & it & _ & _ & _ & ->). simpl. repeat split. Qed.

Lemma success_level : forall st, ps_parents st = [] -> keeps_level st (after_success st).
Proof. intros st P. unfold keeps_level, after_success, set_all_results. cbn. rewrite P. repeat split. Qed.

Definition item_done (st : pstate) (r : iter_result) (st' : pstate) : Prop :=
  ir_code r <> IC_ERROR -> alone st' /\ l_values (ps_cur st') = replay (item_change r) (l_values (ps_cur st)).

Lemma apply_type_level : forall o s r st', apply_type o s = Ret r st' ->
  keeps_level s st' /\ ps_iter st' = ps_iter s.
Proof.
  intros o s r st' E. unfold apply_type in E.
  destruct (o_type o); unfold bind, gets, emit, modify, ret in E; injection E as _ <-; repeat split.
Qed.

Lemma option_item : forall flag st, alone st -> wf_iter (ps_iter st) ->
  when (fun r st' => item_done st r st') (process_option cfg flag st).
Proof.
  intros flag st (Pa & Co) W. unfold process_option. rewrite bind_gets.
  destruct (find_option (ps_command st) flag (s_abbreviations cfg) (s_case_insensitive cfg)) as [o|] eqn:F.
  - assert (Wi : within top (ps_command st)) by (rewrite Co; constructor).
    assert (Io : In o (c_options (ps_command st))).
    { eapply find_option_in_options; [|exact Wi|exact F]. eapply finish_parser_prepared; exact H. }
    eapply when_seq; [apply process_known_option_exact; exact W|].
    cbv beta. intros (r, v) s1 [(E & _)|(it' & s & Rd & Wt & C & Ap)].
    { injection E as -> ->. intros X. cbn in X. congruence. }
    cbn [fst snd] in *. destruct (apply_type_level o s r s1 Ap) as ((L1 & L2 & L3) & L4).
    pose proof (cb2_frame _ _ _ _ _ _ _ _ C) as Fr.
    assert (Es : ps_cur s = ps_cur (started o st v it')).
    { apply (cb2_passive _ _ _ _ _ _ _ _ C).
      - intros f x vs Ef. apply Hn. eapply cb_option_own; eassumption.
      - intros f x vs Ef. apply Hn. eapply cb_option_global; eassumption. }
    assert (Al : alone s1).
    { split; [rewrite L1, (cf_parents _ _ Fr); exact Pa|rewrite L2, (cf_command _ _ Fr); exact Co]. }
    assert (Vs : l_values (ps_cur s1) = replay (option_change o v) (l_values (ps_cur st))).
    { rewrite L3, Es. reflexivity. }
    assert (W1 : wf_iter (ps_iter s1)) by (rewrite L4; apply (cf_wf _ _ Fr), Wt).
    assert (Main : forall st', keeps_level s1 st' -> item_done st (mk_ir IC_OPTION (ItOption o) v) st').
    { intros st' (K1 & K2 & K3) _. destruct Al as (A1 & A2). split; [split; congruence|]. rewrite K3. exact Vs. }
    destruct r.
    + apply Main. repeat split.
    + eapply when_seq; [apply check_counts_only; exact W1|].
      cbv beta. intros [|] s2 X; cbn [negb]; [subst s2|intros Y; cbn in Y; congruence].
      rewrite bind_gets. pose proof (success_level s1 (proj1 Al)) as (K1 & K2 & K3).
      assert (Ef : find_first_multi_command_parent (after_success s1) = None).
      { unfold find_first_multi_command_parent. rewrite K1, (proj1 Al). reflexivity. }
      rewrite Ef. eapply when_seq; [apply copy_level; exact W1|]. cbv beta. intros _ s2 (J1 & J2 & J3). apply Main.
      repeat split; congruence.
    + eapply when_seq; [apply copy_level; exact W1|]. cbv beta. intros _ s2 K. apply Main, K.
    + destruct (s_auto_exit cfg); [exact I|]. eapply when_seq; [apply copy_level; exact W1|]. cbv beta. intros _ s2 K. apply Main, K.
    + intros X. cbn in X. congruence.
  - assert (Er : forall m, when (fun r st' => item_done st r st') ((error cfg m ;;; ret (mk_ir IC_ERROR ItNone [])) st)).
    { intros m. eapply when_seq; [apply error_only; exact W|]. cbv beta. intros _ s _ X. cbn in X. congruence. }
    destruct (negb (s_ignore_options cfg)).
    + unfold bind at 1, m_current. destruct (it_current _); [apply Er|exact I].
    + unfold bind at 1, m_current. destruct (it_current _) as [cur|]; [|exact I]. destruct (negb _); [apply Er|].
      rewrite bind_modify. intros _. split; [split; assumption|]. reflexivity.
Qed.

Lemma argument_item : forall value st, alone st -> wf_iter (ps_iter st) -> counter_from (c_arguments (ps_command st)) (ps_counter st) ->
  when (fun r st' => item_done st r st') (process_argument cfg value st).
Proof.
  intros value st (Pa & Co) W Cf. unfold process_argument. rewrite bind_gets.
  assert (Es : find_sibling_command cfg st value = None).
  { unfold find_sibling_command, find_first_multi_command_parent. destruct (negb _); [reflexivity|]. rewrite Pa. reflexivity. }
  rewrite Es. unfold bind at 1, m_next_argument. destruct (next_argument (ps_counter st)) as ([a|], ac) eqn:En.
  - rewrite bind_modify.
    rewrite <- (bind_assoc (run_callback cfg (a_callback a) (arg_own_event a value) value)
                  (fun _ => run_callback cfg (argument_cb cfg a) (arg_global_event a value) value)
                  (fun _ => ret (mk_ir IC_ARGUMENT (ItArgument a) value))).
    eapply when_seq; [apply two_callbacks_exact; auto|]. cbv beta. intros _ s C _.
    assert (Ia : In a (c_arguments (ps_command st))) by (apply (counter_from_next _ _ Cf); rewrite En; reflexivity).
    assert (Wi : within top (ps_command st)) by (rewrite Co; constructor).
    pose proof (cb2_frame _ _ _ _ _ _ _ _ C) as Fr. split.
    + split; [rewrite (cf_parents _ _ Fr); exact Pa|rewrite (cf_command _ _ Fr); exact Co].
    + rewrite (cb2_passive _ _ _ _ _ _ _ _ C); [reflexivity| |].
      * intros f v vs Ef. apply Hn. eapply cb_argument_own; eassumption.
      * intros f v vs Ef. apply Hn. eapply cb_argument_global; eassumption.
  - destruct (s_ignore_arguments cfg).
    + rewrite bind_modify. unfold bind at 1, m_current. destruct (it_current _); [|exact I]. intros _. split; [split; assumption|reflexivity].
    + eapply when_seq; [apply error_only; exact W|]. cbv beta. intros _ s _ X. cbn in X. congruence.
Qed.

Lemma next_item : forall st, shape cfg top st -> alone st -> when (fun r st' => item_done st r st') (next cfg st).
Proof.
  intros st Sh Al. pose proof (sh_wf _ _ _ Sh) as W. destruct (ps_mode st) eqn:M.
  3:{ unfold next. rewrite bind_gets, M. intros _. split; [exact Al|reflexivity]. }
  3:{ unfold next. rewrite bind_gets, M. exact I. }
  all: assert (Pr : in_progress (ps_mode st)) by (rewrite M; unfold in_progress; auto);
    destruct (reads_some st W Pr) as (t & it & R);
    destruct (reads_wf _ _ _ W R) as (W' & _);
    rewrite (next_eq cfg _ _ _ R); destruct t as [t|].
  2,4: eapply when_seq; [apply check_counts_only; exact W'|]; cbv beta; intros [|] s2 X; [subst s2|intros Y; cbn in Y; congruence];
    intros _; pose proof (success_level (set_iter st it) (proj1 Al)) as (K1 & K2 & K3); destruct Al as (A1 & A2);
    (split; [split; [rewrite K1; exact A1|rewrite K2; exact A2]|exact K3]).
  all: unfold process_token; rewrite bind_gets; destruct (_ && _).
  1,3: exact (option_item t (set_iter st it) Al W').
  all: change (ps_command (set_iter st it)) with (ps_command st); rewrite (proj2 Al), Hc; cbn [is_empty];
    exact (argument_item t (set_iter st it) Al W' (sh_from _ _ _ Sh)).
Qed.

Lemma steps_items : forall st rs st', steps cfg st rs st' -> forall n, reached cfg top args st n -> alone st ->
  (forall r, In r rs -> ir_code r <> IC_ERROR) ->
  alone st' /\ l_values (ps_cur st') = fold_left apply_change (given_changes item_change rs) (l_values (ps_cur st)).
Proof.
  intros st rs st' S0. induction S0 as [st|st r st1 rs st2 E S0 IH]; intros n R Al Hr; [split; [exact Al|reflexivity]|].
  pose proof (next_item st (reached_shape p q H args st n R) Al) as X. rewrite E in X. cbn [when post] in X.
  destruct (X (Hr r (or_introl eq_refl))) as (Al1 & V1).
  destruct (IH (count_after st n r st1) (reached_next _ _ _ _ _ _ _ R E) Al1) as (Al2 & V2); [intros x Hx; apply Hr; right; exact Hx|].
  split; [exact Al2|]. rewrite V2, V1. unfold given_changes. cbn [flat_map]. rewrite fold_left_app. f_equal.
  destruct (item_change r); reflexivity.
Qed.

Lemma initial_changes : forall opts, initial_values opts = fold_left apply_change (given_changes initial_change opts) [].
Proof.
  intros opts. unfold initial_values. generalize (@nil (N * (str * N))). induction opts as [|o opts IH]; intros vs; [reflexivity|].
  unfold given_changes in *. cbn [fold_left flat_map]. rewrite fold_left_app, IH. f_equal. unfold initial_change.
  destruct (o_initial_value o); reflexivity.
Qed.

Lemma C64_proof : forall st0 rs st id,
  start_counter cfg (initial_state cfg top args) = Ret tt st0 -> steps cfg st0 rs st ->
  (forall r, In r rs -> ir_code r <> IC_ERROR) ->
  get_values (l_values (toplevel st)) id = history (given_changes initial_change (c_options top) ++ given_changes item_change rs) id.
Proof.
  intros st0 rs st id E S0 Hr.
  destruct (start_post cfg top args) as (s & E' & Ru & M & It & _ & Co & Pa & _ & Cu).
  rewrite E in E'. injection E' as <-.
  destruct (steps_items st0 rs st S0 0) as ((Pa' & _) & V); [constructor; exact E| |exact Hr|].
  { split; [exact Pa|]. rewrite (sh_command cfg top st0); [rewrite Cu; reflexivity|].
    apply (reached_shape p q H args st0 0). constructor. exact E. }
  unfold toplevel. rewrite Pa'. cbn [length pop_levels fst]. rewrite V, Cu. cbn [set_l_values new_level l_values].
  rewrite initial_changes, <- fold_left_app. apply history_proof.
Qed.
End Items.
