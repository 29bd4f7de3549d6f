(** The items that an iterator reports determine all results (C64). *)
From Verif Require Import Base BaseProofs MStrings MOptIter MData MCounter MValues MParser MText MHelp MApi
  STok SIndex SDef SValues SCounter SParser SStep
  TokProofs IndexProofs DefProofs FinishProofs ValuesProofs CounterProofs CounterInv
  MonadProofs FrameProofs InvProofs NextProofs ParseProofs StepProofs StepProofs2 SApi ApiProofs ItemProofs.
Open Scope nat_scope.

(** Agreement as a matter of the stored values themselves. *)
Inductive exact : account -> level -> Prop :=
| exactly : forall cs subs l, l_values l = fold_left apply_change cs [] -> Forall2 exact subs (l_subs l) ->
    exact (Acc (l_command l) cs subs) l.

Definition exacts (x : account * list account) (st : pstate) : Prop :=
  exact (fst x) (ps_cur st) /\ Forall2 exact (snd x) (ps_parents st).

Fixpoint exact_agrees (a : account) (l : level) (H : exact a l) {struct H} : agrees a l.
Proof.
  destruct H as [cs subs l V F]. constructor; [intros id; rewrite V; apply history_proof|].
  induction F as [|x y xs ys Hx F IH]; constructor; [apply exact_agrees, Hx|exact IH].
Qed.

Lemma exact_command : forall a l, exact a l -> acc_command a = l_command l.
Proof. intros a l []. reflexivity. Qed.

Definition same_books (l l' : level) : Prop :=
  l_command l' = l_command l /\ l_values l' = l_values l /\ l_subs l' = l_subs l.
Lemma exact_same : forall a l l', same_books l l' -> exact a l -> exact a l'.
Proof. intros a l l' S0 E. revert S0. destruct E as [cs subs l0 V F]. intros (A & B & C). rewrite <- A. constructor; [rewrite B; exact V|rewrite C; exact F]. Qed.
Lemma exact_change : forall a l l' x, l_command l' = l_command l -> l_subs l' = l_subs l ->
  l_values l' = replay x (l_values l) -> exact a l -> exact (with_change a x) l'.
Proof.
  intros a l l' x A C B E. revert A C B. destruct E as [cs subs l0 V F]. intros A C B. cbn [with_change]. rewrite <- A.
  destruct x as [y|]; constructor; try (rewrite C; exact F); rewrite B; cbn [replay]; [|exact V].
  rewrite fold_left_app, V. reflexivity.
Qed.
Lemma exact_given : forall a l s m, exact a l -> exact s m -> exact (with_given a s) (add_sub l m).
Proof.
  intros a l s m [cs subs l0 V F] E. cbn [with_given].
  change (l_command l0) with (l_command (add_sub l0 m)). constructor; [exact V|].
  cbn [add_sub l_subs]. apply Forall2_app; [exact F|constructor; [exact E|constructor]].
Qed.

Definition kept (st st' : pstate) : Prop :=
  same_books (ps_cur st) (ps_cur st') /\ Forall2 same_books (ps_parents st) (ps_parents st').
Lemma same_refl : forall l, same_books l l.
Proof. repeat split. Qed.
Lemma sames_refl : forall ls, Forall2 same_books ls ls.
Proof. induction ls; constructor; [apply same_refl|exact IHls]. Qed.
Lemma exacts_kept : forall x st st', kept st st' -> exacts x st -> exacts x st'.
Proof.
  intros x st st' (A & B) (C & D). split; [eapply exact_same; eassumption|].
  revert B. generalize (ps_parents st'). induction D as [|a l xs ls Ha D IH]; intros ms B; inversion B; subst; constructor; [eapply exact_same; eassumption|].
  apply IH. assumption.
Qed.

Lemma copy_kept : forall st, wf_iter (ps_iter st) -> when (fun _ st' => kept st st') (copy_remaining st).
Proof.
  intros st W. destruct (copy_remaining_eq st W) as (l & it & _ & _ & _ & ->). simpl. split; [repeat split|apply sames_refl].
Qed.
Lemma success_kept : forall st, kept st (after_success st).
Proof.
  intros st. unfold after_success, set_all_results. split; [repeat split|]. cbn. induction (ps_parents st); constructor; [repeat split|assumption].
Qed.
Lemma kept_trans : forall a b c, kept a b -> kept b c -> kept a c.
Proof.
  intros a b c (A & B) (C & D). split.
  - destruct A as (? & ? & ?), C as (? & ? & ?). repeat split; congruence.
  - revert D. generalize (ps_parents c). induction B as [|x y xs ys (X1 & X2 & X3) B IH]; intros zs D; inversion D as [|? z ? ? (Y1 & Y2 & Y3)]; subst; constructor; auto.
    repeat split; congruence.
Qed.
Lemma kept_refl : forall st, kept st st.
Proof. intros st. split; [apply same_refl|apply sames_refl]. Qed.

Lemma back_levels : forall parents above cur a k0, exact a cur -> Forall2 exact above parents ->
  match multi_parent_loop parents (S k0) with
  | Some k => exists n y, k = S n + k0 /\ back_to_multi a above = Some y /\
      exact (fst y) (fst (pop_levels (S n) cur parents)) /\ Forall2 exact (snd y) (snd (pop_levels (S n) cur parents))
  | None => back_to_multi a above = None
  end.
Proof.
  induction parents as [|p parents IH]; intros above cur a k0 E F; inversion F as [|b ? bs ? Eb F']; subst; cbn [multi_parent_loop back_to_multi]; [reflexivity|].
  rewrite (exact_command _ _ Eb). pose proof (exact_given _ _ _ _ Eb E) as X. destruct (c_multi (l_command p)).
  - exists 0, (with_given b a, bs). repeat split; [exact X|exact F'].
  - specialize (IH bs (add_sub p cur) (with_given b a) (S k0) X F'). destruct (multi_parent_loop parents (S (S k0))); [|exact IH].
    destruct IH as (m & y & -> & B & P1 & P2). exists (S m), y. split; [lia|]. split; [exact B|]. split; [exact P1|exact P2].
Qed.

Lemma total_levels : forall parents above cur a, exact a cur -> Forall2 exact above parents ->
  exact (total a above) (fst (pop_levels (length parents) cur parents)).
Proof.
  induction parents as [|p parents IH]; intros above cur a E F; inversion F; subst; [exact E|].
  cbn [total length pop_levels]. apply IH; [apply exact_given; assumption|assumption].
Qed.

Section Items.
Variables (p q : parser_data).
Hypothesis H : finish_parser p = Val q.
Let cfg := d_settings q.
Let top := d_command q.
Variable args : list str.
Hypothesis Hn : no_interference cfg top.

Definition item_booked (x : account * list account) (r : iter_result) (st' : pstate) : Prop :=
  ir_code r <> IC_ERROR -> exacts (book x r) st'.

Lemma apply_type_kept : forall o s r st', apply_type o s = Ret r st' ->
  kept s st' /\ ps_iter st' = ps_iter s /\ (r = OR_LAST_ARGUMENT <-> o_type o = OT_LAST_ARGUMENT).
Proof.
  intros o s r st' E. unfold apply_type in E.
  destruct (o_type o); unfold bind, gets, emit, modify, ret in E; injection E as <- <-;
    (split; [split; [repeat split|apply sames_refl]|split; [reflexivity|split; congruence]]).
Qed.

Lemma option_booked : forall x flag st, exacts x st -> shape cfg top st -> wf_iter (ps_iter st) ->
  when (fun r st' => item_booked x r st') (process_option cfg flag st).
Proof.
  intros x flag st Ex Sh W. unfold process_option. rewrite bind_gets.
  destruct (find_option (ps_command st) flag (s_abbreviations cfg) (s_case_insensitive cfg)) as [o|] eqn:F.
  - assert (Wi : within top (ps_command st)).
    { rewrite (sh_command _ _ _ Sh). eapply chain_within. apply (sh_chain _ _ _ Sh). }
    assert (Io : In o (c_options (ps_command st))).
    { eapply find_option_in_options; [|exact Wi|exact F]. eapply finish_parser_prepared; exact H. }
    eapply when_seq; [apply process_known_option_exact; exact W|].
    cbv beta. intros (r, v) s1 [(E & _)|(it' & s & Rd & Wt & C & Ap)].
    { injection E as -> ->. intros X. cbn in X. congruence. }
    cbn [fst snd] in *. destruct (apply_type_kept o s r s1 Ap) as (L1 & L4 & Lt).
    pose proof (cb2_frame _ _ _ _ _ _ _ _ C) as Fr.
    assert (Es : ps_cur s = ps_cur (started o st v it')).
    { apply (cb2_passive _ _ _ _ _ _ _ _ C).
      - intros f y vs Ef. apply Hn. eapply cb_option_own; eassumption.
      - intros f y vs Ef. apply Hn. eapply cb_option_global; eassumption. }
    assert (X1 : exacts (with_change (fst x) (option_change o v), snd x) s1).
    { apply (exacts_kept _ _ _ L1). destruct Ex as (A & B). split; cbn [fst snd]; [|rewrite (cf_parents _ _ Fr); exact B].
      rewrite Es. eapply exact_change; [| | |exact A]; reflexivity. }
    assert (W1 : wf_iter (ps_iter s1)) by (rewrite L4; apply (cf_wf _ _ Fr), Wt).
    assert (Main : r <> OR_LAST_ARGUMENT -> forall st', kept s1 st' -> item_booked x (mk_ir IC_OPTION (ItOption o) v) st').
    { intros Nl st' K _. destruct x as (cur, above). cbn [book ir_code ir_item item_change ir_value fst snd] in *.
      pose proof (exacts_kept _ _ _ K X1) as Z. destruct (o_type o); try exact Z. destruct Nl. apply Lt. reflexivity. }
    destruct r.
    + apply Main; [discriminate|apply kept_refl].
    + eapply when_seq; [apply check_counts_only; exact W1|].
      cbv beta. intros [|] s2 X; cbn [negb]; [subst s2|intros Y; cbn in Y; congruence].
      rewrite bind_gets. pose proof (success_kept s1) as K. pose proof (exacts_kept _ _ _ K X1) as (Z1 & Z2).
      pose proof (back_levels _ _ _ _ 0 Z1 Z2) as Bk. unfold find_first_multi_command_parent.
      pose proof (proj1 Lt eq_refl) as To.
      destruct (multi_parent_loop (ps_parents (after_success s1)) 1) as [k|].
      * destruct Bk as (n & y & -> & B & P1 & P2). rewrite Nat.add_0_r. unfold reactivate. rewrite bind_modify. cbn [fst snd] in B.
        intros _. destruct x as (cur, above). cbn [book ir_code ir_item item_change ir_value fst snd] in *. rewrite To, B.
        destruct (pop_levels (S n) _ _) as (cu, pa). split; [exact P1|exact P2].
      * eapply when_seq; [apply copy_kept; exact W1|]. cbv beta. intros _ s2 J _. destruct x as (cur, above).
        cbn [book ir_code ir_item item_change ir_value fst snd] in *. rewrite To, Bk. apply (exacts_kept _ _ _ J). split; assumption.
    + eapply when_seq; [apply copy_kept; exact W1|]. cbv beta. intros _ s2 K. apply Main; [discriminate|exact K].
    + destruct (s_auto_exit cfg); [exact I|]. eapply when_seq; [apply copy_kept; exact W1|]. cbv beta. intros _ s2 K. apply Main; [discriminate|exact K].
    + intros X. cbn in X. congruence.
  - assert (Er : forall m, when (fun r st' => item_booked x r st') ((error cfg m ;;; ret (mk_ir IC_ERROR ItNone [])) st)).
    { intros m. eapply when_seq; [apply error_only; exact W|]. cbv beta. intros _ s _ X. cbn in X. congruence. }
    destruct (negb (s_ignore_options cfg)).
    + unfold bind at 1, m_current. destruct (it_current _); [apply Er|exact I].
    + unfold bind at 1, m_current. destruct (it_current _) as [cur|]; [|exact I]. destruct (negb _); [apply Er|].
      rewrite bind_modify. intros _. destruct x as (a, above). cbn [book ir_code ir_item item_change with_change].
      eapply exacts_kept; [|]. 2:{ destruct a; exact Ex. } split; [repeat split|apply sames_refl].
Qed.

Lemma command_booked : forall d st x, exacts x st ->
  when (fun r st' => ir_code r = IC_COMMAND /\ ir_item r = ItCommand d /\ exacts (Acc d [] [], fst x :: snd x) st') (process_command cfg d st).
Proof.
  intros d st x (A & B). unfold process_command. rewrite bind_modify.
  eapply when_seq; [apply start_counter_when|]. cbv beta. intros _ s (ac & ->).
  rewrite bind_modify. unfold bind, m_current. destruct (it_current _); [|exact I].
  simpl. split; [reflexivity|]. split; [reflexivity|]. split; cbn.
  - apply (exactly [] [] (new_level d)); [reflexivity|constructor].
  - constructor; assumption.
Qed.

Lemma argument_booked : forall x value st, exacts x st -> shape cfg top st -> wf_iter (ps_iter st) -> c_commands (ps_command st) = [] ->
  when (fun r st' => item_booked x r st') (process_argument cfg value st).
Proof.
  intros x value st Ex Sh W Hc. pose proof (sh_from _ _ _ Sh) as Cf. unfold process_argument. rewrite bind_gets.
  destruct (find_sibling_command cfg st value) as [(c, k)|] eqn:Es.
  { unfold find_sibling_command in Es. destruct (negb _); [discriminate|]. unfold find_first_multi_command_parent in Es.
    destruct Ex as (Z1 & Z2). pose proof (back_levels _ _ _ _ 0 Z1 Z2) as Bk.
    destruct (multi_parent_loop (ps_parents st) 1) as [k'|]; [|discriminate].
    destruct (parent_command st k') as [pc|]; [|discriminate]. destruct (find_command pc value _) as [c'|]; [|discriminate].
    injection Es as -> ->. destruct Bk as (n & y & -> & B & P1 & P2). rewrite Nat.add_0_r. unfold reactivate. rewrite bind_modify.
    eapply when_mono; [apply (command_booked c _ y)|].
    2:{ cbv beta. intros r st' (C1 & C2 & C3) _. destruct x as (cur, above). cbn [book fst snd] in *. rewrite C1, C2.
      rewrite (exact_command _ _ Z1), <- (sh_command _ _ _ Sh), Hc, B. destruct y. exact C3. }
    destruct (pop_levels (S n) _ _) as (cu, pa). split; [exact P1|exact P2]. }
  unfold bind at 1, m_next_argument. destruct (next_argument (ps_counter st)) as ([a|], ac) eqn:En.
  - rewrite bind_modify.
    rewrite <- (bind_assoc (run_callback cfg (a_callback a) (arg_own_event a value) value)
                  (fun _ => run_callback cfg (argument_cb cfg a) (arg_global_event a value) value)
                  (fun _ => ret (mk_ir IC_ARGUMENT (ItArgument a) value))).
    eapply when_seq; [apply two_callbacks_exact; auto|]. cbv beta. intros _ s C _.
    assert (Ia : In a (c_arguments (ps_command st))) by (apply (counter_from_next _ _ Cf); rewrite En; reflexivity).
    assert (Wi : within top (ps_command st)).
    { rewrite (sh_command _ _ _ Sh). eapply chain_within. apply (sh_chain _ _ _ Sh). }
    pose proof (cb2_frame _ _ _ _ _ _ _ _ C) as Fr. destruct x as (cur, above), Ex as (Z1 & Z2).
    cbn [book ir_code ir_item item_change ir_value fst snd] in *.
    split; cbn [fst snd]; [|rewrite (cf_parents _ _ Fr); exact Z2].
    rewrite (cb2_passive _ _ _ _ _ _ _ _ C).
    + eapply exact_change; [| | |exact Z1]; reflexivity.
    + intros f v vs Ef. apply Hn. eapply cb_argument_own; eassumption.
    + intros f v vs Ef. apply Hn. eapply cb_argument_global; eassumption.
  - destruct (s_ignore_arguments cfg).
    + rewrite bind_modify. unfold bind at 1, m_current. destruct (it_current _); [|exact I]. intros _.
      destruct x as (b, above). cbn [book ir_code ir_item item_change with_change].
      eapply exacts_kept; [|]. 2:{ destruct b; exact Ex. } split; [repeat split|apply sames_refl].
    + eapply when_seq; [apply error_only; exact W|]. cbv beta. intros _ s _ X. cbn in X. congruence.
Qed.

Lemma next_booked : forall x st, shape cfg top st -> exacts x st -> when (fun r st' => item_booked x r st') (next cfg st).
Proof.
  intros x st Sh Ex. pose proof (sh_wf _ _ _ Sh) as W.
  assert (Dn : forall st', kept st st' -> item_booked x (mk_ir IC_DONE ItNone []) st').
  { intros st' K _. destruct x as (b, above). cbn [book ir_code ir_item item_change with_change].
    apply (exacts_kept _ _ _ K). destruct b; exact Ex. }
  destruct (ps_mode st) eqn:M.
  3:{ unfold next. rewrite bind_gets, M. apply Dn, kept_refl. }
  3:{ unfold next. rewrite bind_gets, M. exact I. }
  all: assert (Pr : in_progress (ps_mode st)) by (rewrite M; unfold in_progress; auto);
    destruct (reads_some st W Pr) as (t & it & R);
    destruct (reads_wf _ _ _ W R) as (W' & Ki);
    rewrite (next_eq cfg _ _ _ R); destruct t as [t|].
  2,4: eapply when_seq; [apply check_counts_only; exact W'|]; cbv beta; intros [|] s2 X; [subst s2|intros Y; cbn in Y; congruence];
    apply Dn; eapply kept_trans; [|apply success_kept]; split; [repeat split|apply sames_refl].
  all: assert (Sh' : shape cfg top (set_iter st it)) by
      (destruct Sh; constructor; cbn; try assumption; [rewrite Ki; assumption]).
  all: assert (Ex' : exacts x (set_iter st it)) by exact Ex.
  all: unfold process_token; rewrite bind_gets; destruct (_ && _).
  1,3: exact (option_booked x t (set_iter st it) Ex' Sh' W').
  all: change (ps_command (set_iter st it)) with (ps_command st); destruct (c_commands (ps_command st)) as [|c0 cr] eqn:Ec; cbn [is_empty].
  1,3: exact (argument_booked x t (set_iter st it) Ex' Sh' W' Ec).
  all: destruct (find_command (ps_command st) t (s_case_insensitive cfg)) as [d|];
    [|eapply when_seq; [apply error_only; exact W'|]; cbv beta; intros _ s _ X; cbn in X; congruence].
  all: eapply when_mono; [apply (command_booked d _ x); exact Ex'|];
    cbv beta; intros r st' (C1 & C2 & C3) _; destruct x as (cur, above), Ex as (Z1 & Z2); cbn [book fst snd] in *; rewrite C1, C2;
    rewrite (exact_command _ _ Z1), <- (sh_command _ _ _ Sh), Ec; exact C3.
Qed.

Lemma steps_booked : forall st rs st', steps cfg st rs st' -> forall n x, reached cfg top args st n -> exacts x st ->
  (forall r, In r rs -> ir_code r <> IC_ERROR) -> exacts (booked x rs) st'.
Proof.
  intros st rs st' S0. induction S0 as [st|st r st1 rs st2 E S0 IH]; intros n x R Ex Hr; [exact Ex|].
  pose proof (next_booked x st (reached_shape p q H args st n R) Ex) as X. rewrite E in X. cbn [when post] in X.
  exact (IH (count_after st n r st1) (book x r) (reached_next _ _ _ _ _ _ _ R E) (X (Hr r (or_introl eq_refl))) (fun y Hy => Hr y (or_intror Hy))).
Qed.

Lemma C64_all_proof : forall st0 rs st, start_counter cfg (initial_state cfg top args) = Ret tt st0 -> steps cfg st0 rs st ->
  (forall r, In r rs -> ir_code r <> IC_ERROR) ->
  let (cur, above) := booked (Acc top (given_changes initial_change (c_options top)) [], []) rs in
  agrees (total cur above) (toplevel st) /\ agrees cur (ps_cur st).
Proof.
  intros st0 rs st E S0 Hr.
  destruct (start_post cfg top args) as (s & E' & Ru & M & It & _ & Co & Pa & _ & Cu).
  rewrite E in E'. injection E' as <-.
  pose proof (steps_booked st0 rs st S0 0 (Acc top (given_changes initial_change (c_options top)) [], [])) as X.
  destruct (booked _ rs) as (cur, above). destruct X as (X1 & X2); [constructor; exact E| |exact Hr|].
  { split; cbn [fst snd]; [|rewrite Pa; constructor]. rewrite Cu.
    change top with (l_command (set_l_values (new_level top) (initial_values (c_options top)))) at 1.
    constructor; [apply initial_changes|constructor]. }
  cbn [fst snd] in *. split; apply exact_agrees; [apply total_levels; assumption|exact X1].
Qed.
End Items.
