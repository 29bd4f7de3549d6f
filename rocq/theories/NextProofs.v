(** The invariant is kept by all parts of the parser. *)
From Verif Require Import Base BaseProofs MStrings MOptIter MData MCounter MValues MParser
  STok SIndex SDef SValues SCounter SParser
  TokProofs IndexProofs DefProofs FinishProofs ValuesProofs CounterProofs CounterInv
  MonadProofs FrameProofs InvProofs.
Open Scope nat_scope.

(** From the n'th invocation on, no callback inserts arguments. *)
Definition quiet_from (cfg : settings) (top : cmd_data) (n : nat) : Prop :=
  forall f, callback_of cfg top f -> forall m v vs, n <= m -> eff_new (f m v vs) = [].

Definition calm (cfg : settings) (top : cmd_data) (st st' : pstate) : Prop :=
  ps_calls st <= ps_calls st' /\
  (ps_calls st' = ps_calls st \/ quiet_from cfg top (ps_calls st) ->
   meas (ps_iter st') <= meas (ps_iter st)).

Definition progress (cfg : settings) (top : cmd_data) (st st' : pstate) : Prop :=
  ps_calls st <= ps_calls st' /\
  (ps_calls st' = ps_calls st \/ quiet_from cfg top (ps_calls st) ->
   meas (ps_iter st') < meas (ps_iter st)).

(** Exceptions come from callbacks. *)
Definition cb_thrown (cfg : settings) (top : cmd_data) (e : exn) (st : pstate) : Prop :=
  cb_throw cfg e st /\ exists f, callback_of cfg top f.

Section Next.
Variable cfg : settings.
Variable top : cmd_data.
Hypothesis P : prepared top.

Lemma calm_refl : forall st, calm cfg top st st.
Proof. intros st. split; auto. Qed.

Lemma quiet_from_le : forall n m, n <= m -> quiet_from cfg top n -> quiet_from cfg top m.
Proof. intros n m L Q f Hf i v vs H. apply Q; [exact Hf|lia]. Qed.

Lemma calm_trans : forall a b c, calm cfg top a b -> calm cfg top b c -> calm cfg top a c.
Proof.
  intros a b c (L1 & M1) (L2 & M2). split; [lia|]. intros [H|H].
  - assert (meas (ps_iter c) <= meas (ps_iter b)) by (apply M2; left; lia).
    assert (meas (ps_iter b) <= meas (ps_iter a)) by (apply M1; left; lia). lia.
  - assert (meas (ps_iter c) <= meas (ps_iter b)).
    { apply M2. right. eapply quiet_from_le; [|exact H]. exact L1. }
    assert (meas (ps_iter b) <= meas (ps_iter a)) by (apply M1; right; exact H). lia.
Qed.

Lemma progress_calm : forall a b c, progress cfg top a b -> calm cfg top b c -> progress cfg top a c.
Proof.
  intros a b c (L1 & M1) (L2 & M2). split; [lia|]. intros [H|H].
  - assert (meas (ps_iter c) <= meas (ps_iter b)) by (apply M2; left; lia).
    assert (meas (ps_iter b) < meas (ps_iter a)) by (apply M1; left; lia). lia.
  - assert (meas (ps_iter c) <= meas (ps_iter b)).
    { apply M2. right. eapply quiet_from_le; [|exact H]. exact L1. }
    assert (meas (ps_iter b) < meas (ps_iter a)) by (apply M1; right; exact H). lia.
Qed.

Lemma calm_same : forall a b, ps_calls b = ps_calls a -> ps_iter b = ps_iter a -> calm cfg top a b.
Proof. intros a b E1 E2. unfold calm. rewrite E1, E2. split; auto. Qed.

Lemma running_within : forall k st, running cfg top k st -> within top (ps_command st).
Proof.
  intros k st R. rewrite (sh_command _ _ _ (ru_shape _ _ _ _ R)).
  eapply chain_within. apply (sh_chain _ _ _ (ru_shape _ _ _ _ R)).
Qed.

(* ------------------------------------------------------------------------ *)
(** ** Errors *)

Lemma copy_remaining_eq : forall st, wf_iter (ps_iter st) -> exists l it,
  it_remaining (ps_iter st) = Ok (l, it) /\ wf_iter it /\ it_kind it = it_kind (ps_iter st) /\
  copy_remaining st = Ret tt (set_cur (set_iter st it) (add_unprocessed (ps_cur st) l)).
Proof.
  intros st W. destruct (remaining_wf _ W) as (l & it & E & W' & K).
  exists l, it. repeat (split; [assumption|]). unfold copy_remaining. rewrite E. reflexivity.
Qed.

Definition after_error (st : pstate) (m : errmsg) (l : list str) (it : opt_iter) : pstate :=
  set_mode (set_all_results RC_FAILURE
    (set_cur (set_iter (add_event st (EvError (ps_command st) m)) it)
       (add_unprocessed (ps_cur st) l))) ST_ERROR.

Lemma error_eq : forall m st, wf_iter (ps_iter st) ->
  if s_auto_exit cfg
  then error cfg m st = Exits (s_error_exit cfg)
                          (add_event st (EvError (ps_command st) m))
  else exists l it, it_remaining (ps_iter st) = Ok (l, it) /\ wf_iter it /\
         it_kind it = it_kind (ps_iter st) /\
         error cfg m st = Ret tt (after_error st m l it).
Proof.
  intros m st W. unfold error. destruct (s_auto_exit cfg); [reflexivity|].
  destruct (copy_remaining_eq (add_event st (EvError (ps_command st) m)) W)
    as (l & it & E & W' & K & C).
  exists l, it. split; [exact E|]. split; [exact W'|]. split; [exact K|].
  rewrite bind_gets, bind_emit. unfold bind at 1. rewrite C. reflexivity.
Qed.

Lemma open_ok_unprocessed : forall l us, open_ok l -> open_ok (add_unprocessed l us).
Proof.
  intros l us H. eapply open_ok_same; [| | |exact H]; try reflexivity.
  destruct H as ((_ & _ & V) & _). exact V.
Qed.

Lemma shape_cur : forall st it l, shape cfg top st -> wf_iter it ->
  it_kind it = it_kind (ps_iter st) -> l_command l = l_command (ps_cur st) -> open_ok l ->
  shape cfg top (set_cur (set_iter st it) l).
Proof.
  intros st it l [A1 A2 A3 A4 A5 A6] W K C O. constructor; try assumption.
  - simpl. congruence.
  - simpl. eapply chain_command; [exact C|exact A2].
  - unfold open_levels in *. simpl. inversion A3; subst. constructor; assumption.
  - simpl. congruence.
Qed.

Lemma running_failed : forall k st m l it, running cfg top k st -> wf_iter it ->
  it_kind it = it_kind (ps_iter st) -> s_auto_exit cfg = false ->
  failed cfg top (after_error st m l it).
Proof.
  intros k st m l it [A B C D] W K E.
  assert (S1 : shape cfg top (set_cur (set_iter st it) (add_unprocessed (ps_cur st) l))).
  { apply shape_cur; auto. apply open_ok_unprocessed.
    pose proof (sh_open _ _ _ A) as H. inversion H; assumption. }
  constructor.
  - apply (shape_results cfg top RC_FAILURE) in S1. destruct S1 as [X1 X2 X3 X4 X5 X6].
    constructor; assumption.
  - reflexivity.
  - apply codes_results. unfold open_levels in *. inversion B; subst. simpl.
    constructor; assumption.
  - do 2 eexists. split; [reflexivity|exact C].
  - exact E.
Qed.

Lemma error_post : forall k m st, running cfg top k st ->
  post (fun _ st' => failed cfg top st') (ex_exit cfg) (fun _ _ => False) False False
    (error cfg m st).
Proof.
  intros k m st R. pose proof (sh_wf _ _ _ (ru_shape _ _ _ _ R)) as W.
  pose proof (error_eq m st W) as H. destruct (s_auto_exit cfg) eqn:A.
  - rewrite H. simpl. split; [exact A|]. left. split; [reflexivity|].
    exists (ps_events st), m. cbn [add_event ps_events ps_cur].
    rewrite <- (sh_command _ _ _ (ru_shape _ _ _ _ R)). split; [reflexivity|apply R].
  - destruct H as (l & it & E & W' & K & ->). simpl. eapply running_failed; eassumption.
Qed.

(* ------------------------------------------------------------------------ *)
(** ** The final checks *)

Lemma has_all_mandatory_post : forall k opts st, running cfg top k st ->
  post (fun (b : bool) st' => if b then st' = st /\ forall o, In o opts -> o_optional o = false ->
                            has_value (l_values (ps_cur st)) (o_value_id o) = true
                     else failed cfg top st')
    (ex_exit cfg) (fun _ _ => False) False False (has_all_mandatory cfg opts st).
Proof.
  intros k. induction opts as [|o opts IH]; intros st R; cbn [has_all_mandatory].
  - simpl. split; [reflexivity|]. intros o [].
  - rewrite bind_gets. destruct (negb (o_optional o) && negb _) eqn:E.
    + eapply post_seq; [apply (error_post k); exact R| |auto|auto|auto|auto]. simpl. auto.
    + eapply post_mono; [apply IH; exact R| |auto|auto|auto|auto].
      intros [|] st' H; [|exact H]. destruct H as (-> & H). split; [reflexivity|].
      intros o' [<-|Ho] Op; [|apply H; assumption].
      rewrite Op in E. simpl in E. destruct (has_value _ _); [reflexivity|discriminate].
Qed.

Definition after_success (st : pstate) : pstate :=
  set_all_results RC_SUCCESS (set_mode st ST_DONE).

Lemma check_counts_post : forall k st, running cfg top k st ->
  post (fun (b : bool) st' => if b then st' = after_success st /\ succeeded cfg top k st'
                     else failed cfg top st')
    (ex_exit cfg) (fun _ _ => False) False False (check_counts cfg st).
Proof.
  intros k st R. unfold check_counts. rewrite bind_gets.
  eapply post_seq; [apply (has_all_mandatory_post k); exact R| |auto|auto|auto|auto].
  cbv beta. intros [|] s H; cbn [negb]; cbv beta iota; [|exact H].
  destruct H as (-> & Hm).
  destruct (c_require (ps_command st)) as [req|] eqn:Er.
  2:{ destruct (P _ (running_within k st R)) as (N0 & _). contradiction. }
  cbn [negb]. cbv beta iota. rewrite bind_gets. destruct (req && is_empty (l_subs (ps_cur st))) eqn:Es.
  { eapply post_seq; [apply (error_post k); exact R| |auto|auto|auto|auto]. simpl. auto. }
  rewrite bind_gets. destruct (is_complete (ps_counter st)) eqn:Ec.
  - rewrite bind_modify. simpl. split; [reflexivity|].
    change (set_all_results RC_SUCCESS (set_mode st ST_DONE)) with (after_success st).
    constructor.
    + apply shape_results. apply (ru_shape cfg top k). apply running_mode. exact R.
    + reflexivity.
    + apply codes_results. apply (ru_codes _ _ _ _ R).
    + apply (ru_events _ _ _ _ R).
    + exact Hm.
    + intros Hr. simpl in *. rewrite Er in Hr. injection Hr as ->. simpl in Es.
      destruct (l_subs (ps_cur st)); discriminate.
    + exact Ec.
    + apply (ru_counter _ _ _ _ R).
  - destruct (get_min_max_count _) as (lo, hi).
    eapply post_seq; [apply (error_post k); exact R| |auto|auto|auto|auto]. simpl. auto.
Qed.

(* ------------------------------------------------------------------------ *)
(** ** Options *)

(** What happens while an option or argument is processed, before its type takes
    effect. *)
Record step_frame (k : N) (st st' : pstate) : Prop := {
  sf_running : running cfg top k st';
  sf_command : ps_command st' = ps_command st;
  sf_parents : ps_parents st' = ps_parents st;
  sf_subs : l_subs (ps_cur st') = l_subs (ps_cur st);
  sf_mode : ps_mode st' = ps_mode st;
  sf_args : it_args (ps_iter st') <> [];
  sf_calm : calm cfg top st st'
}.

Lemma step_frame_trans : forall k a b c, step_frame k a b -> step_frame k b c -> step_frame k a c.
Proof.
  intros k a b c [A1 A2 A3 A4 A5 A6 A7] [B1 B2 B3 B4 B5 B6 B7].
  constructor; try assumption; try congruence. eapply calm_trans; eassumption.
Qed.

Lemma step_frame_values : forall k st c, running cfg top k st -> it_args (ps_iter st) <> [] ->
  step_frame k st (set_values st (apply_change (l_values (ps_cur st)) c)).
Proof.
  intros k st c R A. constructor; try reflexivity; try assumption.
  - apply running_values. exact R.
  - apply calm_same; reflexivity.
Qed.

Lemma step_frame_value : forall k st v it, running cfg top k st ->
  it_next_value (ps_iter st) = Ok (Some v, it) -> step_frame k st (set_iter st it).
Proof.
  intros k st v it R E. pose proof (sh_wf _ _ _ (ru_shape _ _ _ _ R)) as W.
  destruct (next_value_wf _ W) as (t & it' & E' & W' & K'). rewrite E in E'.
  injection E' as <- <-. apply next_value_meas in E. destruct E as (L & Ne).
  constructor; try reflexivity.
  - apply running_iter; assumption.
  - exact Ne.
  - split; [apply le_n|]. simpl. lia.
Qed.

Lemma apply_operation_post : forall k o flag st, running cfg top k st ->
  it_args (ps_iter st) <> [] ->
  post (fun (v : option str) st' => match v with
                     | Some _ => step_frame k st st' /\ ps_calls st' = ps_calls st
                     | None => failed cfg top st'
                     end)
    (ex_exit cfg) (fun _ _ => False) False False (apply_operation cfg o flag st).
Proof.
  intros k o flag st R A. pose proof (sh_wf _ _ _ (ru_shape _ _ _ _ R)) as W.
  assert (V : forall (ch : str -> change),
    post (fun (v : option str) st' => match v with
                     | Some _ => step_frame k st st' /\ ps_calls st' = ps_calls st
                     | None => failed cfg top st'
                     end)
    (ex_exit cfg) (fun _ _ => False) False False
    ((v <- m_next_value ;;
        match v with
        | Some value =>
            modify (fun st => set_values st (apply_change (l_values (ps_cur st)) (ch value))) ;;;
            ret (Some value)
        | None => error cfg (MsgNoValue flag) ;;; ret None
        end) st)).
  { intros ch. unfold bind at 1. unfold m_next_value.
    destruct (next_value_wf _ W) as (t & it & E & W' & K). rewrite E. destruct t as [t|].
    - rewrite bind_modify. simpl. split; [|reflexivity].
      pose proof (step_frame_value k st t it R E) as F.
      eapply step_frame_trans; [exact F|].
      apply (step_frame_values k (set_iter st it) (ch t)); [apply (sf_running _ _ _ F)|].
      apply (sf_args _ _ _ F).
    - eapply post_seq; [apply (error_post k); apply running_iter; assumption| |auto..].
      simpl. auto. }
  assert (C : forall c, step_frame k st (set_values st (apply_change (l_values (ps_cur st)) c)) /\
    ps_calls (set_values st (apply_change (l_values (ps_cur st)) c)) = ps_calls st).
  { intros c. split; [apply step_frame_values; assumption|reflexivity]. }
  unfold apply_operation. destruct (o_operation o).
  - simpl. split; [|reflexivity]. constructor; try reflexivity; try assumption. apply calm_refl.
  - destruct (negb (is_empty (o_constant o))).
    + rewrite bind_modify. simpl.
      apply (C (Assigned (o_value_id o) (o_constant o) (o_argument_id o))).
    + apply (V (fun v => Assigned (o_value_id o) v (o_argument_id o))).
  - destruct (negb (is_empty (o_constant o))).
    + rewrite bind_modify. simpl.
      apply (C (Appended (o_value_id o) (o_constant o) (o_argument_id o))).
    + apply (V (fun v => Appended (o_value_id o) v (o_argument_id o))).
  - rewrite bind_modify. simpl. apply (C (Cleared (o_value_id o))).
Qed.

Lemma step_frame_refl : forall k st, running cfg top k st -> it_args (ps_iter st) <> [] ->
  step_frame k st st.
Proof. intros k st R A. constructor; try reflexivity; try assumption. apply calm_refl. Qed.

Lemma callback_post : forall k cb ev value st, running cfg top k st ->
  it_args (ps_iter st) <> [] -> cb_event ev = true ->
  (forall f, cb = Some f -> callback_of cfg top f) ->
  post (fun _ st' => step_frame k st st')
    (ex_exit cfg) (cb_thrown cfg top) False False (run_callback cfg cb ev value st).
Proof.
  intros k cb ev value st R A Ev Cb.
  pose proof (sh_wf _ _ _ (ru_shape _ _ _ _ R)) as W.
  destruct cb as [f0|]; [|simpl; apply step_frame_refl; assumption].
  eapply post_mono; [apply run_callback_post; try assumption; apply R| |intros c s; apply cb_exit_exit| |auto|auto].
  2:{ intros e s He. split; [exact He|]. exists f0. apply Cb. reflexivity. }
  cbv beta. intros _ st' (F & Q & _ & Cc).
  constructor.
  - eapply running_frame; eassumption.
  - apply (cf_command _ _ F).
  - apply (cf_parents _ _ F).
  - destruct (cf_cur _ _ F) as (cs & ->). reflexivity.
  - apply (cf_mode _ _ F).
  - apply (cf_args _ _ F). exact A.
  - destruct Cc as (Cc & _). split; [lia|]. intros [H|H]; [lia|].
    destruct Q as (-> & _); [|apply le_n]. intros g v vs Eg. injection Eg as <-.
    apply H; [apply Cb; reflexivity|lia].
Qed.

(** After the operation and the callbacks of an option. *)
Lemma two_callbacks_post : forall k cb1 cb2 ev1 ev2 value st (B : Type) (h : M B) Q,
  running cfg top k st -> it_args (ps_iter st) <> [] ->
  cb_event ev1 = true -> cb_event ev2 = true ->
  (forall f, cb1 = Some f -> callback_of cfg top f) ->
  (forall f, cb2 = Some f -> callback_of cfg top f) ->
  (forall s, step_frame k st s ->
     post Q (ex_exit cfg) (cb_thrown cfg top) False False (h s)) ->
  post Q (ex_exit cfg) (cb_thrown cfg top) False False
    ((run_callback cfg cb1 ev1 value ;;; run_callback cfg cb2 ev2 value ;;; h) st).
Proof.
  intros k cb1 cb2 ev1 ev2 value st B h Q R A E1 E2 C1 C2 H.
  eapply post_seq; [apply (callback_post k); assumption| |auto..].
  intros u1 s1 F1. eapply post_seq.
  - apply (callback_post k); [apply (sf_running _ _ _ F1)|apply (sf_args _ _ _ F1)|assumption..].
  - intros u2 s2 F2. apply H. exact (step_frame_trans _ _ _ _ F1 F2).
  - auto.
  - auto.
  - auto.
  - auto.
Qed.

(** The states after an option's type has taken effect. *)
Definition option_done (k : N) (o : opt_data) (st : pstate) (r : option_result) (st' : pstate) : Prop :=
  match r with
  | OR_ERROR => failed cfg top st'
  | OR_NORMAL => (o_type o = OT_NORMAL \/ o_type o = OT_LAST_OPTION) /\
      running cfg top k st' /\ ps_command st' = ps_command st /\
      ps_parents st' = ps_parents st /\ in_progress (ps_mode st') /\ calm cfg top st st'
  | OR_LAST_ARGUMENT => o_type o = OT_LAST_ARGUMENT /\
      running cfg top k st' /\ ps_command st' = ps_command st /\
      ps_parents st' = ps_parents st /\ calm cfg top st st'
  | OR_STOP => o_type o = OT_STOP /\ stopped cfg top o st' /\ ps_parents st' = ps_parents st
  | OR_EXIT => (o_type o = OT_HELP \/ o_type o = OT_EXIT) /\
      stopped cfg top o st' /\ ps_parents st' = ps_parents st
  end.

Lemma shape_stop : forall st o, shape cfg top st ->
  shape cfg top (set_cur st (set_breaking_option o (ps_cur st))).
Proof.
  intros st o H. assert (E : forall l, set_cur st l = set_cur (set_iter st (ps_iter st)) l).
  { destruct st; reflexivity. }
  rewrite E. apply shape_cur; auto.
  - apply (sh_wf _ _ _ H).
  - pose proof (sh_open _ _ _ H) as O. inversion O as [|x l Ox Ol]; subst.
    eapply open_ok_same; [| | |exact Ox]; try reflexivity.
    destruct Ox as ((_ & _ & V) & _). exact V.
Qed.

Lemma running_stopped : forall k st o evs, running cfg top k st -> In o (c_options (ps_command st)) ->
  o_type o = OT_HELP \/ o_type o = OT_EXIT \/ o_type o = OT_STOP ->
  evs = ps_events st \/ o_type o = OT_HELP /\ evs = ps_events st ++ [EvHelp (ps_command st)] ->
  (o_type o = OT_HELP -> evs <> ps_events st) ->
  stopped cfg top o
    (mk_ps (ps_command st) (set_breaking_option o (ps_cur st)) (ps_parents st) (ps_iter st)
       (ps_counter st) ST_DONE (ps_calls st) evs).
Proof.
  intros k st o evs [A B C D] I T Ev Nh. constructor; simpl; try assumption; try reflexivity.
  - apply (shape_stop _ o) in A. destruct A as [X1 X2 X3 X4 X5 X6]. constructor; assumption.
  - unfold open_levels in B. inversion B; assumption.
  - destruct Ev as [->|(Ht & ->)]; [left|right].
    + split; [|exact C]. intros Ht. apply (Nh Ht). reflexivity.
    + split; [exact Ht|]. exists (ps_events st). split; [reflexivity|exact C].
Qed.

Lemma app_one_neq : forall {A} (l : list A) x, l ++ [x] <> l.
Proof. intros A l x H. apply (f_equal (@length A)) in H. rewrite app_length in H. simpl in H. lia. Qed.

Lemma process_known_option_post : forall k o flag st, running cfg top k st ->
  in_progress (ps_mode st) ->
  it_args (ps_iter st) <> [] -> In o (c_options (ps_command st)) ->
  post (fun ra st' => option_done k o st (fst ra) st')
    (ex_exit cfg) (cb_thrown cfg top) False False (process_known_option cfg o flag st).
Proof.
  intros k o flag st R Pr A I. unfold process_known_option.
  eapply post_seq; [apply (apply_operation_post k); assumption| |auto|simpl; tauto|auto|auto].
  intros [arg|] s H; [|simpl; exact H]. destruct H as (F & _).
  assert (Wi : within top (ps_command st)) by (eapply running_within; exact R).
  eapply (two_callbacks_post k); [apply (sf_running _ _ _ F)|apply (sf_args _ _ _ F)|reflexivity|reflexivity|..].
  - intros f Ef. eapply cb_option_own; eassumption.
  - intros f Ef. eapply cb_option_global; eassumption.
  - intros s2 F2. pose proof (step_frame_trans _ _ _ _ F F2) as [G1 G2 G3 G4 G5 G6 G7].
    assert (Is : In o (c_options (ps_command s2))) by (rewrite G2; exact I).
    unfold apply_type. destruct (o_type o) eqn:T.
    + rewrite bind_ret. simpl. rewrite G5. auto 10.
    + rewrite bind_assoc, bind_gets, bind_assoc, bind_emit, bind_assoc, bind_modify, bind_assoc,
        bind_modify, bind_ret. simpl. split; [auto|]. split; [|exact G3].
      eapply (running_stopped k s2 o); eauto. intros _. apply app_one_neq.
    + rewrite bind_assoc, bind_modify, bind_assoc, bind_modify, bind_ret. simpl.
      split; [auto|]. split; [|exact G3]. apply (running_stopped k s2 o); auto. congruence.
    + rewrite bind_assoc, bind_modify, bind_assoc, bind_modify, bind_ret. simpl.
      split; [auto|]. split; [|exact G3]. apply (running_stopped k s2 o); auto. congruence.
    + rewrite bind_assoc, bind_modify, bind_ret. simpl.
      split; [exact T|]. split; [apply running_mode; exact G1|]. auto.
    + rewrite bind_assoc, bind_modify, bind_ret. simpl.
      split; [auto|]. split; [apply running_mode; exact G1|]. split; [exact G2|]. split; [exact G3|].
      split; [right; reflexivity|]. exact G7.
Qed.

(* ------------------------------------------------------------------------ *)
(** ** Levels *)

Lemma running_unprocessed : forall k st us, running cfg top k st ->
  running cfg top k (set_cur st (add_unprocessed (ps_cur st) us)).
Proof.
  intros k st us [A B C D].
  assert (E : forall l, set_cur st l = set_cur (set_iter st (ps_iter st)) l).
  { destruct st; reflexivity. }
  constructor; try assumption.
  - rewrite E. apply shape_cur; auto; [apply (sh_wf _ _ _ A)|].
    apply open_ok_unprocessed. pose proof (sh_open _ _ _ A) as H. inversion H; assumption.
  - unfold open_levels in *. simpl. inversion B; subst. constructor; assumption.
Qed.

Lemma shape_copied : forall st it l, shape cfg top st -> wf_iter it ->
  it_kind it = it_kind (ps_iter st) ->
  shape cfg top (set_cur (set_iter st it) (add_unprocessed (ps_cur st) l)).
Proof.
  intros st it l A W K. apply shape_cur; auto.
  apply open_ok_unprocessed. pose proof (sh_open _ _ _ A) as H. inversion H; assumption.
Qed.

Lemma stopped_copied : forall o st it l, stopped cfg top o st -> wf_iter it ->
  it_kind it = it_kind (ps_iter st) ->
  stopped cfg top o (set_cur (set_iter st it) (add_unprocessed (ps_cur st) l)).
Proof.
  intros o st it l [A1 A2 A3 A4 A5 A6 A7 A8] W K. constructor; try assumption.
  apply shape_copied; assumption.
Qed.

Lemma succeeded_copied : forall k st it l, succeeded cfg top k st -> wf_iter it ->
  it_kind it = it_kind (ps_iter st) ->
  succeeded cfg top k (set_cur (set_iter st it) (add_unprocessed (ps_cur st) l)).
Proof.
  intros k st it l [A1 A2 A3 A4 A5 A6 A7 A8] W K. constructor; try assumption.
  - apply shape_copied; assumption.
  - intros x [<-|Hx]; [|apply A3; right; exact Hx].
    destruct (A3 (ps_cur st) (or_introl eq_refl)). simpl. auto.
Qed.

(** What [reactivate] needs of a state. *)
Lemma reactivate_post : forall st k', shape cfg top st -> Forall code_ok (open_levels st) ->
  no_trouble (ps_events st) -> find_first_multi_command_parent st = Some k' ->
  exists st', reactivate k' st = Ret tt st' /\ running cfg top 0 st' /\
    ps_mode st' = ARGUMENTS_ONLY /\ ps_iter st' = ps_iter st /\ ps_calls st' = ps_calls st /\
    ps_events st' = ps_events st /\
    length (ps_parents st') < length (ps_parents st) /\ c_multi (ps_command st') = true /\
    parent_command st k' = Some (ps_command st').
Proof.
  intros st k' Sh Co Ev H. destruct Sh as [A1 A2 A3 A4 A5 A6].
  destruct (first_multi_spec _ _ H) as (p & L & Np & Mu).
  unfold open_levels in *. inversion A3 as [|? ? O1 O2]; subst. inversion Co as [|? ? C1 C2]; subst.
  pose proof (pop_levels_ok top k' (ps_cur st) (ps_parents st) A2
    (conj (proj1 O1) (proj1 (proj2 O1))) C1 O2 C2) as Hp.
  assert (Nth : nth_error (ps_cur st :: ps_parents st) k' = Some p).
  { destruct k' as [|k']; [lia|]. simpl. replace k' with (S k' - 1) by lia. exact Np. }
  destruct (pop_levels_command k' (ps_cur st) (ps_parents st) p Nth) as (Ec & El).
  assert (Lp : k' - 1 < length (ps_parents st)) by (apply nth_error_Some; congruence).
  eexists. split; [reflexivity|].
  destruct (pop_levels k' (ps_cur st) (ps_parents st)) as (cur', parents') eqn:E.
  simpl in Ec, El. destruct Hp as (H1 & H2 & H3 & H4 & H5).
  split; [|simpl; split; [reflexivity|]; split; [reflexivity|]; split; [reflexivity|];
           split; [reflexivity|]; split; [lia|]; split; [rewrite Ec; exact Mu|]].
  - constructor; simpl; try assumption.
    + constructor; simpl; try assumption.
      * reflexivity.
      * unfold open_levels. simpl. constructor; [|exact H4].
        destruct H2 as (X & Y). split; [exact X|]. split; [exact Y|]. right. rewrite Ec. exact Mu.
      * apply counter_from_empty.
    + unfold open_levels. simpl. constructor; assumption.
    + intros Sd. destruct k' as [|k']; [lia|]. rewrite Ec.
      assert (Wp : within top (l_command p)).
      { rewrite <- Ec. eapply chain_within. exact H1. }
      destruct (Sd _ Wp) as (_ & _ & [Z|Z]).
      * rewrite Z. apply counter_ok_empty.
      * exfalso. clear - A2 Np Z L.
        (* a level below [p] exists, so that [p] has a command *)
        revert Np A2. replace (S k' - 1) with k' by lia.
        generalize (ps_cur st). generalize (ps_parents st). induction k' as [|j IH].
        -- intros ls c Hn Hc. destruct ls as [|q r]; [discriminate|]. destruct Hc as (Hi & _).
           simpl in Hn. injection Hn as ->.
           rewrite Z in Hi. exact Hi.
        -- intros ls c Hn Hc. destruct ls as [|q r]; [discriminate|]. destruct Hc as (_ & Hc).
           simpl in Hn.
           destruct r as [|q' r']; [destruct j; discriminate|].
           eapply (IH ltac:(lia) (q' :: r') q); [|exact Hc].
           exact Hn.
  - unfold parent_command. destruct k' as [|j]; [lia|].
    replace (S j - 1) with j in Np by lia. rewrite Np. simpl. rewrite Ec. reflexivity.
Qed.

(** A new counter for the current command. *)
Lemma start_counter_post : forall st, within top (ps_command st) -> wf_iter (ps_iter st) ->
  exists ac, start_counter cfg st = Ret tt (set_counter st ac) /\
    counter_from (c_arguments (ps_command st)) ac /\
    (sound top -> counter_ok (c_arguments (ps_command st)) ac 0).
Proof.
  intros st Wi W. unfold start_counter. rewrite bind_gets.
  destruct (requires_argument_count (c_arguments (ps_command st))) eqn:Rq; cbn [negb]; cbv iota.
  - unfold bind at 1. cbv beta. destruct (count_arguments_total cfg st W) as (n & ->).
    eexists. split; [reflexivity|]. split; [apply counter_from_counted|].
    intros Sd. destruct (Sd _ Wi) as (Pr & Mx & _). apply counter_ok_counted0; assumption.
  - eexists. split; [reflexivity|]. split; [apply counter_from_plain|].
    intros Sd. destruct (Sd _ Wi) as (Pr & Mx & _). apply counter_ok_plain; assumption.
Qed.

Lemma process_command_post : forall k d st, running cfg top k st ->
  it_args (ps_iter st) <> [] -> In d (c_commands (ps_command st)) ->
  exists st' v, process_command cfg d st = Ret (mk_ir IC_COMMAND (ItCommand d) v) st' /\
    running cfg top 0 st' /\ ps_mode st' = ARGUMENTS_AND_OPTIONS /\
    ps_command st' = d /\ ps_cur st' = new_level d /\ ps_parents st' = ps_cur st :: ps_parents st /\
    ps_iter st' = ps_iter st /\ ps_calls st' = ps_calls st /\ ps_events st' = ps_events st.
Proof.
  intros k d st R A I. pose proof (running_within k st R) as Wi. destruct R as [[A1 A2 A3 A4 A5 A6] B C D].
  unfold process_command. rewrite bind_modify.
  set (s1 := mk_ps d (new_level d) (ps_cur st :: ps_parents st) (ps_iter st)
      (ps_counter st) (ps_mode st) (ps_calls st) (ps_events st)).
  destruct (start_counter_post s1) as (ac & E & Fr & Ok).
  { eapply within_sub; eassumption. }
  { exact A4. }
  unfold bind at 1. rewrite E. rewrite bind_modify. unfold bind, m_current.
  assert (Cu : exists v, it_current (ps_iter st) = Some v).
  { unfold it_current. destruct (it_args (ps_iter st)) as [|v r]; [contradiction|]. exists v. reflexivity. }
  destruct Cu as (v & Ev). simpl ps_iter. rewrite Ev.
  eexists. exists v. split; [reflexivity|]. split; [|repeat (split; [reflexivity|]); reflexivity].
  constructor; simpl; try assumption.
  - constructor; simpl; try assumption.
    + reflexivity.
    + split; [|exact A2]. rewrite <- A1. exact I.
    + unfold open_levels. simpl. constructor; [|exact A3].
      split; [|split].
      * split; [intros x []|]. split; [left; simpl; lia|]. exists []. reflexivity.
      * intros x [].
      * left. reflexivity.
  - unfold open_levels. simpl. constructor; [|exact B]. split; [reflexivity|left; reflexivity].
Qed.

(* ------------------------------------------------------------------------ *)
(** ** Steps *)

(** The result of a step that has read a token. *)
Definition stepped (k : N) (st : pstate) (r : iter_result) (st' : pstate) : Prop :=
  match ir_code r with
  | IC_ERROR => failed cfg top st'
  | IC_DONE => False
  | _ => (running cfg top (count_after st k r st') st' /\ in_progress (ps_mode st') /\
          calm cfg top st st') \/
         (succeeded cfg top (count_after st k r st') st' /\ ir_code r = IC_OPTION) \/
         ((exists o, stopped cfg top o st' /\ ir_item r = ItOption o /\
            (s_auto_exit cfg = true -> o_type o = OT_STOP)) /\ ir_code r = IC_OPTION)
  end.

Lemma stepped_error : forall k st it st', failed cfg top st' ->
  stepped k st (mk_ir IC_ERROR it []) st'.
Proof. intros k st it st' H. exact H. Qed.

Lemma count_same : forall st k r st', ps_parents st' = ps_parents st ->
  ir_code r <> IC_ARGUMENT -> ir_code r <> IC_COMMAND -> count_after st k r st' = k.
Proof.
  intros st k r st' E A C. unfold count_after. rewrite E, Nat.ltb_irrefl.
  destruct (ir_code r); try reflexivity; contradiction.
Qed.

Lemma process_option_post : forall k flag st, running cfg top k st -> in_progress (ps_mode st) ->
  it_args (ps_iter st) <> [] ->
  post (fun r st' => stepped k st r st') (ex_exit cfg) (cb_thrown cfg top) False False
    (process_option cfg flag st).
Proof.
  intros k flag st R Pr A. unfold process_option. rewrite bind_gets.
  destruct (find_option (ps_command st) flag _ _) as [o|] eqn:Fo.
  - assert (I : In o (c_options (ps_command st))).
    { eapply find_option_in_options; [exact P|eapply running_within; exact R|exact Fo]. }
    eapply post_seq; [apply (process_known_option_post k); assumption| |auto..].
    intros (r, arg) s H. simpl fst in H. destruct r; cbn [option_done] in H.
    + destruct H as (T & Rs & Cs & Ps & Ms & Cm). simpl. unfold stepped. simpl ir_code. cbv iota.
      left. rewrite count_same; [auto|exact Ps|discriminate..].
    + destruct H as (T & Rs & Cs & Ps & Cm).
      eapply post_seq; [apply (check_counts_post k); exact Rs| |auto|simpl; tauto|auto|auto].
      cbv beta. intros [|] s2 H2; cbn [negb]; cbv beta iota; [|simpl; exact H2].
      destruct H2 as (E2 & Su). rewrite bind_gets.
      destruct (find_first_multi_command_parent s2) as [k'|] eqn:Fm.
      * destruct (reactivate_post s2 k') as (s3 & E3 & R3 & M3 & I3 & K3 & V3 & L3 & _).
        -- apply (su_shape _ _ _ _ Su).
        -- apply Forall_forall. intros l Hl. destruct (su_codes _ _ _ _ Su l Hl). split; auto.
        -- apply (su_events _ _ _ _ Su).
        -- exact Fm.
        -- unfold bind at 1. rewrite E3. simpl. unfold stepped. simpl ir_code. cbv iota. left.
           assert (Ep : length (ps_parents s2) = length (ps_parents st)).
           { subst s2. simpl. rewrite map_length, Ps. reflexivity. }
           split; [|split].
           ++ unfold count_after. simpl ir_code. cbv iota. rewrite Ep in L3.
              apply Nat.ltb_lt in L3. rewrite L3. exact R3.
           ++ right. exact M3.
           ++ eapply calm_trans; [exact Cm|]. apply calm_same; [rewrite K3|rewrite I3]; subst s2; reflexivity.
      * destruct (copy_remaining_eq s2) as (l & it & _ & W' & K' & E3).
        { apply (sh_wf _ _ _ (su_shape _ _ _ _ Su)). }
        unfold bind at 1. rewrite E3. simpl. unfold stepped. simpl ir_code. cbv iota. right. left.
        split; [|reflexivity].
        assert (Ec : count_after st k (mk_ir IC_OPTION (ItOption o) arg)
                  (set_cur (set_iter s2 it) (add_unprocessed (ps_cur s2) l)) = k).
        { unfold count_after. simpl ir_code. cbv iota. subst s2. simpl. rewrite map_length, Ps.
          rewrite Nat.ltb_irrefl. reflexivity. }
        rewrite Ec. apply succeeded_copied; assumption.
    + destruct H as (T & Su & Ps).
      destruct (copy_remaining_eq s) as (l & it & _ & W' & K' & E3).
      { apply (sh_wf _ _ _ (sp_shape _ _ _ _ Su)). }
      unfold bind at 1. rewrite E3. simpl. unfold stepped. simpl ir_code. cbv iota. right. right.
      split; [|reflexivity]. exists o. split; [apply stopped_copied; assumption|].
      split; [reflexivity|]. first [intros _; exact T|congruence].
    + destruct H as (T & Su & Ps). destruct (s_auto_exit cfg) eqn:Ae.
      * simpl. split; [exact Ae|]. right. split; [reflexivity|]. split.
        -- intros (c & m & Hin). destruct (sp_events _ _ _ _ Su) as [(_ & N0)|(_ & evs & Ee & N0)].
           ++ apply N0 in Hin. simpl in Hin. destruct Hin; discriminate.
           ++ rewrite Ee in Hin. apply in_app_or in Hin. destruct Hin as [Hin|[Hin|[]]].
              ** apply N0 in Hin. simpl in Hin. destruct Hin; discriminate.
              ** discriminate.
        -- exists o. split; [apply (sp_option _ _ _ _ Su)|]. split; [apply (sp_in _ _ _ _ Su)|].
           split; [exact T|apply (sp_events _ _ _ _ Su)].
      * destruct (copy_remaining_eq s) as (l & it & _ & W' & K' & E3).
        { apply (sh_wf _ _ _ (sp_shape _ _ _ _ Su)). }
        unfold bind at 1. rewrite E3. simpl. unfold stepped. simpl ir_code. cbv iota. right. right.
        split; [|reflexivity]. exists o. split; [apply stopped_copied; assumption|].
      split; [reflexivity|]. first [intros _; exact T|congruence].
    + simpl. exact H.
  - assert (Cu : exists v, it_current (ps_iter st) = Some v).
    { unfold it_current. destruct (it_args (ps_iter st)) as [|v r]; [contradiction|]. exists v. reflexivity. }
    destruct Cu as (v & Ev).
    destruct (negb (s_ignore_options cfg)); unfold bind at 1, m_current; rewrite Ev.
    + eapply post_seq; [apply (error_post k); exact R| |auto|simpl; tauto|auto|auto]. simpl. auto.
    + destruct (negb (starts_with_cs v flag)).
      * eapply post_seq; [apply (error_post k); exact R| |auto|simpl; tauto|auto|auto]. simpl. auto.
      * rewrite bind_modify. simpl. unfold stepped. simpl ir_code. cbv iota. left.
        rewrite count_same; [|reflexivity|discriminate..].
        split; [apply running_unprocessed; exact R|]. split; [exact Pr|]. apply calm_same; reflexivity.
Qed.

Lemma process_argument_post : forall k value st, running cfg top k st ->
  in_progress (ps_mode st) -> it_args (ps_iter st) <> [] ->
  post (fun r st' => stepped k st r st') (ex_exit cfg) (cb_thrown cfg top) False False
    (process_argument cfg value st).
Proof.
  intros k value st R Pr A. unfold process_argument. rewrite bind_gets.
  destruct (find_sibling_command cfg st value) as [(d, k')|] eqn:Fs.
  - unfold find_sibling_command in Fs. destruct (negb _); [discriminate|].
    destruct (find_first_multi_command_parent st) as [j|] eqn:Fm; [|discriminate].
    destruct (reactivate_post st j) as (s1 & E1 & R1 & M1 & I1 & K1 & V1 & L1 & Mu1 & Pc).
    { apply (ru_shape _ _ _ _ R). } { apply (ru_codes _ _ _ _ R). } { apply (ru_events _ _ _ _ R). }
    { exact Fm. }
    rewrite Pc in Fs. destruct (find_command _ _ _) as [d'|] eqn:Fc; [|discriminate].
    injection Fs as -> ->. apply find_command_in in Fc. destruct Fc as (Fc & _).
    unfold bind at 1. rewrite E1.
    destruct (process_command_post 0 d s1 R1) as (s2 & v & E2 & R2 & M2 & _ & _ & _ & I2 & K2 & _).
    { rewrite I1. exact A. } { exact Fc. }
    rewrite E2. simpl. unfold stepped. simpl ir_code. cbv iota. left.
    split; [exact R2|]. split; [left; exact M2|]. apply calm_same; congruence.
  - unfold bind at 1. unfold m_next_argument.
    pose proof (counter_from_next _ _ (sh_from _ _ _ (ru_shape _ _ _ _ R))) as (Cf & Ca).
    assert (Co : sound top -> match fst (next_argument (ps_counter st)) with
                  | Some a => counter_ok (c_arguments (ps_command st)) (snd (next_argument (ps_counter st))) (k + 1)
                  | None => counter_ok (c_arguments (ps_command st)) (snd (next_argument (ps_counter st))) k
                  end).
    { intros Sd. pose proof (counter_ok_next _ _ _ (ru_counter _ _ _ _ R Sd)) as H.
      destruct (next_argument (ps_counter st)) as ([a|], ac); [apply H|exact H]. }
    destruct (next_argument (ps_counter st)) as (a, ac). cbn [fst snd] in Cf, Ca, Co.
    assert (R1 : forall k1, (sound top -> counter_ok (c_arguments (ps_command st)) ac k1) ->
              running cfg top k1 (set_counter st ac)).
    { intros k1 H. destruct R as [[A1 A2 A3 A4 A5 A6] B C D]. constructor; try assumption.
      constructor; assumption. }
    destruct a as [a|].
    + specialize (R1 _ Co). rewrite bind_modify.
      pose proof (step_frame_values _ _ (Appended (a_value_id a) value (a_argument_id a)) R1 A) as F1.
      pose proof (running_within k st R) as Wi.
      eapply (two_callbacks_post (k + 1)%N);
        [apply (sf_running _ _ _ F1)|apply (sf_args _ _ _ F1)|reflexivity|reflexivity|..].
      * intros f Ef. eapply cb_argument_own; [exact Wi|apply Ca; reflexivity|exact Ef].
      * intros f Ef. eapply cb_argument_global; [exact Wi|apply Ca; reflexivity|exact Ef].
      * intros s2 F2. pose proof (step_frame_trans _ _ _ _ F1 F2) as [G1 G2 G3 G4 G5 G6 G7].
        simpl. unfold stepped. simpl ir_code. cbv iota. left. split; [exact G1|].
        split; [rewrite G5; exact Pr|]. eapply calm_trans; [|exact G7]. apply calm_same; reflexivity.
    + specialize (R1 _ Co). destruct (s_ignore_arguments cfg).
      * rewrite bind_modify. unfold bind, m_current.
        assert (Cu : exists v, it_current (ps_iter st) = Some v).
        { unfold it_current. destruct (it_args (ps_iter st)) as [|v r]; [contradiction|]. exists v. reflexivity. }
        destruct Cu as (v & Ev). simpl ps_iter. rewrite Ev. simpl.
        unfold stepped. simpl ir_code. cbv iota. left.
        rewrite count_same; [|reflexivity|discriminate..].
        split; [apply (running_unprocessed k (set_counter st ac)); exact R1|]. split; [exact Pr|].
        apply calm_same; reflexivity.
      * eapply post_seq; [apply (error_post k); exact R1| |auto|simpl; tauto|auto|auto]. simpl. auto.
Qed.

Lemma process_token_post : forall k arg st, running cfg top k st -> in_progress (ps_mode st) ->
  it_args (ps_iter st) <> [] -> forall mode,
  post (fun r st' => stepped k st r st') (ex_exit cfg) (cb_thrown cfg top) False False
    (process_token cfg mode arg st).
Proof.
  intros k arg st R Pr A mode. unfold process_token. rewrite bind_gets.
  destruct (_ && is_option arg (s_style cfg)); [apply process_option_post; assumption|].
  destruct (is_empty (c_commands (ps_command st))); [apply process_argument_post; assumption|].
  destruct (find_command (ps_command st) arg _) as [d|] eqn:Fc.
  - apply find_command_in in Fc. destruct Fc as (Fc & _).
    destruct (process_command_post k d st R A Fc) as (s2 & v & E2 & R2 & M2 & _ & _ & _ & I2 & K2 & _).
    rewrite E2. simpl. unfold stepped. simpl ir_code. cbv iota. left.
    split; [exact R2|]. split; [left; exact M2|]. apply calm_same; congruence.
  - eapply post_seq; [apply (error_post k); exact R| |auto|simpl; tauto|auto|auto]. simpl. auto.
Qed.

(** A call of [next]. *)
Definition next_done (k : N) (st : pstate) (r : iter_result) (st' : pstate) : Prop :=
  match ir_code r with
  | IC_ERROR => failed cfg top st'
  | IC_DONE => succeeded cfg top k st' /\
      ps_parents st' = map (set_result RC_SUCCESS) (ps_parents st) /\
      r = mk_ir IC_DONE ItNone []
  | _ => (running cfg top (count_after st k r st') st' /\ in_progress (ps_mode st') /\
          progress cfg top st st') \/
         (succeeded cfg top (count_after st k r st') st' /\ ir_code r = IC_OPTION) \/
         ((exists o, stopped cfg top o st' /\ ir_item r = ItOption o /\
            (s_auto_exit cfg = true -> o_type o = OT_STOP)) /\ ir_code r = IC_OPTION)
  end.

Lemma next_post : forall k st, running cfg top k st -> in_progress (ps_mode st) ->
  post (fun r st' => next_done k st r st') (ex_exit cfg) (cb_thrown cfg top) False False
    (next cfg st).
Proof.
  intros k st R Pr. pose proof (sh_wf _ _ _ (ru_shape _ _ _ _ R)) as W.
  assert (G : forall t it mode, wf_iter it -> it_kind it = it_kind (ps_iter st) ->
    (forall a, t = Some a -> meas it < meas (ps_iter st) /\ it_args it <> []) ->
    post (fun r st' => next_done k st r st') (ex_exit cfg) (cb_thrown cfg top) False False
      (match t with
      | None =>
          ok <- check_counts cfg ;;
          ret (mk_ir (if (ok : bool) then IC_DONE else IC_ERROR) ItNone [])
      | Some arg => process_token cfg mode arg
      end (set_iter st it))).
  { intros t it mode Wi K H. pose proof (running_iter _ _ _ _ it R Wi K) as Ri.
    destruct t as [arg|].
    - destruct (H arg eq_refl) as (L & A).
      eapply post_mono; [apply (process_token_post k); assumption| |auto..].
      assert (Pg : progress cfg top st (set_iter st it)).
      { split; [apply le_n|]. intros _. exact L. }
      cbv beta. intros r s. unfold stepped, next_done.
      assert (Ec : forall r s, count_after (set_iter st it) k r s = count_after st k r s) by reflexivity.
      destruct (ir_code r); try tauto; intros [(X & Y & Z)|[X|X]]; auto;
        left; (split; [exact X|]; split; [exact Y|]; eapply progress_calm; eassumption).
    - eapply post_seq; [apply (check_counts_post k); exact Ri| |auto|simpl; tauto|auto|auto].
      cbv beta. intros [|] s Hs; [|exact Hs]. destruct Hs as (-> & Hs).
      simpl. split; [exact Hs|]. split; reflexivity. }
  unfold next. rewrite bind_gets. destruct Pr as [E|E]; rewrite E.
  - unfold bind at 1. unfold m_next. destruct (next_wf _ W) as (t & it & En & Wi & K). rewrite En.
    apply G; [exact Wi|exact K|]. intros a ->. eapply next_meas. exact En.
  - unfold bind at 1. unfold m_next_value. destruct (next_value_wf _ W) as (t & it & En & Wi & K).
    rewrite En. apply G; [exact Wi|exact K|]. intros a ->. eapply next_value_meas. exact En.
Qed.

(* ------------------------------------------------------------------------ *)
(** ** The start *)

Lemma fold_initial : forall opts cs, exists cs',
  fold_left (fun vs o => if negb (is_empty (o_initial_value o))
    then append_value vs (o_value_id o) (o_initial_value o) (o_argument_id o)
    else vs) opts (fold_left apply_change cs []) = fold_left apply_change cs' [].
Proof.
  induction opts as [|o opts IH]; intros cs; simpl; [exists cs; reflexivity|].
  destruct (negb (is_empty (o_initial_value o))).
  - destruct (IH (cs ++ [Appended (o_value_id o) (o_initial_value o) (o_argument_id o)])) as (cs' & E).
    rewrite fold_left_app in E. exists cs'. exact E.
  - apply IH.
Qed.

Lemma start_post : forall args, exists st,
  start_counter cfg (initial_state cfg top args) = Ret tt st /\
  running cfg top 0 st /\ ps_mode st = ARGUMENTS_AND_OPTIONS /\
  ps_iter st = make_option_iterator (s_style cfg) args /\ ps_calls st = 0 /\ ps_events st = [] /\
  ps_parents st = [] /\ ps_command st = top /\
  ps_cur st = set_l_values (new_level top) (initial_values (c_options top)).
Proof.
  intros args.
  assert (Wf : wf_iter (make_option_iterator (s_style cfg) args)).
  { unfold make_option_iterator. destruct (s_style cfg); apply start_wf. }
  destruct (start_counter_post (initial_state cfg top args)) as (ac & E & Fr & Ok).
  { constructor. } { exact Wf. }
  exists (set_counter (initial_state cfg top args) ac). split; [exact E|].
  split; [|repeat (split; [reflexivity|]); reflexivity].
  assert (C0 : code_ok (set_l_values (new_level top) (initial_values (c_options top)))).
  { split; [reflexivity|left; reflexivity]. }
  constructor; simpl; try assumption.
  - constructor; simpl; try assumption; try reflexivity.
    + constructor; [|constructor]. split; [|split].
      * split; [intros x []|]. split; [left; simpl; lia|].
        destruct (fold_initial (c_options top) []) as (cs & H). exists cs. exact H.
      * intros x [].
      * left. reflexivity.
    + unfold make_option_iterator. destruct (s_style cfg); reflexivity.
  - constructor; [exact C0|constructor].
  - intros e [].
Qed.

(* ------------------------------------------------------------------------ *)
(** ** Executions *)

Lemma next_finished : forall st, ps_mode st = ST_DONE -> next cfg st = Ret (mk_ir IC_DONE ItNone []) st.
Proof. intros st E. unfold next. rewrite bind_gets, E. reflexivity. Qed.

Lemma next_failed : forall st, ps_mode st = ST_ERROR -> next cfg st = Throws ENextAfterError st.
Proof. intros st E. unfold next. rewrite bind_gets, E. reflexivity. Qed.

Lemma inv_next : forall k st, inv cfg top k st ->
  post (fun r st' => inv cfg top (count_after st k r st') st')
    (ex_exit cfg)
    (fun e st' => (e = ENextAfterError /\ failed cfg top st' /\ st' = st) \/ cb_thrown cfg top e st')
    False False (next cfg st).
Proof.
  intros k st [R Pr|F|Su|o So Sa].
  - eapply post_mono; [apply (next_post k); assumption| |auto|auto|auto|auto].
    cbv beta. intros r s. unfold next_done. destruct (ir_code r) eqn:E; intros H.
    + destruct H as [(X & Y & Z)|[(X & Y)|((o & X & _ & Z) & _)]];
        [apply inv_running; assumption|apply inv_succeeded; assumption|eapply inv_stopped; [exact X|exact Z]].
    + destruct H as [(X & Y & Z)|[(X & Y)|((o & X & _ & Z) & _)]];
        [apply inv_running; assumption|apply inv_succeeded; assumption|eapply inv_stopped; [exact X|exact Z]].
    + destruct H as [(X & Y & Z)|[(X & Y)|((o & X & _ & Z) & _)]];
        [apply inv_running; assumption|apply inv_succeeded; assumption|eapply inv_stopped; [exact X|exact Z]].
    + destruct H as (X & Y & _). apply inv_succeeded. unfold count_after.
      rewrite E, Y, map_length, Nat.ltb_irrefl. exact X.
    + destruct H as [(X & Y & Z)|[(X & Y)|((o & X & _ & Z) & _)]];
        [apply inv_running; assumption|apply inv_succeeded; assumption|eapply inv_stopped; [exact X|exact Z]].
    + apply inv_failed. exact H.
  - rewrite next_failed by apply F. simpl. auto.
  - rewrite next_finished by apply Su. simpl. unfold count_after. simpl.
    rewrite Nat.ltb_irrefl. apply inv_succeeded. exact Su.
  - rewrite next_finished by apply So. simpl. eapply inv_stopped; [exact So|exact Sa].
Qed.

Lemma reached_inv : forall args st k, reached cfg top args st k -> inv cfg top k st.
Proof.
  intros args st k H. induction H as [st E|st n r st' H IH E].
  - destruct (start_post args) as (s & E' & R & M & _). rewrite E in E'. injection E' as <-.
    apply inv_running; [exact R|left; exact M].
  - apply inv_next in IH. rewrite E in IH. exact IH.
Qed.
End Next.
