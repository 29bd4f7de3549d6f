(** Where the values and unprocessed arguments of the result come from (C38). *)
From Verif Require Import Base BaseProofs MStrings MOptIter MData MCounter MValues MParser
  STok SIndex SDef SValues SCounter SParser SStep
  TokProofs IndexProofs FinishProofs ValuesProofs CounterProofs CounterInv
  MonadProofs FrameProofs InvProofs NextProofs ParseProofs StepProofs StepProofs2.
Open Scope nat_scope.

(** ** Stores *)

Lemma in_append : forall vs id t b x, In x (append_value vs id t b) -> x = (id, (t, b)) \/ In x vs.
Proof.
  induction vs as [|[k y] vs IH]; intros id t b x I; simpl in I.
  - destruct I as [<-|[]]. auto.
  - destruct (id <? k)%N; simpl in I.
    + destruct I as [<-|I]; auto.
    + destruct I as [<-|I]; [right; left; reflexivity|]. apply IH in I. destruct I; [auto|right; right; assumption].
Qed.

Lemma in_erase : forall vs id x, In x (erase_leading vs id) -> In x vs.
Proof.
  induction vs as [|[k y] vs IH]; intros id x I; simpl in I; [destruct I|].
  destruct (k =? id)%N; [right; eapply IH; exact I|exact I].
Qed.

Lemma in_assign : forall vs id t b x, In x (assign_value vs id t b) -> x = (id, (t, b)) \/ In x vs.
Proof.
  induction vs as [|[k y] vs IH]; intros id t b x I.
  - destruct I as [<-|[]]. auto.
  - cbn [assign_value] in I. destruct (k <? id)%N.
    + destruct I as [<-|I]; [right; left; reflexivity|]. apply IH in I.
      destruct I; [auto|right; right; assumption].
    + destruct (N.eqb_spec k id) as [->|Nk].
      * destruct I as [<-|I]; [auto|]. right. right. eapply in_erase; exact I.
      * apply in_append in I. exact I.
Qed.

Lemma in_clear : forall vs id x, In x (clear_value vs id) -> In x vs.
Proof. intros vs id x I. unfold clear_value in I. apply filter_In in I. apply I. Qed.

Section Flow.
Variables (cfg : settings) (top : cmd_data) (args : list str).
Hypothesis P : prepared top.
Hypothesis NI : no_insertions cfg top.
Hypothesis NF : no_interference cfg top.

Definition level_from (x : level) : Prop :=
  (forall id t aid, In (id, (t, aid)) (l_values x) -> rightly args top (l_command x) id t aid) /\
  (forall u, In u (l_unprocessed x) -> left_from args u).
Definition deep (x : level) : Prop := forall y, in_result x y -> level_from y.

Lemma deep_self : forall x, deep x -> level_from x.
Proof. intros x D. apply D. constructor. Qed.

Lemma deep_same : forall x x', l_command x' = l_command x -> l_subs x' = l_subs x ->
  deep x -> level_from x' -> deep x'.
Proof.
  intros x x' E1 E2 D L y Hy. apply in_result_inv in Hy. destruct Hy as [->|(s & Hs & Hy)]; [exact L|].
  apply D. rewrite E2 in Hs. eapply in_result_sub; eassumption.
Qed.

Lemma deep_result : forall rc x, deep x -> deep (set_result rc x).
Proof. intros rc x D. eapply deep_same; [| |exact D|]; try reflexivity. exact (deep_self x D). Qed.

Lemma deep_break : forall o x, deep x -> deep (set_breaking_option o x).
Proof. intros o x D. eapply deep_same; [| |exact D|]; try reflexivity. exact (deep_self x D). Qed.

Lemma deep_unprocessed : forall us x, Forall (left_from args) us -> deep x -> deep (add_unprocessed x us).
Proof.
  intros us x F D. eapply deep_same; [| |exact D|]; try reflexivity.
  destruct (deep_self x D) as (A & B). split; [exact A|].
  intros u I. simpl in I. apply in_app_or in I. destruct I as [I|I]; [apply B; exact I|].
  rewrite Forall_forall in F. apply F. exact I.
Qed.

Lemma deep_values : forall vs x, deep x ->
  (forall id t aid, In (id, (t, aid)) vs -> In (id, (t, aid)) (l_values x) \/
     rightly args top (l_command x) id t aid) -> deep (set_l_values x vs).
Proof.
  intros vs x D H. eapply deep_same; [| |exact D|]; try reflexivity.
  destruct (deep_self x D) as (A & B). split; [|exact B].
  intros id t aid I. apply H in I. destruct I as [I|I]; [apply A; exact I|exact I].
Qed.

Lemma deep_add_sub : forall p c, deep p -> deep c -> deep (add_sub p c).
Proof.
  intros p c D1 D2 y Hy. apply in_result_inv in Hy. destruct Hy as [->|(s & Hs & Hy)].
  - exact (deep_self p D1).
  - simpl in Hs. apply in_app_or in Hs. destruct Hs as [Hs|[<-|[]]].
    + apply D1. eapply in_result_sub; eassumption.
    + apply D2. exact Hy.
Qed.

Lemma deep_pop : forall k cur parents, deep cur -> Forall deep parents ->
  deep (fst (pop_levels k cur parents)) /\ Forall deep (snd (pop_levels k cur parents)).
Proof.
  induction k as [|k IH]; intros cur parents D F; simpl; [auto|].
  destruct parents as [|p r]; [auto|]. inversion F; subst.
  apply IH; [apply deep_add_sub; assumption|assumption].
Qed.

(** ** Reading *)

Lemma given_whole : forall a, In a args -> given args a.
Proof. intros a I. exists a, 0. auto. Qed.

Lemma incl_suffix : forall (s l : list str), suffix_of s l -> incl l args -> incl s args.
Proof. intros s l (pre & ->) I x Hx. apply I, in_or_app. auto. Qed.

Lemma next_value_given : forall it t it', it_next_value it = Ok (Some t, it') ->
  incl (it_args it) args -> given args t.
Proof.
  intros it t it' E I. unfold it_next_value in E. destruct (it_kind it) as [|pr].
  - unfold std_next_value in E. destruct (it_args it) as [|a r]; [discriminate|].
    destruct (it_pos it) as [k|].
    + destruct (k <=? length a); [|discriminate]. injection E as <- _. exists a, k.
      split; [apply I; left; reflexivity|reflexivity].
    + destruct r as [|b r]; [discriminate|]. injection E as <- _. apply given_whole, I.
      right. left. reflexivity.
  - unfold pre_next_value in E. destruct (it_args it) as [|a r]; [discriminate|].
    destruct (it_pos it) as [k|].
    + destruct (k <=? length a); [|discriminate]. injection E as <- _. exists a, k.
      split; [apply I; left; reflexivity|reflexivity].
    + destruct r as [|b r]; [discriminate|]. injection E as <- _. apply given_whole, I.
      right. left. reflexivity.
Qed.

Definition prefix_of_kind (k : iter_kind) : ascii :=
  match k with KStandard => c_dash | KPrefix p => p end.

Lemma std_first_whole : forall l t it, std_first l = Ok (Some t, it) ->
  In t l \/ exists c r, t = c_dash :: c :: r.
Proof.
  intros [|a r] t it E; unfold std_first in E; [discriminate|].
  destruct (length a <=? 2) eqn:L; [injection E as <- _; left; left; reflexivity|].
  destruct a as [|c0 [|c1 a]]; try discriminate L.
  cbn [nth_error] in E.
  destruct (Ascii.eqb_spec c0 c_dash) as [->|_]; cbn [negb] in E;
    [|injection E as <- _; left; left; reflexivity].
  destruct (Ascii.eqb_spec c1 c_dash) as [->|_]; cbn [negb] in E.
  - destruct (find_char c_eq _) as [k|] eqn:F in E; injection E as <- _; [|left; left; reflexivity].
    right. destruct k as [|k]; [|simpl; eauto].
    apply find_char_some in F. destruct F as (F & _). discriminate F.
  - injection E as <- _. right. eauto.
Qed.

Lemma pre_first_whole : forall p l t it, p <> c_eq -> pre_first p l = Ok (Some t, it) ->
  In t l \/ exists c r, t = p :: c :: r.
Proof.
  intros p [|a r] t it Np E; unfold pre_first in E; [discriminate|].
  destruct (length a <=? 2) eqn:L; [injection E as <- _; left; left; reflexivity|].
  destruct a as [|c0 [|c1 a]]; try discriminate L. cbn [nth_error] in E.
  destruct (Ascii.eqb_spec c0 p) as [->|_]; cbn [negb] in E;
    [|injection E as <- _; left; left; reflexivity].
  destruct (find_char c_eq _) as [k|] eqn:F in E; [|injection E as <- _; left; left; reflexivity].
  destruct k as [|k]; [|injection E as <- _; right; simpl; eauto].
  apply find_char_some in F. destruct F as (F & _). simpl in F. injection F as Fp. contradiction.
Qed.

Lemma next_whole : forall it t it', it_next it = Ok (Some t, it') ->
  it_kind it = match s_style cfg with
               | SLASH => KPrefix c_slash | DASH => KPrefix c_dash | STANDARD => KStandard end ->
  ~ looks_like_option (s_style cfg) t -> In t (it_args it).
Proof.
  intros it t it' E K L.
  assert (Std : s_style cfg = STANDARD -> forall l, std_first l = Ok (Some t, it') -> In t l).
  { intros Es l El. apply std_first_whole in El. destruct El as [El|(c & r & ->)]; [exact El|].
    destruct L. rewrite Es. do 2 eexists. reflexivity. }
  assert (Pre : forall p, p <> c_eq -> (p = match s_style cfg with SLASH => "/" | _ => "-" end)%char ->
            forall l, pre_first p l = Ok (Some t, it') -> In t l).
  { intros p Np -> l El. apply pre_first_whole in El; [|exact Np].
    destruct El as [El|(c & r & ->)]; [exact El|]. destruct L. do 2 eexists. reflexivity. }
  unfold it_next in E. rewrite K in E. destruct (s_style cfg) eqn:Es.
  - unfold std_next in E. destruct (pos_nonzero (it_pos it)); [|apply Std; auto].
    destruct (it_args it) as [|a r]; [discriminate|]. destruct (it_pos it) as [k|]; [|right; apply Std; auto].
    destruct (k <? length a); [|right; apply Std; auto].
    destruct (nth_error a 1); [|discriminate]. destruct (nth_error a k); [|discriminate].
    destruct (negb _); [|right; apply Std; auto]. injection E as <- _.
    destruct L. do 2 eexists. reflexivity.
  - unfold pre_next in E. destruct (pos_nonzero (it_pos it)); [|eapply Pre; eauto; discriminate].
    destruct (it_args it); [discriminate|]. right. eapply Pre; eauto; discriminate.
  - unfold pre_next in E. destruct (pos_nonzero (it_pos it)); [|eapply Pre; eauto; discriminate].
    destruct (it_args it); [discriminate|]. right. eapply Pre; eauto; discriminate.
Qed.

Lemma remaining_from : forall it l it', it_remaining it = Ok (l, it') ->
  incl (it_args it) args -> Forall (left_from args) l.
Proof.
  intros it l it' E I.
  assert (G : forall (m : list str), incl m args -> Forall (left_from args) m).
  { intros m Im. apply Forall_forall. intros x Hx. left. apply given_whole, Im, Hx. }
  assert (Rt : forall i l i', remaining_tail i = Ok (l, i') -> incl (it_args i) args ->
            Forall (left_from args) l).
  { intros i m i' Em Im. unfold remaining_tail in Em. destruct (pos_nonzero (it_pos i)).
    - unfold subspan1 in Em. destruct (it_args i) as [|a r]; [discriminate|]. injection Em as <- _.
      apply G. intros x Hx. apply Im. right. exact Hx.
    - injection Em as <- _. apply G. exact Im. }
  unfold it_remaining in E. destruct (it_kind it); [|eapply Rt; eassumption].
  unfold std_remaining, split_concatenated_flags in E.
  destruct (pos_nonzero (it_pos it)) eqn:Ep.
  2:{ eapply Rt; eassumption. }
  destruct (it_args it) as [|a r] eqn:Ea; [discriminate|].
  destruct (it_pos it) as [k|] eqn:Ek.
  2:{ eapply Rt; [exact E|]. rewrite Ea. exact I. }
  destruct (length a <=? k). { eapply Rt; [exact E|]. rewrite Ea. exact I. }
  destruct (nth_error a 1); [|discriminate].
  destruct (Ascii.eqb _ _). { eapply Rt; [exact E|]. rewrite Ea. exact I. }
  unfold remaining_tail in E. cbn [it_pos it_args subspan1] in E. rewrite Ep in E.
  injection E as <- _. constructor.
  - right. exists (skipn k a). split; [reflexivity|]. exists a, k. split; [apply I; left; reflexivity|reflexivity].
  - apply G. intros x Hx. apply I. right. exact Hx.
Qed.

(** ** Steps *)

Definition all_deep (st : pstate) : Prop := Forall deep (open_levels st).
Definition flow (st : pstate) : Prop := all_deep st /\ incl (it_args (ps_iter st)) args.

Lemma all_deep_results : forall rc st, all_deep st -> all_deep (set_all_results rc st).
Proof.
  intros rc st F. unfold all_deep, open_levels in *. inversion F as [|? ? D1 D2]; subst.
  simpl. constructor; [apply deep_result; exact D1|].
  apply Forall_map. eapply Forall_impl; [|exact D2]. intros x. apply deep_result.
Qed.

Lemma all_deep_cur : forall st st', ps_parents st' = ps_parents st ->
  (deep (ps_cur st) -> deep (ps_cur st')) -> all_deep st -> all_deep st'.
Proof.
  intros st st' E C F. unfold all_deep, open_levels in *. inversion F; subst. rewrite E.
  constructor; [apply C; assumption|assumption].
Qed.

Lemma copy_flow : forall st, wf_iter (ps_iter st) -> flow st ->
  when (fun _ st' => all_deep st' /\ ps_mode st' = ps_mode st) (copy_remaining st).
Proof.
  intros st W (F & I). destruct (copy_remaining_eq st W) as (l & it & E & _ & _ & ->).
  simpl. split; [|reflexivity]. eapply all_deep_cur; [| |exact F]; [reflexivity|].
  intros D. apply deep_unprocessed; [eapply remaining_from; eassumption|exact D].
Qed.

Lemma error_flow : forall m st, wf_iter (ps_iter st) -> flow st ->
  when (fun _ st' => all_deep st' /\ ps_mode st' = ST_ERROR) (error cfg m st).
Proof.
  intros m st W (F & I). eapply when_mono; [apply error_when; exact W|].
  cbv beta. intros _ s (_ & l & it & E & ->). split; [|reflexivity]. unfold after_error.
  assert (G : all_deep (set_all_results RC_FAILURE
    (set_cur (set_iter (add_event st (EvError (ps_command st) m)) it)
       (add_unprocessed (ps_cur st) l)))); [|exact G].
  apply all_deep_results. eapply all_deep_cur; [| |exact F]; [reflexivity|].
  intros D. apply deep_unprocessed; [eapply remaining_from; eassumption|exact D].
Qed.

Definition ended_deep (st : pstate) : Prop := all_deep st /\ ps_mode st = ST_ERROR.

Lemma has_all_mandatory_flow : forall opts st, wf_iter (ps_iter st) -> flow st ->
  when (fun (b : bool) st' => if b then st' = st else ended_deep st') (has_all_mandatory cfg opts st).
Proof.
  induction opts as [|o r IH]; intros st W F; cbn [has_all_mandatory]; [reflexivity|].
  rewrite bind_gets. destruct (negb (o_optional o) && negb _).
  - eapply when_seq; [apply error_flow; assumption|]. cbv beta. intros _ s H. exact H.
  - apply IH; assumption.
Qed.

Lemma check_counts_flow : forall st, wf_iter (ps_iter st) -> flow st ->
  when (fun (b : bool) st' => if b then st' = after_success st /\ flow st' else ended_deep st')
    (check_counts cfg st).
Proof.
  intros st W F. unfold check_counts. rewrite bind_gets.
  eapply when_seq; [apply has_all_mandatory_flow; assumption|].
  cbv beta. intros [|] s H; cbn [negb]; [subst s|exact H].
  destruct (c_require (ps_command st)) as [req|]; [|exact I].
  rewrite bind_gets. destruct (req && is_empty (l_subs (ps_cur st))).
  { eapply when_seq; [apply error_flow; assumption|]. cbv beta. intros _ s H. exact H. }
  rewrite bind_gets. destruct (is_complete (ps_counter st)).
  - rewrite bind_modify. split; [reflexivity|]. destruct F as (F & I). split; [|exact I].
    apply (all_deep_results RC_SUCCESS (set_mode st ST_DONE)). exact F.
  - destruct (get_min_max_count _) as (lo, hi).
    eapply when_seq; [apply error_flow; assumption|]. cbv beta. intros _ s H. exact H.
Qed.

(** After a step: values and unprocessed arguments are fine, and the arguments not
    yet read are fine if parsing goes on. *)
Definition flowing (st : pstate) : Prop :=
  all_deep st /\ (in_progress (ps_mode st) -> incl (it_args (ps_iter st)) args).

Lemma flow_flowing : forall st, flow st -> flowing st.
Proof. intros st (A & B). split; auto. Qed.
Lemma ended_flowing : forall st, ended_deep st -> flowing st.
Proof. intros st (A & B). split; [exact A|]. rewrite B. intros [X|X]; discriminate X. Qed.

Lemma reactivate_flow : forall k st, flow st ->
  when (fun _ st' => flow st') (reactivate k st).
Proof.
  intros k st (F & I). unfold reactivate. simpl. unfold all_deep, open_levels in F.
  inversion F as [|? ? D1 D2]; subst. pose proof (deep_pop k _ _ D1 D2) as (E1 & E2).
  destruct (pop_levels k (ps_cur st) (ps_parents st)) as (cur, ps). split; [|exact I].
  unfold all_deep, open_levels. simpl. constructor; assumption.
Qed.

Lemma process_command_flow : forall d st, flow st ->
  when (fun _ st' => flow st') (process_command cfg d st).
Proof.
  intros d st (F & I). unfold process_command. rewrite bind_modify.
  eapply when_seq; [apply start_counter_when|]. cbv beta. intros _ s (ac & ->).
  rewrite bind_modify. unfold bind, m_current. destruct (it_current _); [|exact Logic.I].
  simpl. split; [|exact I]. unfold all_deep, open_levels in *. simpl. constructor; [|exact F].
  intros y Hy. apply in_result_inv in Hy. destruct Hy as [->|(s9 & [] & _)].
  split; [intros ? ? ? []|intros ? []].
Qed.

Lemma op_values_from : forall o v it it' l, In o (c_options (l_command l)) ->
  reads_value o it v it' -> incl (it_args it) args ->
  forall id t aid, In (id, (t, aid)) (op_values o v (l_values l)) ->
    In (id, (t, aid)) (l_values l) \/ rightly args top (l_command l) id t aid.
Proof.
  intros o v it it' l Io Rd I id t aid Hin. unfold op_values, option_change in Hin.
  assert (G : (o_operation o = OP_ASSIGN \/ o_operation o = OP_APPEND) ->
            (id, (t, aid)) = (o_value_id o, (text_of o v, o_argument_id o)) ->
            rightly args top (l_command l) id t aid).
  { intros Op E. injection E as -> -> ->. unfold text_of. destruct (o_constant o) as [|c0 c] eqn:Co.
    - assert (Tv : takes_value o) by (split; assumption).
      destruct Rd as [(_ & Nv)|(Nt & _)]; [|contradiction].
      eapply from_option; eauto. eapply next_value_given; eassumption.
    - eapply from_constant; [exact Io|reflexivity|reflexivity|symmetry; exact Co|discriminate|exact Op]. }
  destruct (o_operation o) eqn:Op; simpl in Hin.
  - left. exact Hin.
  - apply in_assign in Hin. destruct Hin as [E|Hin]; [right; apply G; auto|left; exact Hin].
  - apply in_append in Hin. destruct Hin as [E|Hin]; [right; apply G; auto|left; exact Hin].
  - left. eapply in_clear; exact Hin.
Qed.

Definition before (st : pstate) : Prop :=
  flow st /\ ps_command st = l_command (ps_cur st) /\ within top (ps_command st) /\
  wf_iter (ps_iter st).

Lemma known_option_flow : forall o flag st, before st -> In o (c_options (ps_command st)) ->
  when (fun ra st' => match fst ra with
                      | OR_ERROR => ended_deep st'
                      | OR_NORMAL => flow st'
                      | _ => flow st' /\ wf_iter (ps_iter st') /\
                             (fst ra <> OR_LAST_ARGUMENT -> ps_mode st' = ST_DONE)
                      end)
    (process_known_option cfg o flag st).
Proof.
  intros o flag st (Fl & Ec & Wi & W) Io.
  destruct (apply_operation_exact cfg o flag st W) as
    [(v & it' & Rd & Wi' & Ki & E)|(it' & Tk & Nv & Wi' & E)].
  2:{ unfold process_known_option. unfold bind at 1. rewrite E.
      assert (Fl2 : flow (set_iter st it')).
      { destruct Fl as (Fl & Inc). split; [exact Fl|].
        eapply incl_suffix; [eapply next_value_suffix; exact Nv|exact Inc]. }
      pose proof (error_flow (MsgNoValue flag) (set_iter st it') Wi' Fl2) as H.
      unfold bind at 1.
      destruct (error cfg (MsgNoValue flag) _) as [[] s|? ?|? ?| |]; try exact I. exact H. }
  pose proof (process_known_option_exact cfg o flag st W) as X.
  destruct (process_known_option cfg o flag st) as [(r, w) s1|? ?|? ?| |]; try exact I.
  cbn [when post fst snd] in *. destruct X as [(Er & _ & Tk & it2 & Nv)|(it2 & s & Rd2 & W2 & C & Ap)].
  { destruct Rd as [(_ & Nv2)|(Nt & _)]; [|contradiction]. rewrite Nv in Nv2. discriminate Nv2. }
  pose proof (cb2_frame _ _ _ _ _ _ _ _ C) as Fr.
  assert (Q : ps_iter s = it2 /\ ps_counter s = ps_counter st).
  { apply (cb2_quiet _ _ _ _ _ _ _ _ C).
    - intros f x xs Ef. apply NI. eapply cb_option_own; eassumption.
    - intros f x xs Ef. apply NI. eapply cb_option_global; eassumption. }
  assert (Cu : ps_cur s = set_l_values (ps_cur st) (op_values o w (l_values (ps_cur st)))).
  { apply (cb2_passive _ _ _ _ _ _ _ _ C).
    - intros f x xs Ef. apply NF. eapply cb_option_own; eassumption.
    - intros f x xs Ef. apply NF. eapply cb_option_global; eassumption. }
  destruct Fl as (Fl & Inc).
  assert (Fs : flow s).
  { split.
    - eapply all_deep_cur; [| |exact Fl]; [apply (cf_parents _ _ Fr)|]. intros D. rewrite Cu.
      apply deep_values; [exact D|]. intros id t aid Hin. rewrite Ec in Io.
      eapply op_values_from; eassumption.
    - rewrite (proj1 Q). destruct Rd2 as [(_ & Nv)|(_ & _ & ->)]; [|exact Inc].
      eapply incl_suffix; [eapply next_value_suffix; exact Nv|exact Inc]. }
  assert (Ws : wf_iter (ps_iter s)) by (rewrite (proj1 Q); exact W2).
  assert (G : forall s', ps_iter s' = ps_iter s -> ps_parents s' = ps_parents s ->
            (ps_cur s' = ps_cur s \/ ps_cur s' = set_breaking_option o (ps_cur s)) ->
            flow s' /\ wf_iter (ps_iter s')).
  { intros s' E1 E2 E3. rewrite E1. split; [|exact Ws]. destruct Fs as (F1 & F2).
    split; [|rewrite E1; exact F2]. eapply all_deep_cur; [exact E2| |exact F1].
    destruct E3 as [-> | ->]; [auto|apply deep_break]. }
  assert (G3 : forall s' (X : Prop), ps_iter s' = ps_iter s -> ps_parents s' = ps_parents s ->
            (ps_cur s' = ps_cur s \/ ps_cur s' = set_breaking_option o (ps_cur s)) -> X ->
            flow s' /\ wf_iter (ps_iter s') /\ X).
  { intros s' X E1 E2 E3 HX. destruct (G s' E1 E2 E3). auto. }
  unfold apply_type in Ap. destruct (o_type o); vm_compute in Ap; injection Ap as <- <-;
    first [apply G|apply G3]; first [reflexivity|left; reflexivity|right; reflexivity|idtac];
    intros X; solve [reflexivity|contradiction X; reflexivity].
Qed.

Lemma stop_flow : forall A (r : A) st, flow st -> wf_iter (ps_iter st) -> ps_mode st = ST_DONE ->
  when (fun _ st' => flowing st') ((copy_remaining ;;; ret r) st).
Proof.
  intros A r st F W M. eapply when_seq; [apply copy_flow; assumption|]. cbv beta.
  intros _ s (H & Hm). split; [exact H|]. simpl. rewrite Hm, M. intros [X|X]; discriminate X.
Qed.

Lemma option_flow : forall flag st, before st ->
  when (fun _ st' => flowing st') (process_option cfg flag st).
Proof.
  intros flag st B. pose proof B as (Fl & Ec & Wi & W).
  unfold process_option. rewrite bind_gets.
  destruct (find_option (ps_command st) flag (s_abbreviations cfg) (s_case_insensitive cfg)) as [o|] eqn:F.
  - assert (Io : In o (c_options (ps_command st))) by (eapply find_option_in_options; eassumption).
    eapply when_seq; [apply known_option_flow; eassumption|]. cbv beta. intros (r, v) s H.
    cbn [fst] in H. destruct r.
    + apply flow_flowing. exact H.
    + destruct H as (Fs & Ws & _). eapply when_seq; [apply check_counts_flow; eassumption|].
      cbv beta. intros [|] s2 H; cbn [negb]; [|apply ended_flowing; exact H].
      destruct H as (-> & F2). rewrite bind_gets. destruct (find_first_multi_command_parent _) as [k|].
      * eapply when_seq; [apply reactivate_flow; exact F2|]. cbv beta. intros _ s3 H.
        apply flow_flowing. exact H.
      * apply stop_flow; [exact F2|exact Ws|reflexivity].
    + destruct H as (Fs & Ws & Ms). apply stop_flow; [exact Fs|exact Ws|apply Ms; discriminate].
    + destruct H as (Fs & Ws & Ms). destruct (s_auto_exit cfg); [exact I|].
      apply stop_flow; [exact Fs|exact Ws|apply Ms; discriminate].
    + apply ended_flowing. exact H.
  - assert (Er : forall m, when (fun _ st' => flowing st')
                  ((error cfg m ;;; ret (mk_ir IC_ERROR ItNone [])) st)).
    { intros m. eapply when_seq; [apply error_flow; eassumption|]. cbv beta. intros _ s H.
      apply ended_flowing. exact H. }
    assert (Gv : forall cur, it_current (ps_iter st) = Some cur -> given args cur).
    { intros cur Cu. apply given_whole, (proj2 Fl). unfold it_current in Cu.
      destruct (it_args (ps_iter st)); [discriminate|]. injection Cu as ->. left. reflexivity. }
    destruct (negb (s_ignore_options cfg)).
    + unfold bind at 1, m_current. destruct (it_current _); [apply Er|exact I].
    + unfold bind at 1, m_current. destruct (it_current _) as [cur|]; [|exact I]. destruct (negb _); [apply Er|].
      rewrite bind_modify. apply flow_flowing. destruct Fl as (F1 & F2). split; [|exact F2].
      eapply all_deep_cur; [| |exact F1]; [reflexivity|]. apply deep_unprocessed.
      constructor; [left; apply Gv; reflexivity|constructor].
Qed.

Lemma argument_flow : forall value st, before st -> given args value ->
  counter_from (c_arguments (ps_command st)) (ps_counter st) ->
  when (fun _ st' => flowing st') (process_argument cfg value st).
Proof.
  intros value st B Gv Cf. pose proof B as ((F1 & F2) & Ec & Wi & W).
  unfold process_argument. rewrite bind_gets.
  destruct (find_sibling_command cfg st value) as [(d, k)|].
  - eapply when_seq; [apply reactivate_flow; split; eassumption|]. cbv beta. intros _ s H.
    eapply when_mono; [apply process_command_flow; exact H|]. cbv beta. intros _ s2 H2.
    apply flow_flowing. exact H2.
  - unfold bind at 1, m_next_argument.
    pose proof (counter_from_next _ _ Cf) as (_ & Ia).
    destruct (next_argument (ps_counter st)) as ([a|], ac); cbn [fst] in Ia.
    + rewrite bind_modify. specialize (Ia a eq_refl).
      rewrite <- (bind_assoc (run_callback cfg (a_callback a) (arg_own_event a value) value)
                    (fun _ => run_callback cfg (argument_cb cfg a) (arg_global_event a value) value)
                    (fun _ => ret (mk_ir IC_ARGUMENT (ItArgument a) value))).
      eapply when_seq; [apply two_callbacks_exact; auto|]. cbv beta. intros _ s C.
      apply flow_flowing. pose proof (cb2_frame _ _ _ _ _ _ _ _ C) as Fr.
      split.
      * eapply all_deep_cur; [| |exact F1]; [apply (cf_parents _ _ Fr)|]. intros D.
        rewrite (cb2_passive _ _ _ _ _ _ _ _ C).
        -- apply deep_values; [exact D|]. intros id t aid Hin. apply in_append in Hin.
           destruct Hin as [E|Hin]; [right|left; exact Hin]. injection E as -> -> ->.
           rewrite Ec in Ia. eapply from_argument; eauto.
        -- intros f x xs Ef. apply NF. eapply cb_argument_own; eassumption.
        -- intros f x xs Ef. apply NF. eapply cb_argument_global; eassumption.
      * destruct (cb2_quiet _ _ _ _ _ _ _ _ C) as (-> & _); [| |exact F2].
        -- intros f x xs Ef. apply NI. eapply cb_argument_own; eassumption.
        -- intros f x xs Ef. apply NI. eapply cb_argument_global; eassumption.
    + destruct (s_ignore_arguments cfg).
      * rewrite bind_modify. unfold bind at 1, m_current. destruct (it_current _); [|exact I].
        apply flow_flowing. split; [|exact F2].
        eapply all_deep_cur; [| |exact F1]; [reflexivity|]. apply deep_unprocessed.
        constructor; [left; exact Gv|constructor].
      * eapply when_seq; [apply error_flow; [exact W|split; eassumption]|]. cbv beta. intros _ s H.
        apply ended_flowing. exact H.
Qed.

Lemma next_flow : forall st, shape cfg top st -> flowing st ->
  when (fun _ st' => flowing st') (next cfg st).
Proof.
  intros st Sh (F1 & F2). pose proof (sh_wf _ _ _ Sh) as W.
  destruct (ps_mode st) eqn:M.
  3:{ unfold next. rewrite bind_gets, M. simpl. split; [exact F1|]. rewrite M. exact F2. }
  3:{ unfold next. rewrite bind_gets, M. exact I. }
  all: assert (Pr : in_progress (ps_mode st)) by (rewrite M; unfold in_progress; auto);
    rewrite <- M in F2; specialize (F2 Pr);
    destruct (reads_some st W Pr) as (t & it & R);
    destruct (reads_wf _ _ _ W R) as (W' & _);
    rewrite (next_eq cfg _ _ _ R).
  all: assert (Inc : incl (it_args it) args)
    by (unfold reads in R; rewrite M in R; eapply incl_suffix;
        [first [eapply next_suffix; exact R|eapply next_value_suffix; exact R]|exact F2]).
  all: assert (B : before (set_iter st it))
    by (split; [split; [exact F1|exact Inc]|];
        split; [exact (sh_command _ _ _ Sh)|]; split; [|exact W'];
        change (within top (ps_command st)); rewrite (sh_command _ _ _ Sh);
        eapply chain_within; apply (sh_chain _ _ _ Sh)).
  all: destruct t as [t|].
  2,4: eapply when_seq; [apply check_counts_flow; [exact W'|exact (proj1 B)]|]; cbv beta;
    intros [|] s H; simpl; [apply flow_flowing; exact (proj2 H)|apply ended_flowing; exact H].
  all: unfold process_token; rewrite bind_gets, M.
  1: destruct (is_option t (s_style cfg)) eqn:Io; cbn [andb].
  1: apply option_flow; exact B.
  all: cbn [andb].
  all: assert (Gv : given args t).
  1:{ apply given_whole, F2. unfold reads in R. rewrite M in R.
      eapply next_whole; [exact R|exact (sh_kind _ _ _ Sh)|]. rewrite <- is_option_iff. congruence. }
  2:{ unfold reads in R. rewrite M in R. eapply next_value_given; eassumption. }
  all: change (ps_command (set_iter st it)) with (ps_command st).
  all: destruct (c_commands (ps_command st)) as [|d0 ds] eqn:Cm; cbn [is_empty].
  1,3: apply argument_flow; [exact B|exact Gv|exact (sh_from _ _ _ Sh)].
  all: destruct (find_command _ _ _) as [d|].
  1,3: eapply when_mono; [apply process_command_flow; exact (proj1 B)|]; cbv beta;
    intros _ s H; apply flow_flowing; exact H.
  all: eapply when_seq; [apply error_flow; [exact W'|exact (proj1 B)]|]; cbv beta; intros _ s H;
    apply ended_flowing; exact H.
Qed.
(** ** Reached states *)

Lemma initial_deep : level_from (set_l_values (new_level top) (initial_values (c_options top))).
Proof.
  split; [|intros u []]. unfold initial_values. cbn [l_values set_l_values l_command new_level].
  assert (G : forall opts vs, incl opts (c_options top) ->
    (forall id t aid, In (id, (t, aid)) vs -> rightly args top top id t aid) ->
    forall id t aid, In (id, (t, aid)) (fold_left (fun vs o =>
      if negb (is_empty (o_initial_value o))
      then append_value vs (o_value_id o) (o_initial_value o) (o_argument_id o)
      else vs) opts vs) -> rightly args top top id t aid).
  { induction opts as [|o r IH]; intros vs Io Hv; cbn [fold_left]; [exact Hv|].
    apply IH; [intros x Hx; apply Io; right; exact Hx|].
    destruct (o_initial_value o) as [|c0 s0] eqn:Ei; cbn [is_empty negb]; [exact Hv|].
    intros id t aid Hin. apply in_append in Hin. destruct Hin as [E|Hin]; [|apply Hv; exact Hin].
    injection E as -> -> ->. eapply from_initial with (o := o); auto; [apply Io; left; reflexivity|discriminate]. }
  apply G; [apply incl_refl|intros ? ? ? []].
Qed.

Lemma reached_flow : forall st n, reached cfg top args st n -> flowing st.
Proof.
  intros st n R. induction R as [st E|st n r st' R IH E].
  - destruct (start_post cfg top args) as (s & E' & Ru & M & It & _ & _ & Pa & _ & Cu).
    rewrite E in E'. injection E' as <-. apply flow_flowing. split.
    + unfold all_deep, open_levels. rewrite Pa. constructor; [|constructor]. rewrite Cu.
      intros y Hy. apply in_result_inv in Hy. destruct Hy as [->|(s9 & [] & _)]. apply initial_deep.
    + rewrite It. unfold make_option_iterator. destruct (s_style cfg); apply incl_refl.
  - pose proof (next_flow st (inv_shape cfg top _ _ (reached_inv cfg top P _ _ _ R)) IH) as X.
    rewrite E in X. exact X.
Qed.

Lemma result_flow : forall st n x, reached cfg top args st n -> in_result (toplevel st) x ->
  level_from x.
Proof.
  intros st n x R Hx. destruct (reached_flow st n R) as (F & _). unfold all_deep, open_levels in F.
  inversion F as [|? ? D1 D2]; subst. apply (deep_pop (length (ps_parents st)) _ _ D1 D2). exact Hx.
Qed.

Lemma levels_flow : forall st n x, reached cfg top args st n -> In x (open_levels st) -> level_from x.
Proof.
  intros st n x R Hx. destruct (reached_flow st n R) as (F & _). unfold all_deep in F.
  rewrite Forall_forall in F. apply deep_self, F, Hx.
Qed.
End Flow.

Lemma picked_in : forall vs id x, In x (get_values vs id) -> In (id, x) vs.
Proof.
  intros vs id x. unfold get_values. induction vs as [|(k, y) r IH]; intros I; [destruct I|].
  cbn [from_lower_bound] in I. destruct (k <? id)%N; [right; apply IH; exact I|]. clear IH.
  revert k y I. induction r as [|(k2, y2) r IH]; intros k y I; cbn [take_key] in I.
  - destruct (N.eqb_spec k id) as [->|]; [|destruct I]. destruct I as [<-|[]]. left. reflexivity.
  - destruct (N.eqb_spec k id) as [->|]; [|destruct I]. destruct I as [<-|I]; [left; reflexivity|].
    right. apply IH. exact I.
Qed.

Lemma values_given_proof : forall p q args st n x id t aid, finish_parser p = Val q ->
  let cfg := d_settings q in let top := d_command q in
  no_insertions cfg top -> no_interference cfg top -> reached cfg top args st n ->
  in_result (toplevel st) x -> In (t, aid) (get_values (l_values x) id) ->
  rightly args top (l_command x) id t aid.
Proof.
  intros p q args st n x id t aid H cfg top NI NF R Hx I. apply picked_in in I.
  eapply result_flow; try eassumption. eapply finish_parser_prepared; exact H.
Qed.

Lemma unprocessed_given_proof : forall p q args st n x u, finish_parser p = Val q ->
  let cfg := d_settings q in let top := d_command q in
  no_insertions cfg top -> no_interference cfg top -> reached cfg top args st n ->
  in_result (toplevel st) x -> In u (l_unprocessed x) -> left_from args u.
Proof.
  intros p q args st n x u H cfg top NI NF R Hx I.
  eapply result_flow; try eassumption. eapply finish_parser_prepared; exact H.
Qed.
