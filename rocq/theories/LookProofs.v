(** Look-ahead and what is read afterwards (C43). *)
From Verif Require Import Base BaseProofs MStrings MOptIter MData MCounter MValues MParser
  SStrings STok SIndex SDef SValues SCounter SParser SStep SLook
  StrProofs TokProofs IndexProofs DefProofs FinishProofs ValuesProofs CounterProofs CounterInv
  MonadProofs FrameProofs InvProofs NextProofs ParseProofs StepProofs.
Open Scope nat_scope.

(* ------------------------------------------------------------------------ *)
(** ** Options of finished definitions *)

Definition flag_shape (style : option_style) (f : str) : Prop :=
  exists c r, f = style_prefix style :: c :: r.

Lemma valid_shape : forall style o, valid_option style o ->
  forall f, In f (o_flags o) -> flag_shape style f.
Proof.
  intros style o (_ & V & _) f Hf. destruct (V f Hf) as (_ & c & r & E & _). exists c, r. exact E.
Qed.

Lemma finished_option : forall p q c o, finish_parser p = Val q -> within (d_command q) c ->
  In o (c_options c) ->
  (forall f, In f (o_flags o) -> flag_shape (s_style (d_settings q)) f) /\
  (takes_value o -> o_argument o <> []).
Proof.
  intros p q c o H Hw Ho. apply finish_parser_inv in H. destruct H as (-> & F).
  destruct (finished_within _ _ _ _ _ _ F c Hw) as (d0 & f & s & a & W0 & E).
  apply finish_finished in E. destruct E as (opts1 & vid' & aid' & V & _ & I & _).
  apply set_internal_ids_spec in I. destruct I as (_ & _ & _ & S1 & S2).
  destruct (forall2_in_right _ _ _ S2 o Ho) as (o1 & I1 & (a1 & v1 & ->)).
  change (takes_value (set_o_ids o1 a1 v1)) with (takes_value o1).
  change (o_flags (set_o_ids o1 a1 v1)) with (o_flags o1).
  change (o_argument (set_o_ids o1 a1 v1)) with (o_argument o1).
  assert (Old : In o1 opts1 -> (forall f, In f (o_flags o1) -> flag_shape (s_style (d_settings p)) f) /\
    (takes_value o1 -> o_argument o1 <> [])).
  { intros X. apply validate_all_forall2 in V. destruct (forall2_in_right _ _ _ V o1 X) as (o2 & _ & Eo).
    destruct (validate_result_proof _ _ _ Eo) as ((Ef & _ & _ & _ & _ & _ & _ & Eop & _) & _). split.
    - intros g Hg. rewrite Ef in Hg. apply (valid_shape _ o2); [|exact Hg]. apply validate_iff_proof. eauto.
    - intros (Op & Co). rewrite Eop in Op.
      destruct (validate_value_proof _ _ _ Eo Op) as [(_ & X1)|(X1 & _)]; [contradiction|exact X1]. }
  destruct (add_help_cases opts1 (c_current_section d0) (d_settings p))
    as [(E' & _)|(o' & E' & T & N & Fl & Op & A & K & _)]; rewrite E' in I1; [exact (Old I1)|].
  apply in_app_or in I1. destruct I1 as [I1|[<-|[]]]; [exact (Old I1)|]. split.
  - apply valid_shape. eapply help_valid_proof. exact E'.
  - intros (X1 & X2). first [congruence | rewrite K in X2; discriminate | rewrite Op in X1; destruct X1; discriminate].
Qed.

(** The entries of the index are flags of options. *)
Lemma finished_entry : forall p q c f o, finish_parser p = Val q -> within (d_command q) c ->
  In (f, o) (c_index c) -> flag_shape (s_style (d_settings q)) f.
Proof.
  intros p q c f o H W Hin. pose proof (finished_index_proof p q c H W) as B.
  unfold build_option_index, check_index in B.
  destruct (adjacent_find _ _) as [(x & y)|] in B; [destruct (str_eqb _ _); discriminate|].
  injection B as B. rewrite <- B in Hin.
  apply (Permutation.Permutation_in _ (Permutation.Permutation_sym (sort_by_perm _ _))) in Hin.
  unfold index_entries in Hin. apply in_flat_map in Hin. destruct Hin as (o' & Ho & Hm).
  apply in_map_iff in Hm. destruct Hm as (g' & Eg & Hg). injection Eg as -> <-.
  exact (proj1 (finished_option p q c o' H W Ho) f Hg).
Qed.

Lemma index_length : forall p q c, finish_parser p = Val q -> within (d_command q) c ->
  length (c_index c) = length (all_flags (c_options c)).
Proof.
  intros p q c H W. pose proof (finished_index_proof p q c H W) as B.
  unfold build_option_index, check_index in B.
  destruct (adjacent_find _ _) as [(x & y)|] in B; [destruct (str_eqb _ _); discriminate|].
  injection B as B. rewrite <- B.
  rewrite <- (Permutation.Permutation_length (sort_by_perm _ _)). unfold index_entries, all_flags.
  clear. induction (c_options c) as [|o l IH]; simpl; [reflexivity|]. rewrite !app_length, map_length, IH. reflexivity.
Qed.

(** ** Text that is not an option is no flag *)

Lemma norm_prefix : forall ci style c r, norm ci (style_prefix style :: c :: r) =
  style_prefix style :: norm ci (c :: r).
Proof. intros [] [] c r; reflexivity. Qed.

Lemma lower_prefix : forall style c, lower_ascii c = style_prefix style -> c = style_prefix style.
Proof.
  intros style c H.
  assert (X : forall c, implb (Ascii.eqb (lower_ascii c) (style_prefix style)) (Ascii.eqb c (style_prefix style)) = true).
  { intros x. destruct style; revert x; intros [[] [] [] [] [] [] [] []]; reflexivity. }
  specialize (X c). rewrite H, Ascii.eqb_refl in X. simpl in X. apply Ascii.eqb_eq. exact X.
Qed.

Lemma nonoption_impl : forall index style t abbrev ci,
  (forall f o, In (f, o) index -> flag_shape style f) ->
  (abbrev = false \/ (t <> [] /\ t <> [style_prefix style])) ->
  ~ looks_like_option style t -> find_option_impl index t abbrev ci = None.
Proof.
  intros index style t abbrev ci Fs Ab No. unfold find_option_impl.
  assert (Pr : (match style with SLASH => "/" | _ => "-" end)%char = style_prefix style) by (destruct style; reflexivity).
  destruct (nth_error index _) as [(f, o)|] eqn:E; [|reflexivity].
  apply nth_error_In in E. destruct (Fs f o E) as (c & r & ->).
  assert (Eq : forall ci, are_equal (style_prefix style :: c :: r) t ci = false).
  { intros b. destruct (are_equal _ t b) eqn:X; [|reflexivity]. exfalso. apply No.
    rewrite are_equal_norm in X. apply str_eqb_eq in X. rewrite norm_prefix in X.
    assert (L : length (norm b t) = length t) by (destruct b; [apply map_length|reflexivity]).
    assert (L2 : length (norm b (c :: r)) = S (length r)) by (destruct b; [apply map_length|reflexivity]).
    rewrite <- X in L. simpl in L. rewrite L2 in L. destruct t as [|x [|y t]]; simpl in L; [lia..|].
    unfold looks_like_option. rewrite Pr. exists y, t. f_equal. destruct b; simpl in X.
    - injection X as X _. symmetry. symmetry in X. apply lower_prefix in X. congruence.
    - injection X as X _. congruence. }
  pose proof (Eq false) as Eq1. unfold are_equal in Eq1. rewrite Eq1.
  assert (Eq2 : ci && are_equal_ci (style_prefix style :: c :: r) t = false).
  { destruct ci; [|reflexivity]. exact (Eq true). }
  rewrite Eq2. destruct Ab as [->|(T1 & T2)]; [reflexivity|].
  destruct (negb abbrev); [reflexivity|].
  assert (Sw : starts_with (style_prefix style :: c :: r) t ci = false).
  { destruct (starts_with _ t ci) eqn:X; [|reflexivity]. exfalso.
    rewrite starts_with_norm, norm_prefix in X. destruct t as [|x t]; [congruence|].
    assert (Hx : x = style_prefix style).
    { destruct ci; unfold starts_with_cs in X; simpl norm in X;
        (destruct (_ <? _) in X; [discriminate|]); simpl in X; apply andb_true_iff in X; destruct X as (X & _);
        apply Ascii.eqb_eq in X; [apply lower_prefix|]; congruence. }
    subst x. destruct t as [|y t]; [congruence|]. apply No. exists y, t. rewrite Pr. reflexivity. }
  rewrite Sw. reflexivity.
Qed.

(** The beginning of several flags. *)
Lemma short_impl : forall index style t abbrev ci,
  (forall f o, In (f, o) index -> flag_shape style f) -> 1 < length index ->
  t = [] \/ t = [style_prefix style] -> find_option_impl index t abbrev ci = None.
Proof.
  intros index style t abbrev ci Fs L T. unfold find_option_impl.
  assert (Le : forall f, flag_shape style f -> is_less f t ci = false).
  { intros f (c & r & ->). destruct T as [->| ->]; destruct ci; try reflexivity; destruct style; reflexivity. }
  assert (Sw : forall f, flag_shape style f -> starts_with f t ci = true).
  { intros f (c & r & ->). destruct T as [->| ->]; destruct ci; try reflexivity; destruct style; reflexivity. }
  assert (Z : lower_bound (fun e : str * opt_data => is_less (fst e) t ci) index = 0).
  { apply lower_bound_spec. split; [lia|]. intros i x Hx. destruct x as (f, o). cbn [fst].
    rewrite (Le f) by (eapply Fs; eapply nth_error_In; exact Hx). symmetry. apply Nat.ltb_ge. lia. }
  rewrite Z. destruct index as [|(f, o) [|(g, o2) index]]; [simpl in L; lia..|]. cbn [nth_error].
  assert (Ff : flag_shape style f) by (eapply Fs; left; reflexivity).
  assert (Fg : flag_shape style g) by (eapply Fs; right; left; reflexivity).
  rewrite (Sw f Ff), (Sw g Fg). cbn [negb].
  assert (E1 : str_eqb f t = false).
  { destruct Ff as (c & r & ->). destruct T as [->| ->]; [reflexivity|]. simpl. destruct (Ascii.eqb _ _); reflexivity. }
  assert (E2 : are_equal_ci f t = false).
  { destruct Ff as (c & r & ->). destruct T as [->| ->]; reflexivity. }
  rewrite E1, E2, andb_false_r. destruct (negb abbrev); reflexivity.
Qed.

Lemma nonoption_find : forall index style t abbrev ci,
  (forall f o, In (f, o) index -> flag_shape style f) ->
  (abbrev = false \/ (t <> [] /\ t <> [style_prefix style]) \/ 1 < length index) ->
  ~ looks_like_option style t -> find_option_in index t abbrev ci = None.
Proof.
  intros index style t abbrev ci Fs Ab0 No. unfold find_option_in.
  assert (Ab : (abbrev = false \/ (t <> [] /\ t <> [style_prefix style])) \/
               1 < length index /\ (t = [] \/ t = [style_prefix style])).
  { destruct Ab0 as [A|[A|A]]; [left; left; exact A|left; right; exact A|].
    destruct t as [|x [|y t]]; [right; auto| |left; right; split; discriminate].
    destruct (Ascii.eqb x (style_prefix style)) eqn:X.
    - apply Ascii.eqb_eq in X. subst x. right. auto.
    - left. right. split; [discriminate|]. intros Y. injection Y as ->. rewrite Ascii.eqb_refl in X. discriminate. }
  clear Ab0. destruct Ab as [Ab|(L & T)].
  2:{ rewrite (short_impl index style t abbrev ci Fs L T). destruct T as [->| ->]; reflexivity. }
  rewrite (nonoption_impl index style t abbrev ci Fs Ab No).
  destruct (2 <? length t) eqn:L; [|reflexivity]. cbn [andb]. apply Nat.ltb_lt in L.
  destruct (match last_char t with Some _ => _ | None => _ end); [|reflexivity].
  rewrite (nonoption_impl index style _ abbrev ci Fs); [reflexivity| |].
  - destruct Ab as [Ab|_]; [left; exact Ab|]. right.
    destruct t as [|x [|y [|z t]]]; simpl in L; try lia.
    assert (E : firstn (length (x :: y :: z :: t) - 1) (x :: y :: z :: t) = x :: y :: firstn (length t) (z :: t)).
    { simpl. rewrite ?Nat.sub_0_r. reflexivity. }
    rewrite E. split; discriminate.
  - intros (a & b & E). apply No.
    destruct t as [|x [|y [|z t]]]; simpl in L; try lia.
    exists y, (z :: t). simpl in E. injection E as -> _ _. reflexivity.
Qed.

(* ------------------------------------------------------------------------ *)
(** ** What a call of next() does to the position *)

(** Nothing but the values, the position and the counter has changed. *)
Definition stays (st st' : pstate) : Prop :=
  ps_command st' = ps_command st /\ ps_parents st' = ps_parents st.

Inductive move (cfg : settings) (st : pstate) (r : iter_result) (st' : pstate) : Prop :=
| mv_argument : forall t it a ac, reads st (Some t) it ->
    (ps_mode st = ARGUMENTS_ONLY \/ ~ looks_like_option (s_style cfg) t) ->
    r = mk_ir IC_ARGUMENT (ItArgument a) t ->
    find_sibling_command cfg st t = None -> next_argument (ps_counter st) = (Some a, ac) ->
    stays st st' -> ps_mode st' = ps_mode st -> ps_iter st' = it -> ps_counter st' = ac ->
    move cfg st r st'
| mv_option : forall t it o v it', ps_mode st = ARGUMENTS_AND_OPTIONS ->
    it_next (ps_iter st) = Ok (Some t, it) ->
    find_option (ps_command st) t (s_abbreviations cfg) (s_case_insensitive cfg) = Some o ->
    In o (c_options (ps_command st)) ->
    reads_value o it v it' -> r = mk_ir IC_OPTION (ItOption o) v ->
    (o_type o = OT_NORMAL /\ ps_mode st' = ARGUMENTS_AND_OPTIONS \/
     o_type o = OT_LAST_OPTION /\ ps_mode st' = ARGUMENTS_ONLY) ->
    stays st st' -> ps_iter st' = it' -> ps_counter st' = ps_counter st -> move cfg st r st'
| mv_unknown : forall t it, ps_mode st = ARGUMENTS_AND_OPTIONS ->
    it_next (ps_iter st) = Ok (Some t, it) -> looks_like_option (s_style cfg) t ->
    find_option (ps_command st) t (s_abbreviations cfg) (s_case_insensitive cfg) = None ->
    ir_code r = IC_UNKNOWN -> ir_item r = ItNone -> stays st st' -> ps_mode st' = ps_mode st -> ps_iter st' = it ->
    ps_counter st' = ps_counter st -> move cfg st r st'
| mv_end : forall it, reads st None it -> ir_code r = IC_DONE -> ps_mode st' = ST_DONE ->
    move cfg st r st'
| mv_last : forall t it o v it', ps_mode st = ARGUMENTS_AND_OPTIONS ->
    it_next (ps_iter st) = Ok (Some t, it) ->
    find_option (ps_command st) t (s_abbreviations cfg) (s_case_insensitive cfg) = Some o ->
    In o (c_options (ps_command st)) ->
    reads_value o it v it' -> r = mk_ir IC_OPTION (ItOption o) v ->
    (o_type o = OT_LAST_ARGUMENT \/
     (o_type o = OT_STOP \/ o_type o = OT_HELP \/ o_type o = OT_EXIT) /\ ps_mode st' = ST_DONE) ->
    move cfg st r st'
| mv_sibling : forall t it d k, reads st (Some t) it ->
    (ps_mode st = ARGUMENTS_ONLY \/ ~ looks_like_option (s_style cfg) t) ->
    find_sibling_command cfg st t = Some (d, k) -> ir_code r = IC_COMMAND -> ir_item r = ItCommand d ->
    move cfg st r st'
| mv_command : c_commands (ps_command st) <> [] -> ir_code r = IC_COMMAND -> move cfg st r st'
| mv_error : ir_code r = IC_ERROR -> move cfg st r st'
| mv_ignored : s_ignore_arguments cfg = true -> ir_code r = IC_UNKNOWN -> stays st st' ->
    ps_mode st' = ps_mode st -> move cfg st r st'.

Section Moves.
Variables (p q : parser_data).
Hypothesis H : finish_parser p = Val q.
Let cfg := d_settings q.
Let top := d_command q.
Variable K : nat.
Hypothesis Hn : quiet_from cfg top K.

Lemma error_code : forall m r st (Q : iter_result -> pstate -> Prop), wf_iter (ps_iter st) ->
  (forall st', Q r st') -> when Q ((error cfg m ;;; ret r) st).
Proof.
  intros m r st Q W Hq. eapply when_seq; [apply error_only; exact W|]. cbv beta. intros _ s _. apply Hq.
Qed.

(** What is left is copied; nothing else changes. *)
Lemma copied : forall st r (Q : iter_result -> pstate -> Prop), wf_iter (ps_iter st) ->
  (forall st', ps_mode st' = ps_mode st -> Q r st') -> when Q ((copy_remaining ;;; ret r) st).
Proof.
  intros st r Q W HQ. unfold bind. destruct (copy_remaining_eq st W) as (l & it & _ & _ & _ & ->).
  apply HQ. reflexivity.
Qed.

Lemma option_move : forall t it st, within top (ps_command st) -> wf_iter it ->
  ps_mode st = ARGUMENTS_AND_OPTIONS -> it_next (ps_iter st) = Ok (Some t, it) ->
  looks_like_option (s_style cfg) t -> K <= ps_calls st ->
  when (fun r st' => move cfg st r st') (process_option cfg t (set_iter st it)).
Proof.
  intros t it st Wi W M R L Kc. unfold process_option. rewrite bind_gets.
  change (ps_command (set_iter st it)) with (ps_command st).
  destruct (find_option (ps_command st) t (s_abbreviations cfg) (s_case_insensitive cfg)) as [o|] eqn:F.
  - assert (Io : In o (c_options (ps_command st))).
    { eapply find_option_in_options; [|exact Wi|exact F]. eapply finish_parser_prepared; exact H. }
    eapply when_seq; [apply process_known_option_exact; exact W|].
    cbv beta. intros (r, v) s1 [(E & _)|(it' & s & Rd & Wt & C & Ap)].
    { injection E as -> ->. apply mv_error. reflexivity. }
    cbn [fst snd] in *. pose proof (cb2_frame _ _ _ _ _ _ _ _ C) as Fr.
    destruct (cb2_quiet _ _ _ _ _ _ _ _ C) as (Ei & Ec).
    { intros f x vs Ef. apply Hn; [eapply cb_option_own; eassumption|cbn; lia]. }
    { intros f x vs Ef. apply Hn; [eapply cb_option_global; eassumption|cbn; lia]. }
    pose proof (cf_command _ _ Fr) as Fc. pose proof (cf_parents _ _ Fr) as Fp. pose proof (cf_mode _ _ Fr) as Fm.
    cbn in Ei, Ec, Fc, Fp, Fm.
    assert (Ws : wf_iter (ps_iter s)) by (apply (cf_wf _ _ Fr); exact Wt).
    unfold apply_type, bind, gets, emit, modify, ret in Ap.
    destruct (o_type o) eqn:T; injection Ap as <- <-.
    + eapply mv_option; try eassumption; [reflexivity|left; split; [exact T|congruence]|split; assumption].
    + destruct (s_auto_exit cfg); [exact I|]. apply copied; [exact Ws|]. intros s2 Ms.
      eapply mv_last; try eassumption; [reflexivity|]. right. auto.
    + apply copied; [exact Ws|]. intros s2 Ms.
      eapply mv_last; try eassumption; [reflexivity|]. right. auto.
    + destruct (s_auto_exit cfg); [exact I|]. apply copied; [exact Ws|]. intros s2 Ms.
      eapply mv_last; try eassumption; [reflexivity|]. right. auto.
    + eapply when_seq; [apply check_counts_only; exact Ws|].
      cbv beta. intros [|] s2 X; cbn [negb]; [subst s2|apply mv_error; reflexivity].
      rewrite bind_gets. destruct (find_first_multi_command_parent _) as [k|].
      * unfold reactivate. rewrite bind_modify. destruct (pop_levels _ _ _) as (cur, ps).
        eapply mv_last; try eassumption; [reflexivity|]. auto.
      * apply copied; [exact Ws|]. intros s2 Ms. eapply mv_last; try eassumption; [reflexivity|]. auto.
    + eapply mv_option; try eassumption; [reflexivity|right; split; [exact T|reflexivity]|split; assumption].
  - destruct (negb (s_ignore_options cfg)).
    + unfold bind at 1, m_current. destruct (it_current _); [|exact I].
      apply error_code; [exact W|]. intros s9. apply mv_error. reflexivity.
    + unfold bind at 1, m_current. destruct (it_current _) as [cur|]; [|exact I]. destruct (negb _).
      * apply error_code; [exact W|]. intros s9. apply mv_error. reflexivity.
      * rewrite bind_modify. eapply mv_unknown; try eassumption; try reflexivity. split; reflexivity.
Qed.

Lemma command_item : forall d st,
  when (fun r st' => ir_code r = IC_COMMAND /\ ir_item r = ItCommand d) (process_command cfg d st).
Proof.
  intros d st. eapply when_mono; [apply process_command_silent|]. cbv beta. intros r s (A & B & _). auto.
Qed.

Lemma argument_move : forall t it st, shape cfg top st -> wf_iter it ->
  reads st (Some t) it -> (ps_mode st = ARGUMENTS_ONLY \/ ~ looks_like_option (s_style cfg) t) -> K <= ps_calls st ->
  when (fun r st' => move cfg st r st') (process_argument cfg t (set_iter st it)).
Proof.
  intros t it st Sh W R Nl Kc. unfold process_argument. rewrite bind_gets.
  change (find_sibling_command cfg (set_iter st it) t) with (find_sibling_command cfg st t).
  destruct (find_sibling_command cfg st t) as [(d, k)|] eqn:Sb.
  - unfold reactivate. rewrite bind_modify. eapply when_mono; [apply command_item|]. cbv beta.
    intros r s (A & B). eapply mv_sibling; eassumption.
  - unfold bind at 1, m_next_argument. change (ps_counter (set_iter st it)) with (ps_counter st).
    destruct (next_argument (ps_counter st)) as ([a|], ac) eqn:N.
    + rewrite bind_modify.
      rewrite <- (bind_assoc (run_callback cfg (a_callback a) (arg_own_event a t) t)
                    (fun _ => run_callback cfg (argument_cb cfg a) (arg_global_event a t) t)
                    (fun _ => ret (mk_ir IC_ARGUMENT (ItArgument a) t))).
      eapply when_seq; [apply two_callbacks_exact; auto|]. cbv beta. intros _ s C.
      pose proof (cb2_frame _ _ _ _ _ _ _ _ C) as Fr.
      assert (Ia : In a (c_arguments (ps_command st))).
      { pose proof (next_from (ps_counter st)) as (_ & X). rewrite N in X. apply (sh_from _ _ _ Sh). apply X. reflexivity. }
      assert (Wi : within top (ps_command st)).
      { rewrite (sh_command _ _ _ Sh). eapply chain_within. apply (sh_chain _ _ _ Sh). }
      destruct (cb2_quiet _ _ _ _ _ _ _ _ C) as (Ei & Ec).
      { intros f x vs Ef. apply Hn; [eapply cb_argument_own; eassumption|cbn; lia]. }
      { intros f x vs Ef. apply Hn; [eapply cb_argument_global; eassumption|cbn; lia]. }
      eapply mv_argument; try eassumption; [reflexivity| |].
      * split; [apply (cf_command _ _ Fr)|apply (cf_parents _ _ Fr)].
      * apply (cf_mode _ _ Fr).
    + destruct (s_ignore_arguments cfg) eqn:Ig.
      * rewrite bind_modify. unfold bind at 1, m_current. destruct (it_current _); [|exact I].
        apply mv_ignored; [exact Ig|reflexivity|split; reflexivity|reflexivity].
      * apply error_code; [exact W|]. intros s9. apply mv_error. reflexivity.
Qed.

Lemma next_move_from : forall st r st', K <= ps_calls st -> shape cfg top st -> in_progress (ps_mode st) ->
  next cfg st = Ret r st' -> move cfg st r st'.
Proof.
  intros st r st' Kc Sh Pr E. pose proof (sh_wf _ _ _ Sh) as W.
  assert (Wi : within top (ps_command st)).
  { rewrite (sh_command _ _ _ Sh). eapply chain_within. apply (sh_chain _ _ _ Sh). }
  cut (when (fun r st' => move cfg st r st') (next cfg st)).
  { intros X. exact (when_ret _ _ _ _ X E). }
  clear r st' E. destruct (reads_some st W Pr) as (t & it & R).
  destruct (reads_wf _ _ _ W R) as (W' & _).
  rewrite (next_eq cfg _ _ _ R). destruct t as [t|].
  2:{ eapply when_seq; [apply check_counts_only; exact W'|]. cbv beta. intros [|] s Hs; simpl.
      - eapply mv_end; [exact R|reflexivity|]. subst s. reflexivity.
      - apply mv_error. reflexivity. }
  unfold process_token. rewrite bind_gets. change (ps_command (set_iter st it)) with (ps_command st).
  destruct ((match ps_mode st with ARGUMENTS_AND_OPTIONS => true | _ => false end) && is_option t (s_style cfg)) eqn:Io.
  - apply andb_true_iff in Io. destruct Io as (Io & Lo). apply is_option_iff in Lo.
    unfold reads in R. destruct (ps_mode st) eqn:M; try discriminate.
    apply option_move; assumption.
  - assert (No : ps_mode st = ARGUMENTS_ONLY \/ ~ looks_like_option (s_style cfg) t).
    { destruct Pr as [M|M]; rewrite M in Io; [|left; exact M]. right. rewrite <- is_option_iff. cbn [andb] in Io. congruence. }
    destruct (c_commands (ps_command st)) as [|d0 ds] eqn:Cm; cbn [is_empty].
    + apply argument_move; assumption.
    + destruct (find_command _ _ _) as [d|].
      * eapply when_mono; [apply command_item|]. cbv beta. intros r s (A & B). apply mv_command; [congruence|exact A].
      * apply error_code; [exact W'|]. intros s9. apply mv_error. reflexivity.
Qed.
End Moves.

Lemma quiet_always : forall cfg top, no_insertions cfg top -> quiet_from cfg top 0.
Proof. intros cfg top Hn f Hf m v vs _. apply Hn. exact Hf. Qed.

Lemma next_move : forall p q, finish_parser p = Val q -> no_insertions (d_settings q) (d_command q) ->
  forall st r st', shape (d_settings q) (d_command q) st -> in_progress (ps_mode st) ->
  next (d_settings q) st = Ret r st' -> move (d_settings q) st r st'.
Proof.
  intros p q H Hn st r st'. apply (next_move_from p q H 0 (quiet_always _ _ Hn)). lia.
Qed.

Lemma reached_running : forall p q args st n, finish_parser p = Val q ->
  reached (d_settings q) (d_command q) args st n -> in_progress (ps_mode st) ->
  running (d_settings q) (d_command q) n st.
Proof.
  intros p q args st n H R Pr. pose proof (finish_parser_prepared p q H) as P.
  destruct (reached_inv (d_settings q) (d_command q) P args st n R) as [X|X|X|o X]; [exact X|..]; exfalso;
    [pose proof (fa_mode _ _ _ X)|pose proof (su_mode _ _ _ _ X)|pose proof (sp_mode _ _ _ _ X)];
    destruct Pr; congruence.
Qed.

(** Callbacks are counted upwards. *)
Lemma calls_grow : forall p q args st n r st', finish_parser p = Val q ->
  reached (d_settings q) (d_command q) args st n -> in_progress (ps_mode st) ->
  next (d_settings q) st = Ret r st' -> ir_code r <> IC_ERROR -> in_progress (ps_mode st') ->
  ps_calls st <= ps_calls st'.
Proof.
  intros p q args st n r st' H R Pr E Ne Pr'.
  pose proof (finish_parser_prepared p q H) as P. pose proof (reached_running p q args st n H R Pr) as Ru.
  pose proof (next_post (d_settings q) (d_command q) P n st Ru Pr) as N1. rewrite E in N1. simpl in N1.
  assert (Nd : ps_mode st' <> ST_DONE) by (destruct Pr' as [X|X]; congruence).
  unfold next_done in N1. destruct (ir_code r); try contradiction;
    first [destruct N1 as [(_ & _ & (L & _))|[(X & _)|((o & X & _) & _)]]|destruct N1 as (X & _)];
    first [exact L|exfalso; apply Nd; first [apply (su_mode _ _ _ _ X)|apply (sp_mode _ _ _ _ X)]].
Qed.

(* ------------------------------------------------------------------------ *)
(** ** The counter of a command without arguments is complete *)

Definition in_range (ac : arg_counter) : Prop := ac_first_optional ac <= length (ac_counters ac).

Section Range.
Variable cfg : settings.

Definition keeps {A} (m : M A) : Prop :=
  forall st, in_range (ps_counter st) -> when (fun _ st' => in_range (ps_counter st')) (m st).

Lemma keeps_bind : forall {A B} (m : M A) (f : A -> M B), keeps m -> (forall a, keeps (f a)) -> keeps (bind m f).
Proof. intros A B m f Hm Hf st I. eapply when_seq; [apply Hm, I|]. cbv beta. intros a s X. apply Hf, X. Qed.
Lemma keeps_gets : forall {A} (g : pstate -> A), keeps (gets g).
Proof. intros A g st I. exact I. Qed.
Lemma keeps_ret : forall {A} (a : A), keeps (ret a).
Proof. intros A a st I. exact I. Qed.
Lemma keeps_modify : forall g, (forall st, ps_counter (g st) = ps_counter st) -> keeps (modify g).
Proof. intros g E st I. simpl. rewrite E. exact I. Qed.
Lemma keeps_counter : forall g, (forall st, in_range (ps_counter st) -> in_range (ps_counter (g st))) -> keeps (modify g).
Proof. intros g E st I. simpl. apply E, I. Qed.
Lemma keeps_throw : forall {A} e, keeps (@throw A e).
Proof. intros A e st X. exact I. Qed.
Lemma keeps_exit : forall {A} z, keeps (@exit_with A z).
Proof. intros A z st X. exact I. Qed.
Lemma keeps_emit : forall e, keeps (emit e).
Proof. intros e. apply keeps_modify. reflexivity. Qed.
Lemma keeps_next : keeps m_next.
Proof. intros st X. unfold m_next. destruct (it_next _) as [(r & it)|]; [exact X|exact I]. Qed.
Lemma keeps_next_value : keeps m_next_value.
Proof. intros st X. unfold m_next_value. destruct (it_next_value _) as [(r & it)|]; [exact X|exact I]. Qed.
Lemma keeps_current : keeps m_current.
Proof. intros st X. unfold m_current. destruct (it_current _); [exact X|exact I]. Qed.
Lemma keeps_remaining : keeps copy_remaining.
Proof. intros st X. unfold copy_remaining. destruct (it_remaining _) as [(r & it)|]; [exact X|exact I]. Qed.
Lemma keeps_resolve : forall k, keeps (resolve_key k).
Proof.
  intros k st X. unfold resolve_key. destruct k; repeat match goal with
  | |- when _ (match ?a with _ => _ end) => destruct a end; first [exact X|exact I].
Qed.
Lemma keeps_argument : keeps m_next_argument.
Proof.
  intros st X. unfold m_next_argument. pose proof (next_keeps_range (ps_counter st) X) as Y.
  destruct (next_argument _) as (a, ac). exact Y.
Qed.
Lemma keeps_undefined : forall {A}, @keeps A (fun _ => Undefined).
Proof. intros A st X. exact I. Qed.
Lemma keeps_reactivate : forall k, keeps (reactivate k).
Proof. intros k. apply keeps_counter. intros st X. destruct (pop_levels _ _ _). unfold in_range. simpl. lia. Qed.
Lemma range_plain : forall args, in_range (plain_counter args).
Proof. intros args. apply plain_in_range. Qed.
Lemma range_counted : forall args n k, in_range (counted_counter args n k).
Proof. intros args n k. apply consume_keeps_range. simpl. lia. Qed.
Lemma keeps_count : keeps (count_arguments cfg).
Proof. intros st X. unfold count_arguments. destruct (count_tokens _ _ _ _ _ _); [exact X|exact I..]. Qed.

Ltac kp := repeat match goal with
  | |- keeps (bind _ _) => apply keeps_bind; [|intros ?]
  | |- keeps (ret _) => apply keeps_ret
  | |- keeps (gets _) => apply keeps_gets
  | |- keeps (throw _) => apply keeps_throw
  | |- keeps (exit_with _) => apply keeps_exit
  | |- keeps (emit _) => apply keeps_emit
  | |- keeps m_next => apply keeps_next
  | |- keeps m_next_value => apply keeps_next_value
  | |- keeps m_current => apply keeps_current
  | |- keeps copy_remaining => apply keeps_remaining
  | |- keeps (resolve_key _) => apply keeps_resolve
  | |- keeps m_next_argument => apply keeps_argument
  | |- keeps (fun _ => Undefined) => apply keeps_undefined
  | |- keeps (reactivate _) => apply keeps_reactivate
  | |- keeps (count_arguments _) => apply keeps_count
  | |- keeps (modify _) => apply keeps_modify; reflexivity
  end.

Lemma keeps_start : keeps (start_counter cfg).
Proof.
  unfold start_counter. kp. destruct (negb _).
  - apply keeps_counter. intros st _. apply range_plain.
  - kp. apply keeps_counter. intros st _. apply range_counted.
Qed.
Lemma keeps_update : forall new, keeps (update_arguments cfg new).
Proof.
  intros new. unfold update_arguments. destruct (is_empty new); [kp|]. kp.
  - intros st X. destruct (it_insert _ _); [exact X|exact I].
  - destruct (negb _); kp. apply keeps_counter. intros st _. apply range_counted.
Qed.
Lemma keeps_error : forall m, keeps (error cfg m).
Proof. intros m. unfold error. kp. destruct (s_auto_exit cfg); kp. Qed.
Lemma keeps_op : forall op, keeps (run_value_op cfg op).
Proof. intros [k v|k v|k|msg|msg aid]; simpl; unfold user_error; kp; destruct (s_auto_exit cfg); kp. Qed.
Lemma keeps_ops : forall ops, keeps (run_value_ops cfg ops).
Proof. induction ops as [|op r IH]; simpl; kp; [apply keeps_op|exact IH]. Qed.
Lemma keeps_texts : forall ts, keeps (emit_texts ts).
Proof. induction ts as [|t r IH]; simpl; kp. exact IH. Qed.
Lemma keeps_callback : forall cb ev v, keeps (run_callback cfg cb ev v).
Proof.
  intros [f|] ev v; simpl; kp; [apply keeps_texts|apply keeps_ops| |apply keeps_update].
  destruct (eff_throws _); kp.
Qed.
Lemma keeps_mandatory : forall opts, keeps (has_all_mandatory cfg opts).
Proof.
  induction opts as [|o r IH]; cbn [has_all_mandatory]; kp. destruct (_ && _); [kp; apply keeps_error|exact IH].
Qed.
Lemma keeps_check : keeps (check_counts cfg).
Proof.
  unfold check_counts. kp; [apply keeps_mandatory|]. destruct (negb _); [kp|].
  destruct (c_require _); kp. destruct (_ && _); kp; [apply keeps_error|].
  destruct (is_complete _); kp. destruct (get_min_max_count _). kp. apply keeps_error.
Qed.
Lemma keeps_operation : forall o flag, keeps (apply_operation cfg o flag).
Proof.
  intros o flag. unfold apply_operation. destruct (o_operation o); kp; (destruct (negb _); kp);
    (match goal with |- keeps (match ?a with _ => _ end) => destruct a end; kp; apply keeps_error).
Qed.
Lemma keeps_type : forall o, keeps (apply_type o).
Proof. intros o. unfold apply_type. destruct (o_type o); kp. Qed.
Lemma keeps_known : forall o flag, keeps (process_known_option cfg o flag).
Proof.
  intros o flag. unfold process_known_option. kp; [apply keeps_operation|].
  match goal with |- keeps (match ?a with _ => _ end) => destruct a end; kp; [apply keeps_callback..|apply keeps_type].
Qed.
Lemma keeps_option : forall flag, keeps (process_option cfg flag).
Proof.
  intros flag. unfold process_option. kp. destruct (find_option _ _ _ _) as [o|].
  - kp; [apply keeps_known|]. match goal with |- keeps (let (_, _) := ?a in _) => destruct a as (r, arg) end.
    destruct r; kp.
    + apply keeps_check.
    + destruct (negb _); kp. match goal with |- keeps (match ?a with _ => _ end) => destruct a end; kp.
    + destruct (s_auto_exit cfg); kp.
  - destruct (negb _); kp; [apply keeps_error|]. destruct (negb _); kp. apply keeps_error.
Qed.
Lemma keeps_command : forall d, keeps (process_command cfg d).
Proof. intros d. unfold process_command. kp. apply keeps_start. Qed.
Lemma keeps_process_argument : forall v, keeps (process_argument cfg v).
Proof.
  intros v. unfold process_argument. kp. match goal with |- keeps (match ?a with _ => _ end) => destruct a as [(c, k)|] end.
  - kp. apply keeps_command.
  - kp. match goal with |- keeps (match ?a with _ => _ end) => destruct a end; kp; try apply keeps_callback.
    destruct (s_ignore_arguments cfg); kp. apply keeps_error.
Qed.
Lemma keeps_next_item : keeps (next cfg).
Proof.
  unfold next. kp. match goal with |- keeps (match ?a with _ => _ end) => destruct a end; kp;
  (match goal with |- keeps (match ?a with _ => _ end) => destruct a end; kp;
   [|apply keeps_check]); unfold process_token; kp;
  (destruct (_ && _); [apply keeps_option|]); (destruct (is_empty _); [apply keeps_process_argument|]);
  (destruct (find_command _ _ _); [apply keeps_command|kp; apply keeps_error]).
Qed.

Lemma reached_range : forall top args st n, reached cfg top args st n -> in_range (ps_counter st).
Proof.
  intros top args st n R. induction R as [st E|st n r st' R IH E].
  - pose proof (keeps_start (initial_state cfg top args)) as K. eapply (when_ret _ _ _ _ (K _) E).
    Unshelve. unfold in_range. simpl. lia.
  - exact (when_ret _ _ _ _ (keeps_next_item st IH) E).
Qed.
End Range.

Lemma empty_complete : forall ac, ac_counters ac = [] -> in_range ac -> is_complete ac = true.
Proof.
  intros ac E R. unfold in_range in R. rewrite E in R. simpl in R. unfold is_complete.
  replace (ac_first_optional ac) with 0 by lia. reflexivity.
Qed.

(* ------------------------------------------------------------------------ *)
(** ** A command that has just been entered *)

Definition entry (cfg : settings) (st : pstate) : Prop :=
  exists s0, start_counter cfg s0 = Ret tt (set_counter s0 (ps_counter st)) /\
    ps_command s0 = ps_command st /\ ps_parents s0 = ps_parents st /\ ps_iter s0 = ps_iter st /\
    ps_mode st = ARGUMENTS_AND_OPTIONS /\ (is_complete (ps_counter s0) = true \/ ps_parents s0 = []).

Lemma start_sets : forall cfg s0 s, start_counter cfg s0 = Ret tt s -> s = set_counter s0 (ps_counter s).
Proof.
  intros cfg s0 s E. unfold start_counter in E. rewrite bind_gets in E.
  destruct (negb _) in E; [injection E as <-; reflexivity|].
  unfold bind at 1, count_arguments in E. destruct (count_tokens _ _ _ _ _ _) in E; try discriminate.
  injection E as <-. reflexivity.
Qed.

Lemma when_any : forall {A B} (Q : B -> pstate -> Prop) (m : M A) (f : A -> M B) st,
  (forall a s, when Q (f a s)) -> when Q (bind m f st).
Proof.
  intros A B Q m f st Hf. unfold bind. destruct (m st); try exact I. apply Hf.
Qed.

Lemma enters : forall cfg d st, is_complete (ps_counter st) = true ->
  when (fun r st' => entry cfg st') (process_command cfg d st).
Proof.
  intros cfg d st C. unfold process_command. rewrite bind_modify. unfold bind at 1.
  match goal with |- when _ (match start_counter cfg ?s with _ => _ end) => set (s0 := s) end.
  destruct (start_counter cfg s0) as [[] s| | | |] eqn:E; try exact I.
  rewrite bind_modify. unfold bind, m_current. destruct (it_current _); [|exact I].
  pose proof (start_sets _ _ _ E) as Es. exists s0. rewrite Es in E. rewrite Es. cbn.
  split; [exact E|]. repeat (split; [reflexivity|]). left. exact C.
Qed.

Definition enters_if (cfg : settings) (r : iter_result) (st' : pstate) : Prop :=
  ir_code r = IC_COMMAND -> entry cfg st'.

Lemma option_no_command : forall cfg flag st, when (enters_if cfg) (process_option cfg flag st).
Proof.
  intros cfg flag st.
  assert (Rt : forall r s, ir_code r <> IC_COMMAND -> when (enters_if cfg) (ret r s)).
  { intros r s X Y. contradiction. }
  unfold process_option. apply when_any. intros c s.
  destruct (find_option _ _ _ _).
  - apply when_any. intros (r, v) s1. destruct r; repeat first
      [ apply Rt; discriminate | exact I
      | match goal with |- when _ (bind _ _ _) => apply when_any; intros ? ? end
      | match goal with |- when _ ((if ?b then _ else _) _) => destruct b end
      | match goal with |- when _ ((match ?b with _ => _ end) _) => destruct b end ].
  - destruct (negb _); repeat first
      [ apply Rt; discriminate | exact I
      | match goal with |- when _ (bind _ _ _) => apply when_any; intros ? ? end
      | match goal with |- when _ ((if ?b then _ else _) _) => destruct b end ].
Qed.

Section Entry.
Variables (p q : parser_data).
Hypothesis H : finish_parser p = Val q.
Let cfg := d_settings q.
Let top := d_command q.
Hypothesis Sd : sound top.

Lemma argument_enters : forall t st, when (enters_if cfg) (process_argument cfg t st).
Proof.
  intros t st.
  assert (Rt : forall r s, ir_code r <> IC_COMMAND -> when (enters_if cfg) (ret r s)).
  { intros r s X Y. contradiction. }
  unfold process_argument. rewrite bind_gets. destruct (find_sibling_command _ _ _) as [(d, k)|].
  - unfold reactivate. rewrite bind_modify. eapply when_mono; [apply enters|].
    + destruct (pop_levels _ _ _). reflexivity.
    + cbv beta. intros r s X _. exact X.
  - repeat first
      [ apply Rt; discriminate | exact I
      | match goal with |- when _ (bind _ _ _) => apply when_any; intros ? ? end
      | match goal with |- when _ ((if ?b then _ else _) _) => destruct b end
      | match goal with |- when _ ((match ?b with _ => _ end) _) => destruct b end ].
Qed.

Lemma next_enters : forall st r st', shape cfg top st -> in_range (ps_counter st) -> in_progress (ps_mode st) ->
  next cfg st = Ret r st' -> ir_code r = IC_COMMAND -> entry cfg st'.
Proof.
  intros st r st' Sh Rg Pr E. pose proof (sh_wf _ _ _ Sh) as W.
  assert (Wi : within top (ps_command st)).
  { rewrite (sh_command _ _ _ Sh). eapply chain_within. apply (sh_chain _ _ _ Sh). }
  cut (when (enters_if cfg) (next cfg st)).
  { intros X. exact (when_ret _ _ _ _ X E). }
  clear r st' E. destruct (reads_some st W Pr) as (t & it & R).
  rewrite (next_eq cfg _ _ _ R). destruct t as [t|].
  2:{ apply when_any. intros b s. destruct b; intros X; discriminate. }
  unfold process_token. rewrite bind_gets. change (ps_command (set_iter st it)) with (ps_command st).
  destruct (_ && _); [apply option_no_command|].
  destruct (c_commands (ps_command st)) as [|d0 ds] eqn:Cm; cbn [is_empty]; [apply argument_enters|].
  destruct (find_command _ _ _).
  - eapply when_mono; [apply enters|cbv beta; intros r s X _; exact X].
    apply empty_complete; [|exact Rg]. change (ps_counter (set_iter st it)) with (ps_counter st).
    pose proof (sh_from _ _ _ Sh) as Fr. destruct (Sd _ Wi) as (_ & _ & [A|A]); [|congruence].
    rewrite A in Fr. unfold counter_from in Fr. destruct (ac_counters (ps_counter st)) as [|x l]; [reflexivity|].
    destruct (Fr (snd x)). left. reflexivity.
  - apply when_any. intros a s X. discriminate.
Qed.

Lemma entered_entry : forall args st, entered cfg top args st ->
  entry cfg st /\ exists n, reached cfg top args st n.
Proof.
  intros args st [E|st0 n r R E C].
  - split; [|exists 0%N; constructor; exact E]. exists (initial_state cfg top args).
    pose proof (start_sets _ _ _ E) as Es. rewrite <- Es. split; [exact E|]. rewrite Es.
    repeat (split; [reflexivity|]). right. reflexivity.
  - split; [|eexists; econstructor; eassumption].
    pose proof (reached_shape p q H args st0 n R) as Sh.
    eapply (next_enters st0); try eassumption; [eapply reached_range; exact R|].
    destruct (ps_mode st0) eqn:M; [left; reflexivity|right; reflexivity|..];
      unfold next in E; rewrite bind_gets, M in E; first [discriminate E|injection E as <- <-; discriminate].
Qed.
End Entry.

(* ------------------------------------------------------------------------ *)
(** ** Counting ahead *)

Lemma counted_le : forall args n, proper args -> (maxima args < 2 ^ 64)%N -> (minima args <= n)%N ->
  (sum (map fst (make_counters_n args n)) <= n)%N.
Proof.
  intros args n P B L. destruct (N.le_gt_cases n (maxima args)) as [L2|L2].
  - assert (L3 : (n < 2 ^ 64)%N) by lia.
    destruct (distribution_proof args n P L3) as (_ & X & _). destruct (X (conj L L2)) as (_ & E & _). lia.
  - destruct (counted_sum args n P) as ((_ & X) & _). lia.
Qed.

Lemma next_then_value : forall it it', it_next it = Ok (None, it') -> exists it'', it_next_value it' = Ok (None, it'').
Proof.
  intros it it' E. assert (A : it_args it' = []).
  { unfold it_next in E. destruct (it_kind it).
    - assert (F : forall a, std_first a = Ok (None, it') -> it_args it' = []).
      { intros [|a l]; unfold std_first; [intros X; injection X as <-; reflexivity|].
        repeat (match goal with |- context [match ?x with _ => _ end] => destruct x end; try discriminate). }
      unfold std_next in E. destruct (pos_nonzero _); [|exact (F _ E)].
      destruct (it_args it) as [|a l]; [discriminate|]. destruct (it_pos it); [|exact (F _ E)].
      destruct (_ <? _); [|exact (F _ E)].
      destruct (nth_error a 1); [|discriminate]. destruct (nth_error a n); [|discriminate].
      destruct (negb _); [discriminate|exact (F _ E)].
    - assert (F : forall a, pre_first prefix a = Ok (None, it') -> it_args it' = []).
      { intros [|a l]; unfold pre_first; [intros X; injection X as <-; reflexivity|].
        repeat (match goal with |- context [match ?x with _ => _ end] => destruct x end; try discriminate). }
      unfold pre_next in E. destruct (pos_nonzero _); [|exact (F _ E)].
      destruct (it_args it) as [|a l]; [discriminate|]. exact (F _ E). }
  exists it'. unfold it_next_value, std_next_value, pre_next_value. rewrite A. destruct (it_kind it'); reflexivity.
Qed.

(** Whether another command begins depends only on the parents once the arguments
    are complete. *)
Lemma sibling_same : forall cfg s0 st t, ps_parents s0 = ps_parents st ->
  (is_complete (ps_counter s0) = true \/ multi_parent_loop (ps_parents s0) 1 = None) ->
  forall x, find_sibling_command cfg st t = Some x -> find_sibling_command cfg s0 t = Some x.
Proof.
  intros cfg s0 st t Ep C x E. unfold find_sibling_command in *.
  destruct (negb (is_complete (ps_counter st))); [discriminate|].
  unfold find_first_multi_command_parent in *. rewrite Ep in *.
  destruct C as [C|C]; [|rewrite C in E; discriminate]. rewrite C. cbn [negb].
  destruct (multi_parent_loop (ps_parents st) 1) as [k|] eqn:K; [|discriminate].
  assert (Hk : exists k', k = S k').
  { clear -K. revert K. generalize (ps_parents st) as l. intros l. 
    assert (G : forall l n k, multi_parent_loop l (S n) = Some k -> exists k', k = S k').
    { induction l0 as [|y l0 IH]; intros n k0; simpl; [discriminate|].
      destruct (c_multi _); [intros X; injection X as <-; eauto|apply IH]. }
    apply G. }
  destruct Hk as (k' & ->). simpl in *. rewrite Ep. exact E.
Qed.

Lemma sibling_name : forall cfg st c0 t d k, find_sibling_command cfg st t = Some (d, k) ->
  no_beginning cfg c0 (c_name d) -> no_beginning cfg c0 t.
Proof.
  intros cfg st c0 t d k E Nb. unfold find_sibling_command in E.
  destruct (negb _); [discriminate|]. destruct (find_first_multi_command_parent st); [|discriminate].
  destruct (parent_command st n); [|discriminate]. destruct (find_command c t _) as [d'|] eqn:F; [|discriminate].
  injection E as -> _. unfold find_command in F. apply find_some in F. destruct F as (_ & F).
  rewrite are_equal_norm in F. apply str_eqb_eq in F.
  destruct Nb as [Nb|[(N1 & N2)|Nb]]; [left; exact Nb| |right; right; exact Nb]. right. left.
  destruct (s_case_insensitive cfg); simpl in F; [|rewrite <- F; split; assumption]. split.
  - intros ->. apply N1. destruct (c_name d); [reflexivity|discriminate].
  - intros ->. apply N2. destruct (c_name d) as [|x [|y l]]; try discriminate. simpl in F. injection F as F.
    f_equal. apply lower_prefix. rewrite F. destruct (s_style cfg); reflexivity.
Qed.

(** What counting says from here on. *)
Definition ahead (cfg : settings) (s0 : pstate) (n : N) (j : nat) (st : pstate) : Prop :=
  let min := minima (c_arguments (ps_command s0)) in
  match ps_mode st with
  | ARGUMENTS_AND_OPTIONS => exists f, count_tokens cfg f s0 min (ps_iter st) (N.of_nat j) = CountOk n
  | _ => exists f, count_values cfg f s0 min (ps_iter st) (N.of_nat j) = CountOk n
  end.

Section Walk.
Variables (p q : parser_data).
Hypothesis H : finish_parser p = Val q.
Let cfg := d_settings q.
Let top := d_command q.
Variable K : nat.
Hypothesis Hn : quiet_from cfg top K.
Hypothesis Sd : sound top.
Hypothesis Ig : s_ignore_arguments cfg = false.
Variable s0 : pstate.
Let defs := c_arguments (ps_command s0).
Hypothesis Wi : within top (ps_command s0).
Hypothesis Cm : c_commands (ps_command s0) = [].
Hypothesis Done : is_complete (ps_counter s0) = true \/ multi_parent_loop (ps_parents s0) 1 = None.
Variable n : N.
Let ac0 := counted_counter defs n 0.

Record walking (j : nat) (st : pstate) : Prop := {
  wk_stays : stays s0 st;
  wk_mode : in_progress (ps_mode st);
  wk_counter : ps_counter st = snd (calls j ac0);
  wk_length : j <= length (left_over ac0);
  wk_ahead : ahead cfg s0 n j st
}.

Lemma total_length : N.of_nat (length (left_over ac0)) = sum (map fst (make_counters_n defs n)).
Proof. unfold ac0. rewrite counted_left. simpl. apply order_length. Qed.

Lemma no_flag : forall t, no_beginning cfg (ps_command s0) t -> ~ looks_like_option (s_style cfg) t ->
  find_option (ps_command s0) t (s_abbreviations cfg) (s_case_insensitive cfg) = None.
Proof.
  intros t Nb No. apply (nonoption_find _ (s_style cfg)); [| |exact No].
  - intros f o Hin. exact (finished_entry p q _ f o H Wi Hin).
  - destruct Nb as [Nb|[Nb|Nb]]; [left; exact Nb|right; left; exact Nb|right; right].
    rewrite (index_length p q _ H Wi). exact Nb.
Qed.

(** An argument is read while the counters still hold something. *)
Lemma read_on : forall j st t it a ac, walking j st -> reads st (Some t) it ->
  (ps_mode st = ARGUMENTS_ONLY \/ ~ looks_like_option (s_style cfg) t) -> no_beginning cfg (ps_command s0) t ->
  next_argument (ps_counter st) = (Some a, ac) ->
  forall st', stays st st' -> ps_mode st' = ps_mode st -> ps_iter st' = it -> ps_counter st' = ac ->
  walking (S j) st' /\ skipn j (left_over ac0) = a :: skipn (S j) (left_over ac0).
Proof.
  intros j st t it a ac [W1 W2 W3 W4 W5] R Nl Nb Na st' St Md It Ct.
  destruct (calls_spec j ac0) as (_ & Lo).
  pose proof (next_argument_spec (ps_counter st)) as Sp. rewrite W3 in Sp, Na. rewrite Lo, Na in Sp.
  destruct (skipn j (left_over ac0)) as [|a' r] eqn:Sk; [destruct Sp as (X & _); discriminate|].
  destruct Sp as (X & Lo2). cbn [fst snd] in X, Lo2. injection X as <-.
  assert (Lj : S j <= length (left_over ac0)).
  { pose proof (skipn_length j (left_over ac0)) as L. rewrite Sk in L. simpl in L. lia. }
  assert (Er : r = skipn (S j) (left_over ac0)).
  { clear -Sk. revert j Sk. induction (left_over ac0) as [|y l IH]; intros [|j] E; simpl in E; try discriminate.
    - injection E as _ E. exact (eq_sym E).
    - rewrite (IH j E). reflexivity. }
  split; [|rewrite Er; reflexivity]. split.
  - destruct W1, St. split; congruence.
  - rewrite Md. exact W2.
  - rewrite Ct. replace (S j) with (j + 1) by lia. rewrite <- calls_add. simpl. rewrite Na. reflexivity.
  - exact Lj.
  - destruct (Sd _ Wi) as (Pr & Mx & _).
    assert (Nstop : forall b, ((minima defs <=? N.of_nat j)%N && b = true) -> n <> N.of_nat j).
    { intros b X. apply andb_true_iff in X. destruct X as (X & _). apply N.leb_le in X. intros E.
      assert (X2 : (minima defs <= n)%N) by lia.
      pose proof (counted_le defs n Pr Mx X2) as Le. pose proof total_length. lia. }
    unfold ahead in *. rewrite Md, It. destruct (ps_mode st) eqn:M; try (destruct W2; discriminate).
    + destruct Nl as [Nl|Nl]; [discriminate|]. destruct W5 as (f & E). unfold reads in R. rewrite M in R.
      destruct f as [|f]; [discriminate|]. cbn [count_tokens] in E. rewrite R in E.
      rewrite (no_flag t Nb Nl) in E. rewrite <- is_option_iff in Nl.
      destruct (is_option t (s_style cfg)); [congruence|]. unfold find_command in E at 1. rewrite Cm in E. cbn [find] in E.
      destruct (_ && _) eqn:B in E.
      { exfalso. injection E as E. eapply Nstop; [exact B|]. congruence. }
      exists f. rewrite <- E. f_equal. lia.
    + destruct W5 as (f & E). unfold reads in R. rewrite M in R.
      destruct f as [|f]; [discriminate|]. cbn [count_values] in E. rewrite R in E.
      unfold find_command in E at 1. rewrite Cm in E. cbn [find] in E.
      destruct (_ && _) eqn:B in E.
      { exfalso. injection E as E. eapply Nstop; [exact B|]. congruence. }
      exists f. rewrite <- E. f_equal. lia.
Qed.

(** Another command begins: counting stopped there, too. *)
Lemma sibling_stops : forall j st t it d k, walking j st -> reads st (Some t) it ->
  (ps_mode st = ARGUMENTS_ONLY \/ ~ looks_like_option (s_style cfg) t) -> no_beginning cfg (ps_command s0) t ->
  find_sibling_command cfg st t = Some (d, k) -> N.of_nat j = n.
Proof.
  intros j st t it d k [W1 W2 W3 W4 W5] R Nl Nb Sb.
  destruct (Sd _ Wi) as (Pr & Mx & _).
  assert (Cp : is_complete (ps_counter st) = true).
  { unfold find_sibling_command in Sb. destruct (is_complete (ps_counter st)); [reflexivity|discriminate]. }
  rewrite W3 in Cp. pose proof total_length as Tl. apply counted_complete_proof in Cp; [|lia].
  destruct Cp as (Cp & _). destruct (counted_sum defs n Pr) as ((Mn & _) & _).
  assert (B : (minima defs <=? N.of_nat j)%N = true) by (apply N.leb_le; lia).
  assert (Ep : ps_parents s0 = ps_parents st) by (symmetry; apply W1).
  pose proof (sibling_same cfg s0 st t Ep Done _ Sb) as S0.
  unfold ahead in W5. fold defs in W5. destruct (ps_mode st) eqn:M; try (destruct W2; discriminate).
  - destruct Nl as [Nl|Nl]; [discriminate|]. destruct W5 as (f & E). unfold reads in R. rewrite M in R.
    destruct f as [|f]; [discriminate|]. cbn [count_tokens] in E. rewrite R in E.
    rewrite (no_flag t Nb Nl) in E. rewrite <- is_option_iff in Nl.
    destruct (is_option t (s_style cfg)); [congruence|]. unfold find_command in E at 1. rewrite Cm in E. cbn [find] in E.
    rewrite S0, B in E. cbn [andb] in E. congruence.
  - destruct W5 as (f & E). unfold reads in R. rewrite M in R.
    destruct f as [|f]; [discriminate|]. cbn [count_values] in E. rewrite R in E.
    unfold find_command in E at 1. rewrite Cm in E. cbn [find] in E.
    rewrite S0, B in E. cbn [andb] in E. congruence.
Qed.

(** No argument is left. *)
Lemma end_stops : forall j st it, walking j st -> reads st None it -> N.of_nat j = n.
Proof.
  intros j st it [W1 W2 W3 W4 W5] R. unfold ahead in W5. unfold reads in R.
  destruct (ps_mode st) eqn:M; try contradiction; destruct W5 as (f & E);
    (destruct f as [|f]; [discriminate|]).
  - cbn [count_tokens] in E. rewrite R in E. destruct (next_then_value _ _ R) as (it2 & V).
    unfold iter_fuel in E. cbn [count_values] in E. rewrite V in E. congruence.
  - cbn [count_values] in E. rewrite R in E. congruence.
Qed.

(** The value of an option is skipped by counting. *)
Lemma option_skipped : forall o it v it', within top (ps_command s0) -> In o (c_options (ps_command s0)) ->
  (o_argument o <> [] -> takes_value o) -> reads_value o it v it' ->
  (if negb (is_empty (o_argument o))
   then match it_next_value it with Ok (_, i) => Ok i | Bad => Bad end else Ok it) = Ok it'.
Proof.
  intros o it v it' W Io Fs [(T & E)|(T & _ & ->)].
  - destruct (finished_option p q _ o H W Io) as (_ & X). specialize (X T).
    destruct (o_argument o); [congruence|]. cbn [is_empty negb]. rewrite E. reflexivity.
  - destruct (o_argument o); [reflexivity|]. exfalso. apply T, Fs. discriminate.
Qed.

Lemma walk_on_from : forall st rs st', proceeds cfg st rs st' -> forall args m j, reached cfg top args st m ->
  K <= ps_calls st -> walking j st -> Forall (foreseeable cfg (ps_command s0)) rs ->
  walking (j + length (received rs)) st' /\ K <= ps_calls st' /\ (exists m', reached cfg top args st' m') /\
  received rs = firstn (length (received rs)) (skipn j (left_over ac0)).
Proof.
  assert (Sh : forall args m st, reached cfg top args st m -> shape cfg top st).
  { intros args m st R. exact (reached_shape p q H args st m R). }
  assert (Same : forall j st, walking j st -> ps_command st = ps_command s0).
  { intros j st W. apply (wk_stays _ _ W). }
  intros st rs st2 Rs. induction Rs as [st|st r st' rs st2 E Ne La Rs IH]; intros args m j Rc Kc W Fs.
  { simpl. rewrite Nat.add_0_r. split; [exact W|]. split; [exact Kc|]. split; [eauto|reflexivity]. }
  inversion_clear Fs as [|r' rs' F Fr].
  assert (Kc' : in_progress (ps_mode st') -> K <= ps_calls st').
  { intros Pr'. pose proof (calls_grow p q args st m r st' H Rc (wk_mode _ _ W) E Ne Pr'). lia. }
  pose proof (next_move_from p q H K Hn st r st' Kc (Sh _ _ _ Rc) (wk_mode _ _ W) E) as Mv; fold cfg in Mv.
  destruct Mv as [t it a ac R Nl -> Sb Na St Md It Ct|t it o v it' M R Fo Io Rv -> Tp St It Ct
      |t it M R Lk Fo Cd Im St Md It Ct|it R Cd Md|t it o v it' M R Fo Io Rv -> Tp|t it d k R Nl Sb Cd Im|Cs Cd|Cd|I1 Cd St Md].
  + unfold foreseeable in F. simpl in F.
    destruct (read_on j st t it a ac W R Nl F Na st' St Md It Ct) as (W' & Sk).
    destruct (IH args _ (S j) (reached_next _ _ _ _ _ _ _ Rc E) (Kc' (wk_mode _ _ W')) W' Fr) as (I1 & Ik & I2 & I3).
    unfold received in *. simpl. split; [|split; [exact Ik|split; [exact I2|]]].
    * rewrite Nat.add_succ_r. exact I1.
    * rewrite Sk. cbn [firstn]. f_equal. exact I3.
  + unfold foreseeable in F. simpl in F. destruct F as (F1 & F2). unfold received in *. simpl.
    assert (W' : walking j st'); [|exact (IH args _ j (reached_next _ _ _ _ _ _ _ Rc E) (Kc' (wk_mode _ _ W')) W' Fr)].
    destruct W as [W1 W2 W3 W4 W5]. split.
    * destruct W1, St. split; congruence.
    * destruct Tp as [(_ & ->)|(_ & ->)]; [left|right]; reflexivity.
    * congruence.
    * exact W4.
    * unfold ahead in *. rewrite M in W5. destruct W5 as (f & A).
      destruct f as [|f]; [discriminate|]. cbn [count_tokens] in A. rewrite R in A.
      assert (Ec : ps_command st = ps_command s0) by apply W1.
      rewrite Ec in Fo, Io. rewrite Fo in A. rewrite (option_skipped o it v it' Wi Io F2 Rv) in A.
      rewrite It. destruct Tp as [(T & ->)|(T & ->)]; rewrite T in A; eauto.
  + unfold received in *. simpl. rewrite Cd. simpl.
    assert (W' : walking j st'); [|exact (IH args _ j (reached_next _ _ _ _ _ _ _ Rc E) (Kc' (wk_mode _ _ W')) W' Fr)].
    destruct W as [W1 W2 W3 W4 W5]. split.
    * destruct W1, St. split; congruence.
    * rewrite Md. exact W2.
    * congruence.
    * exact W4.
    * unfold ahead in *. rewrite Md, M, It. rewrite M in W5. destruct W5 as (f & A).
      destruct f as [|f]; [discriminate|]. cbn [count_tokens] in A. rewrite R in A.
      assert (Ec : ps_command st = ps_command s0) by apply W1.
      rewrite Ec in Fo. rewrite Fo in A. apply is_option_iff in Lk. rewrite Lk in A. eauto.
  + exfalso. apply La. left. exact Md.
  + exfalso. apply La. destruct Tp as [T|(_ & T)]; [right; right; exists o; split; [reflexivity|exact T]|left; exact T].
  + exfalso. apply La. right. left. exact Cd.
  + rewrite (Same _ _ W) in Cs. contradiction.
  + contradiction.
  + congruence.
Qed.

Lemma walk_from : forall st rs, rest_of_command cfg st rs -> forall args m j, reached cfg top args st m ->
  K <= ps_calls st -> walking j st -> Forall (foreseeable cfg (ps_command s0)) rs ->
  received rs = firstn (length (received rs)) (skipn j (left_over ac0)) /\
  N.of_nat (j + length (received rs)) = n.
Proof.
  intros st rs Rs args m j Rc Kc W Fs.
  assert (Rs2 : exists front r st1 st2, rs = front ++ [r] /\ proceeds cfg st front st1 /\
    next cfg st1 = Ret r st2 /\ ir_code r <> IC_ERROR /\ last_item r st2).
  { clear -Rs. induction Rs as [st r st' E Ne La|st r st' rs E Ne La Rs IH].
    - exists [], r, st, st'. split; [reflexivity|]. split; [constructor|]. auto.
    - destruct IH as (front & r1 & s1 & s2 & -> & P & X). exists (r :: front), r1, s1, s2.
      split; [reflexivity|]. split; [econstructor; eassumption|exact X]. }
  clear Rs. destruct Rs2 as (front & r & s1 & s2 & -> & Pc & E & Ne & La).
  apply Forall_app in Fs. destruct Fs as (Ff & F). inversion_clear F as [|r' rs' F' _].
  destruct (walk_on_from _ _ _ Pc args m j Rc Kc W Ff) as (W' & Kc' & (m' & Rc') & R1). clear W.
  set (j1 := j + length (received front)) in *.
  assert (Er : received [r] = [] /\ N.of_nat j1 = n).
  { pose proof (reached_shape p q H args s1 m' Rc') as Sh.
    pose proof (next_move_from p q H K Hn s1 r s2 Kc' Sh (wk_mode _ _ W') E) as Mv; fold cfg in Mv.
    assert (Same : ps_command s1 = ps_command s0) by apply (wk_stays _ _ W').
    destruct Mv as [t it a ac R Nl -> Sb Na St Md It Ct|t it o v it' M R Fo Io Rv -> Tp St It Ct
      |t it M R Lk Fo Cd Im St Md It Ct|it R Cd Md|t it o v it' M R Fo Io Rv -> Tp|t it d k R Nl Sb Cd Im|Cs Cd|Cd|I1 Cd St Md].
    + exfalso. destruct La as [La|[La|(o & La & _)]]; try discriminate.
      destruct (wk_mode _ _ W'); congruence.
    + exfalso. destruct La as [La|[La|(o' & La & T)]]; try discriminate.
      * destruct Tp as [(_ & Tp)|(_ & Tp)]; congruence.
      * injection La as <-. destruct Tp as [(Tp & _)|(Tp & _)]; congruence.
    + exfalso. destruct La as [La|[La|(o' & La & T)]]; congruence.
    + unfold received. simpl. rewrite Cd. simpl. split; [reflexivity|]. exact (end_stops _ _ _ W' R).
    + unfold received. simpl. split; [reflexivity|].
      unfold foreseeable in F'. simpl in F'. destruct F' as (F1 & F2).
      pose proof (wk_ahead _ _ W') as A. unfold ahead in A. rewrite M in A. destruct A as (f & A).
      destruct f as [|f]; [discriminate|]. cbn [count_tokens] in A. rewrite R in A.
      rewrite Same in Fo, Io. rewrite Fo in A. rewrite (option_skipped o it v it' Wi Io F2 Rv) in A.
      destruct Tp as [T|([T|[T|T]] & _)]; rewrite T in A; congruence.
    + unfold received. simpl. rewrite Cd. simpl. split; [reflexivity|].
      unfold foreseeable in F'. rewrite Im in F'. eapply sibling_stops; try eassumption. eapply sibling_name; eassumption.
    + rewrite Same in Cs. contradiction.
    + contradiction.
    + congruence. }
  destruct Er as (Er & En).
  assert (Ea : received (front ++ [r]) = received front).
  { change (received (front ++ [r])) with (flat_map (fun r => match ir_code r, ir_item r with
                     | IC_ARGUMENT, ItArgument a => [a] | _, _ => [] end) (front ++ [r])).
    rewrite flat_map_app. fold (received front). fold (received [r]). rewrite Er. apply app_nil_r. }
  rewrite Ea. split; [exact R1|exact En].
Qed.
End Walk.

Lemma walk_on : forall p q, finish_parser p = Val q -> no_insertions (d_settings q) (d_command q) ->
  sound (d_command q) -> s_ignore_arguments (d_settings q) = false ->
  forall s0, within (d_command q) (ps_command s0) -> c_commands (ps_command s0) = [] ->
  forall n st rs st', proceeds (d_settings q) st rs st' ->
  forall args m j, reached (d_settings q) (d_command q) args st m ->
  walking q s0 n j st -> Forall (foreseeable (d_settings q) (ps_command s0)) rs ->
  walking q s0 n (j + length (received rs)) st' /\ (exists m', reached (d_settings q) (d_command q) args st' m') /\
  received rs = firstn (length (received rs)) (skipn j (left_over (counted_counter (c_arguments (ps_command s0)) n 0))).
Proof.
  intros p q H Hn Sd Ig s0 Wi Cm n st rs st' Pc args m j Rc W Fs.
  destruct (walk_on_from p q H 0 (quiet_always _ _ Hn) Sd Ig s0 Wi Cm n st rs st' Pc args m j Rc (Nat.le_0_l _) W Fs)
    as (A & _ & B). split; [exact A|exact B].
Qed.

(* ------------------------------------------------------------------------ *)
(** ** Without counting *)

Lemma argument_step : forall ac a ac', next_argument ac = (Some a, ac') -> left_over ac = a :: left_over ac'.
Proof.
  intros ac a ac' E. pose proof (next_argument_spec ac) as Sp. rewrite E in Sp. cbn [fst snd] in Sp.
  destruct (left_over ac) as [|x r]; destruct Sp as (X & Y); [discriminate|]. injection X as <-. rewrite Y. reflexivity.
Qed.

Section Plain.
Variables (p q : parser_data).
Hypothesis H : finish_parser p = Val q.
Let cfg := d_settings q.
Let top := d_command q.
Variable K : nat.
Hypothesis Hn : quiet_from cfg top K.
Hypothesis Ig : s_ignore_arguments cfg = false.

Lemma plain_walk_from : forall st rs, rest_of_command cfg st rs -> forall args m, reached cfg top args st m ->
  K <= ps_calls st -> in_progress (ps_mode st) -> exists r, left_over (ps_counter st) = received rs ++ r.
Proof.
  assert (Sh : forall args m st, reached cfg top args st m -> shape cfg top st).
  { intros args m st R. exact (reached_shape p q H args st m R). }
  intros st rs Rs. induction Rs as [st r st' E Ne La|st r st' rs E Ne La Rs IH]; intros args m Rc Kc W;
    pose proof (calls_grow p q args st m r st' H Rc W E Ne) as Kc';
    pose proof (next_move_from p q H K Hn st r st' Kc (Sh _ _ _ Rc) W E) as Mv; fold cfg in Mv.
  - assert (X : received [r] = []); [|rewrite X; eexists; reflexivity].
    destruct Mv as [t it a ac R Nl -> Sb Na St Md It Ct|t it o v it' M R Fo Io Rv -> Tp St It Ct
      |t it M R Lk Fo Cd Im St Md It Ct|it R Cd Md|t it o v it' M R Fo Io Rv -> Tp|t it d k R Nl Sb Cd Im|Cs Cd|Cd|I1 Cd St Md];
      try (unfold received; simpl; rewrite ?Cd; reflexivity).
    exfalso. destruct La as [La|[La|(o & La & _)]]; try discriminate. destruct W; congruence.
  - destruct Mv as [t it a ac R Nl -> Sb Na St Md It Ct|t it o v it' M R Fo Io Rv -> Tp St It Ct
      |t it M R Lk Fo Cd Im St Md It Ct|it R Cd Md|t it o v it' M R Fo Io Rv -> Tp|t it d k R Nl Sb Cd Im|Cs Cd|Cd|I1 Cd St Md].
    + destruct (IH args _ (reached_next _ _ _ _ _ _ _ Rc E)) as (x & Ex);
        [rewrite Md in Kc'; specialize (Kc' W); lia|rewrite Md; exact W|].
      exists x. rewrite (argument_step _ _ _ Na), <- Ct, Ex. reflexivity.
    + assert (Pr' : in_progress (ps_mode st')) by (destruct Tp as [(_ & ->)|(_ & ->)]; [left|right]; reflexivity).
      rewrite <- Ct. apply (IH args _ (reached_next _ _ _ _ _ _ _ Rc E)); [specialize (Kc' Pr'); lia|exact Pr'].
    + rewrite Md in Kc'. specialize (Kc' W).
      rewrite <- Ct. unfold received. simpl. rewrite Cd. apply (IH args _ (reached_next _ _ _ _ _ _ _ Rc E)); [lia|].
      rewrite Md. exact W.
    + exfalso. apply La. left. exact Md.
    + exfalso. apply La. destruct Tp as [T|(_ & T)]; [right; right; exists o; split; [reflexivity|exact T]|left; exact T].
    + exfalso. apply La. right. left. exact Cd.
    + exfalso. apply La. right. left. exact Cd.
    + contradiction.
    + congruence.
Qed.
End Plain.

Lemma order_app : forall a b, order (a ++ b) = order a ++ order b.
Proof. intros a b. unfold order. apply flat_map_app. Qed.

Lemma firstn_repeat : forall {A} (x : A) n m, n <= m -> firstn n (repeat x m) = repeat x n.
Proof.
  intros A x. induction n as [|n IH]; intros [|m] L; simpl; [reflexivity..|lia|]. rewrite IH by lia. reflexivity.
Qed.

Lemma pairs_length : forall f args, N.of_nat (length (order (map (fun a : arg_data => (f a, a)) args))) = sum (map f args).
Proof. intros f args. rewrite order_length, map_map. reflexivity. Qed.

Lemma combine_map : forall (f : arg_data -> N) args, combine (map f args) args = map (fun a => (f a, a)) args.
Proof. intros f args. induction args as [|a r IH]; simpl; [reflexivity|]. rewrite IH. reflexivity. Qed.

Lemma sum_app : forall a b, sum (a ++ b) = (sum a + sum b)%N.
Proof. induction a as [|x a IH]; intros b; simpl; [reflexivity|]. rewrite IH. lia. Qed.

Lemma front_same : forall front : list arg_data, (forall a, In a front -> a_min a = a_max a) ->
  map (fun a => (a_max a, a)) front = map (fun a => (a_min a, a)) front.
Proof. intros front Hf. apply map_ext_in. intros a Ha. rewrite (Hf a Ha). reflexivity. Qed.

Lemma list_eq_dec_nil : forall {A} (l : list A), l = [] \/ exists front final, l = front ++ [final].
Proof. intros A l. destruct l as [|x l]; [left; reflexivity|right]. destruct (exists_last (l := x :: l)) as (f & y & E); [discriminate|eauto]. Qed.

Lemma combine_app' : forall {A B} (a : list A) (b : list B) a' b', length a = length b ->
  combine (a ++ a') (b ++ b') = combine a b ++ combine a' b'.
Proof.
  induction a as [|x a IH]; intros [|y b] a' b' L; simpl in *; try discriminate; [reflexivity|].
  rewrite IH by lia. reflexivity.
Qed.

Lemma pairs_split : forall l : list (N * arg_data), combine (map fst l) (map snd l) = l.
Proof. induction l as [|(x, y) l IH]; simpl; [reflexivity|]. rewrite IH. reflexivity. Qed.

Lemma plain_distributed : forall args got r, proper args -> predictable args ->
  order (map (fun a => (a_max a, a)) args) = got ++ r -> distributed args got.
Proof.
  intros args got r P Pd E. unfold distributed.
  destruct (list_eq_dec_nil args) as [->|(front & final & ->)].
  { simpl in E. symmetry in E. apply app_eq_nil in E. destruct E as (-> & ->). split.
    - intros _. exists []. split; [|reflexivity]. repeat split; intros; destruct i; discriminate.
    - intros L. unfold minima in L. simpl in L. lia. }
  assert (Ff : forall a, In a front -> a_min a = a_max a) by (intros a Ha; apply (Pd front final eq_refl a Ha)).
  assert (Pf : (a_min final <= a_max final)%N) by (apply P; apply in_or_app; right; left; reflexivity).
  assert (Eg : got = firstn (length got) (order (map (fun a => (a_min a, a)) front) ++ repeat final (N.to_nat (a_max final)))).
  { rewrite map_app, order_app in E. rewrite (front_same front Ff) in E.
    cbn in E. rewrite app_nil_r in E. rewrite E. rewrite firstn_app, firstn_all, Nat.sub_diag. simpl.
    rewrite app_nil_r. reflexivity. }
  pose proof (pairs_length a_min front) as Lf.
  assert (Em : minima (front ++ [final]) = (sum (map a_min front) + a_min final)%N).
  { unfold minima. rewrite map_app, sum_app. simpl. lia. }
  assert (Ll : (N.of_nat (length got) <= sum (map a_min front) + a_max final)%N).
  { rewrite Eg. rewrite firstn_length, app_length, repeat_length. lia. }
  rewrite firstn_app in Eg. split.
  - intros L. rewrite Em in L.
    exists (map a_min front ++ [(N.of_nat (length got) - sum (map a_min front))%N]).
    set (k := (N.of_nat (length got) - sum (map a_min front))%N). split.
    + split; [rewrite !app_length, map_length; reflexivity|]. split; [rewrite sum_app; simpl; unfold k; lia|].
      assert (Lm : length (map a_min front) = length front) by apply map_length.
      split.
      * intros i a m Ha Hm. destruct (Nat.lt_ge_cases i (length front)) as [Li|Li].
        { rewrite nth_error_app1 in Ha by exact Li. rewrite nth_error_app1 in Hm by lia.
          rewrite (map_nth_error a_min i front Ha) in Hm. injection Hm as <-.
          rewrite <- (Ff a (nth_error_In _ _ Ha)). lia. }
        rewrite nth_error_app2 in Ha by exact Li. rewrite nth_error_app2 in Hm by lia.
        rewrite Lm in Hm. destruct (i - length front) as [|i']; [|destruct i'; discriminate].
        injection Ha as <-. injection Hm as <-. unfold k. lia.
      * intros i j a b m m' Lij Ha Hm Hb Hm' _.
        assert (Li : i < length front).
        { assert (X : j < length (front ++ [final])) by (apply nth_error_Some; congruence).
          rewrite app_length in X. simpl in X. lia. }
        rewrite nth_error_app1 in Ha by exact Li. rewrite nth_error_app1 in Hm by lia.
        rewrite (map_nth_error a_min i front Ha) in Hm. injection Hm as <-.
        apply Ff. exact (nth_error_In _ _ Ha).
    + rewrite Eg at 1. rewrite combine_app' by (rewrite map_length; reflexivity). rewrite order_app, combine_map.
      rewrite firstn_all2 by lia. f_equal. cbn. rewrite app_nil_r. rewrite firstn_repeat by lia. f_equal. unfold k. lia.
  - intros L. rewrite Em in L. rewrite map_app, order_app. cbn. rewrite app_nil_r, firstn_app.
    rewrite Eg at 1. f_equal. rewrite !firstn_repeat by lia. reflexivity.
Qed.

Lemma counted_distributed : forall defs n got, proper defs -> (maxima defs < 2 ^ 64)%N ->
  got = firstn (length got) (order (make_counters_n defs n)) -> N.of_nat (length got) = n ->
  distributed defs got.
Proof.
  intros defs n got Pr Mx R1 R2. unfold distributed. rewrite R2.
  destruct (N.lt_ge_cases n (minima defs)) as [L|L].
  - split; [lia|]. intros _. rewrite R1 at 1. f_equal. f_equal.
    destruct (N.lt_ge_cases (maxima defs) n) as [L2|L2];
      [pose proof (minima_le_maxima _ (fun x Hx => proj1 (Pr x Hx))); lia|].
    assert (L3 : (n < 2 ^ 64)%N) by lia.
    destruct (distribution_proof _ n Pr L3) as (Sn & _ & X & _). specialize (X L).
    rewrite <- combine_map. rewrite <- X.
    rewrite <- (pairs_split (make_counters_n defs n)) at 1. rewrite Sn. reflexivity.
  - split; [intros _|lia]. pose proof (counted_le _ n Pr Mx L) as Le.
    assert (Lo : got = order (make_counters_n defs n) /\ (n <= maxima defs)%N).
    { pose proof (order_length (make_counters_n defs n)) as Ol.
      pose proof (f_equal (@length arg_data) R1) as Lr. rewrite firstn_length in Lr.
      destruct (counted_sum defs n Pr) as ((_ & X) & _).
      split; [|lia]. rewrite R1. apply firstn_all2. lia. }
    destruct Lo as (Lo & L2). assert (L3 : (n < 2 ^ 64)%N) by lia.
    destruct (distribution_proof _ n Pr L3) as (Sn & X & _). specialize (X (conj L L2)).
    eexists. split; [exact X|]. rewrite Lo. f_equal.
    rewrite <- (pairs_split (make_counters_n defs n)) at 1. rewrite Sn. reflexivity.
Qed.

Lemma look_ahead_proof : forall p q args st rs, finish_parser p = Val q -> sound (d_command q) ->
  no_insertions (d_settings q) (d_command q) -> s_ignore_arguments (d_settings q) = false ->
  entered (d_settings q) (d_command q) args st -> rest_of_command (d_settings q) st rs ->
  Forall (foreseeable (d_settings q) (ps_command st)) rs ->
  distributed (c_arguments (ps_command st)) (received rs).
Proof.
  intros p q args st rs H Sd Hn Ig En Rs Fs.
  destruct (entered_entry p q H Sd args st En) as ((s0 & E & Ec & Ep & Ei & Md & Cp) & m & Rc).
  pose proof (reached_shape p q H args st m Rc) as Sh.
  assert (Wi : within (d_command q) (ps_command st)).
  { rewrite (sh_command _ _ _ Sh). eapply chain_within. apply (sh_chain _ _ _ Sh). }
  destruct (Sd _ Wi) as (Pr & Mx & Ac).
  assert (Pg : in_progress (ps_mode st)) by (left; exact Md).
  assert (Cp' : is_complete (ps_counter s0) = true \/ multi_parent_loop (ps_parents s0) 1 = None).
  { destruct Cp as [Cp|Cp]; [left; exact Cp|right; rewrite Cp; reflexivity]. }
  unfold start_counter in E. rewrite bind_gets, Ec in E.
  destruct (requires_argument_count (c_arguments (ps_command st))) eqn:Rq; cbn [negb] in E.
  - assert (Cm : c_commands (ps_command st) = []).
    { destruct Ac as [Ac|Ac]; [|exact Ac]. rewrite Ac in Rq. discriminate. }
    unfold bind at 1, count_arguments in E. rewrite Ec, min_max_proof in E. cbn [fst] in E.
    destruct (count_tokens _ _ _ _ _ _) as [n| |] eqn:Ct in E; try discriminate.
    unfold modify in E. injection E as E.
    rewrite <- Ec in *.
    destruct (walk_from p q H 0 (quiet_always _ _ Hn) Sd Ig s0 Wi Cm Cp' n st rs Rs args m 0 Rc (Nat.le_0_l _)) as (R1 & R2); [|exact Fs|].
    { split.
      - split; congruence.
      - exact Pg.
      - symmetry. exact E.
      - lia.
      - unfold ahead. rewrite Md, <- Ei. exists (iter_fuel (ps_iter s0)). exact Ct. }
    rewrite counted_left in R1. simpl in R1, R2. exact (counted_distributed _ n _ Pr Mx R1 R2).
  - injection E as E.
    destruct (plain_walk_from p q H 0 (quiet_always _ _ Hn) Ig st rs Rs args m Rc (Nat.le_0_l _) Pg) as (r & Er).
    rewrite <- E in Er. apply (plain_distributed _ _ r Pr).
    + apply requires_count_false. exact Rq.
    + rewrite <- Er. unfold left_over, plain_counter. simpl. symmetry. apply make_counters_order.
      intros a Ha. apply Pr in Ha. lia.
Qed.

(* ------------------------------------------------------------------------ *)
(** ** For examples *)

Definition ends_command (r : iter_result) (st' : pstate) : bool :=
  match ps_mode st', ir_code r, ir_item r with
  | ST_DONE, _, _ | _, IC_COMMAND, _ => true
  | _, _, ItOption o => match o_type o with OT_LAST_ARGUMENT => true | _ => false end
  | _, _, _ => false
  end.

Fixpoint items (cfg : settings) (fuel : nat) (st : pstate) : option (list iter_result) :=
  match fuel with
  | O => None
  | S fuel' =>
      match next cfg st with
      | Ret r st' =>
          match ir_code r with
          | IC_ERROR => None
          | _ => if ends_command r st' then Some [r] else option_map (cons r) (items cfg fuel' st')
          end
      | _ => None
      end
  end.

Lemma ends_sound : forall r st', ends_command r st' = true <-> last_item r st'.
Proof.
  intros r st'. unfold ends_command, last_item. split.
  - intros E. destruct (ps_mode st') eqn:M; try (left; reflexivity);
      (destruct (ir_code r) eqn:C; try (right; left; reflexivity));
      (destruct (ir_item r) eqn:I; try discriminate; destruct (o_type _) eqn:T; try discriminate; right; right; eauto).
  - intros [->|[->|(o & -> & ->)]]; [reflexivity|destruct (ps_mode st'); reflexivity|].
    destruct (ps_mode st'), (ir_code r); reflexivity.
Qed.

Lemma items_sound : forall cfg fuel st rs, items cfg fuel st = Some rs -> rest_of_command cfg st rs.
Proof.
  intros cfg. induction fuel as [|fuel IH]; intros st rs E; simpl in E; [discriminate|].
  destruct (next cfg st) as [r st'| | | |] eqn:Nx; try discriminate.
  assert (C : ir_code r <> IC_ERROR) by (intros X; rewrite X in E; discriminate).
  assert (E' : (if ends_command r st' then Some [r] else option_map (cons r) (items cfg fuel st')) = Some rs).
  { destruct (ir_code r); try exact E; congruence. }
  clear E. destruct (ends_command r st') eqn:La.
  - injection E' as <-. eapply rest_last; [exact Nx|exact C|]. apply ends_sound. exact La.
  - destruct (items cfg fuel st') as [rs'|] eqn:I; [|discriminate]. injection E' as <-.
    eapply rest_more; [exact Nx|exact C| |apply IH; exact I]. intros X. apply ends_sound in X. congruence.
Qed.

Fixpoint sound_check (fuel : nat) (c : cmd_data) : bool :=
  match fuel with
  | O => false
  | S n => forallb (fun a => (a_min a <=? a_max a)%N && (1 <=? a_max a)%N) (c_arguments c) &&
           (maxima (c_arguments c) <? 2 ^ 64)%N && (is_empty (c_arguments c) || is_empty (c_commands c)) &&
           forallb (sound_check n) (c_commands c)
  end.

Lemma sound_check_within : forall top c, within top c -> forall n, sound_check n top = true ->
  exists m, sound_check m c = true.
Proof.
  intros top c W. induction W as [|c d W IH I]; intros n E; [eauto|].
  destruct (IH n E) as ([|m] & Em); [discriminate|]. simpl in Em.
  apply andb_prop in Em. destruct Em as (_ & Em). rewrite forallb_forall in Em. eauto.
Qed.

Lemma sound_check_sound : forall n top, sound_check n top = true -> sound top.
Proof.
  intros n top E c W. destruct (sound_check_within top c W n E) as ([|m] & Em); [discriminate|]. simpl in Em.
  repeat (apply andb_prop in Em; let X := fresh "X" in destruct Em as (Em & X)).
  rewrite forallb_forall in Em. split; [|split].
  - intros a Ia. specialize (Em a Ia). apply andb_prop in Em. destruct Em as (A & B).
    apply N.leb_le in A, B. split; assumption.
  - apply N.ltb_lt. assumption.
  - destruct (c_arguments c); [left; reflexivity|]. destruct (c_commands c); [right; reflexivity|discriminate].
Qed.

Lemma not_distributed : forall args got, proper args -> (N.of_nat (length got) < 2 ^ 64)%N ->
  (minima args <= N.of_nat (length got) <= maxima args)%N ->
  got <> order (make_counters_n args (N.of_nat (length got))) -> ~ distributed args got.
Proof.
  intros args got P B L No (D & _). destruct (D (proj1 L)) as (ks & F & E).
  destruct (distribution_proof args _ P B) as (Sn & X & _). specialize (X L).
  pose proof (fair_unique_proof _ _ _ _ F X) as U. apply No. rewrite E at 1. f_equal. rewrite U.
  rewrite <- (pairs_split (make_counters_n args (N.of_nat (length got)))) at 2. rewrite Sn. reflexivity.
Qed.
