(** Command lines with surplus arguments that are refused or stopped (C89). *)
From Verif Require Import Base BaseProofs MStrings MOptIter MData MCounter MValues MParser
  SStrings STok SIndex SDef SValues SCounter SParser SStep SLook SEquiv SApi SLine SIgnore SSurplus
  StrProofs TokProofs IndexProofs DefProofs FinishProofs ValuesProofs CounterProofs CounterInv
  MonadProofs FrameProofs InvProofs NextProofs ParseProofs StepProofs StepProofs2
  SimProofs3 EquivProofs LookProofs AcceptProofs ItemProofs LineProofs SurplusProofs SurplusProofs2.
Open Scope nat_scope.

(* ------------------------------------------------------------------------ *)
(** ** A full counter *)

Lemma full_each : forall args ks, Forall2 (fun k a => (k <= a_max a)%N) ks args ->
  (sum ks <= maxima args)%N /\ (sum ks = maxima args -> ks = map a_max args).
Proof.
  intros args ks F. induction F as [|k a ks args L F (IH1 & IH2)]; [split; [reflexivity|auto]|].
  unfold maxima in *. cbn [map sum fold_right] in *.
  change (fold_right N.add 0%N ks) with (sum ks). change (fold_right N.add 0%N (map a_max args)) with (sum (map a_max args)).
  split; [lia|]. intros E. rewrite IH2 by lia. f_equal. lia.
Qed.

Lemma fair_forall : forall args ks, length ks = length args ->
  (forall i a k, nth_error args i = Some a -> nth_error ks i = Some k -> (a_min a <= k <= a_max a)%N) ->
  Forall2 (fun k a => (k <= a_max a)%N) ks args.
Proof.
  induction args as [|a args IH]; intros [|k ks] L X; try discriminate L; constructor.
  - apply (X 0 a k); reflexivity.
  - apply IH; [injection L; auto|]. intros i b m A B. exact (X (S i) b m A B).
Qed.

Lemma full_last_used : forall args ks, proper args -> fair args (maxima args) ks -> last_used args (maxima args).
Proof.
  intros args ks Pr Fk. destruct args as [|a args] using rev_ind.
  - left. intros [|x front] final E; discriminate E.
  - right. exists ks. split; [exact Fk|]. destruct Fk as (L & Sm & Bd & _).
    destruct (full_each _ _ (fair_forall _ _ L Bd)) as (_ & E). rewrite (E Sm), map_app. cbn [map]. rewrite last_last.
    assert (Ia : In a (args ++ [a])) by (apply in_or_app; right; left; reflexivity). destruct (Pr a Ia) as (_ & X). lia.
Qed.

(* ------------------------------------------------------------------------ *)
(** ** From the settings to the lenient ones *)

Section Refused.
Variables (p q : parser_data).
Hypothesis H : finish_parser p = Val q.
Let cfg := d_settings q.
Let top := d_command q.
Hypothesis Sd : sound top.
Hypothesis Hn : no_insertions cfg top.
Hypothesis Hi : no_interference cfg top.
Hypothesis Ig : s_ignore_arguments cfg = false.
Hypothesis One : one_at_a_time top.

Lemma quiet_calm : forall evs, Forall quiet evs -> Forall (fun e => ~ complains e) evs.
Proof. intros evs F. eapply Forall_impl; [|exact F]. intros [| |c m| |] X; try exact (fun x => x). destruct X. Qed.

Lemma lenient_fails : forall k st m us hs, (forall t, m <> MsgTooManyArguments t) ->
  fails_with q k st m us hs -> fails_with (lenient_parser q) k st m us hs.
Proof.
  intros k st m us hs Nm (c & s & evs & Q & Hc & Ev & X). exists c, s, evs. split; [exact Q|]. split; [exact Hc|]. split; [exact Ev|].
  assert (U : uncomplaining s).
  { unfold uncomplaining. rewrite Ev. apply Forall_app. split; [exact (quiet_calm _ Q)|]. constructor; [|constructor].
    destruct m; try exact (fun x => x). destruct (Nm _ eq_refl). }
  change (s_auto_exit (d_settings (lenient_parser q))) with (s_auto_exit cfg).
  change (s_error_exit (d_settings (lenient_parser q))) with (s_error_exit cfg).
  change (d_settings (lenient_parser q)) with (lenient cfg). fold cfg in X.
  destruct (s_auto_exit cfg).
  - rewrite lenient_same; [exact X|]. rewrite X. exact U.
  - destruct X as (X & Cl). split; [|exact Cl]. rewrite lenient_same; [exact X|]. rewrite X. exact U.
Qed.

Lemma lenient_stops : forall k st o us hs, stops_so q k st o us hs -> stops_so (lenient_parser q) k st o us hs.
Proof.
  intros k st o us hs (c & s & evs & Q & Hc & Ev & X). exists c, s, evs. split; [exact Q|]. split; [exact Hc|]. split; [exact Ev|].
  assert (U : uncomplaining s).
  { unfold uncomplaining. rewrite Ev. apply Forall_app. split; [exact (quiet_calm _ Q)|].
    destruct (o_type o); repeat constructor; exact (fun x => x). }
  change (s_auto_exit (d_settings (lenient_parser q))) with (s_auto_exit cfg).
  change (s_normal_exit (d_settings (lenient_parser q))) with (s_normal_exit cfg).
  change (d_settings (lenient_parser q)) with (lenient cfg). fold cfg in X.
  destruct (s_auto_exit cfg && _).
  - rewrite lenient_same; [exact X|]. rewrite X. exact U.
  - destruct X as (X & Cl). split; [|exact Cl]. rewrite lenient_same; [exact X|]. rewrite X. exact U.
Qed.

(* ------------------------------------------------------------------------ *)
(** ** The endings *)

Local Notation late := (SurplusProofs.late q).
Local Notation got ks c := (order (combine ks (c_arguments c))).

Lemma got_in : forall ks c a, In a (got ks c) -> In a (c_arguments c).
Proof.
  intros ks c a Ia. apply order_incl in Ia. apply in_map_iff in Ia. destruct Ia as ((k, b) & <- & Ib). exact (in_combine_r _ _ _ _ Ib).
Qed.

Lemma late_so_far : forall past args us init outer c ks ws only pl st,
  late past args us init outer c (got ks c) ws only pl st -> so_far_h init c ws (init ++ meant (got ks c) ws).
Proof.
  intros past args us init outer c ks ws only pl st I0. exists (got ks c). split; [apply (la_count _ _ _ _ _ _ _ _ _ _ _ _ I0)|].
  split; [intros a; apply got_in|reflexivity].
Qed.

Lemma late_shape : forall past args us init outer c g ws only pl st,
  late past args us init outer c g ws only pl st -> shape cfg top st.
Proof. intros past args us init outer c g ws only pl st I0. destruct (la_reached _ _ _ _ _ _ _ _ _ _ _ _ I0) as (m & Rc). exact (lenient_shape p q H _ _ _ Rc). Qed.

Lemma late_unknown : forall past args us init outer c ks ws pl st t pl', s_ignore_options cfg = false ->
  late past args us init outer c (got ks c) ws false pl st -> token (s_style cfg) pl t pl' -> looks_like_option (s_style cfg) t ->
  dependable cfg c t -> unknown_option cfg c t ->
  exists h a, so_far_h init c ws h /\ within_line args (left_at pl') a /\
    fails_with q 1 st (MsgUnknownOption a) (more us (left_at pl')) ((c, h) :: outer).
Proof.
  intros past args us init outer c ks ws pl st t pl' Io I0 Tk Lk Dp Un.
  pose proof (late_so_far _ _ _ _ _ _ _ _ _ _ _ I0) as Sf. pose proof (late_shape _ _ _ _ _ _ _ _ _ _ _ I0) as Sh.
  destruct I0 as [(m & Rc) Ec0 Md Pl Ou Le Cn Ca Fr Us Sp Pa].
  destruct (token_ok _ _ _ _ _ Pl Tk) as (it & Nx & A1).
  destruct (current_some it (next_head _ _ _ Nx)) as (cur & Ecur). eexists. exists cur. split; [exact Sf|]. split.
  { destruct (ends_tran _ _ _ (next_args _ _ _ Nx) Fr) as (pre & ->).
    unfold it_current in Ecur. destruct (it_args it) as [|a r] eqn:Ea; [discriminate|].
    cbn in Ecur. injection Ecur as <-. exists pre, r. split; [reflexivity|].
    exact (left_head _ _ _ _ _ _ _ Tk A1 Ea). }
  apply (error_ends q st (set_iter st it) (MsgUnknownOption cur) c _ outer pl' _ iter_result
    (mk_ir IC_ERROR ItNone []) (fun r => ret r)); try assumption; try (rewrite <- Us; reflexivity).
  - fold cfg. rewrite (next_option_eq cfg st t it Md Nx Lk). unfold process_option. rewrite bind_gets.
    change (ps_command (set_iter st it)) with (ps_command st). rewrite <- Ec0 in Dp, Un.
    assert (Fn : find_option (ps_command st) t (s_abbreviations cfg) (s_case_insensitive cfg) = None).
    { destruct (find_option (ps_command st) t (s_abbreviations cfg) (s_case_insensitive cfg)) as [o|] eqn:E; [|reflexivity].
      apply (shape_lookup p q H st t o Sh Dp) in E. destruct (Un o E). }
    rewrite Fn, Io. cbn [negb].
    unfold bind, m_current. cbn [ps_iter set_iter]. rewrite Ecur.
    destruct (error cfg (MsgUnknownOption cur) (set_iter st it)); reflexivity.
  - intros s. eexists. split; reflexivity.
Qed.

Lemma late_no_value : forall past args us init outer c ks ws pl st t o pl',
  late past args us init outer c (got ks c) ws false pl st -> flag cfg c pl t o pl' -> takes_value o -> no_text pl' ->
  exists h, so_far_h init c ws h /\ fails_with q 1 st (MsgNoValue t) us ((c, h) :: outer).
Proof.
  intros past args us init outer c ks ws pl st t o pl' I0 (Tk & Lk & Ch) Tv Nt.
  pose proof (late_so_far _ _ _ _ _ _ _ _ _ _ _ I0) as Sf. pose proof (late_shape _ _ _ _ _ _ _ _ _ _ _ I0) as Sh.
  eexists. split; [exact Sf|]. destruct I0 as [(m & Rc) Ec0 Md Pl Ou Le Cn Ca Fr Us Sp Pa].
  destruct (token_ok _ _ _ _ _ Pl Tk) as (it & Nx & A1). destruct (no_text_ok _ _ _ A1 Nt) as (it' & Nv & A2).
  rewrite <- Ec0 in Ch. pose proof (shape_lookups p q H st Sh t o Ch) as Fo. fold cfg in Fo.
  apply (error_ends q st (set_iter (set_iter st it) it') (MsgNoValue t) c _ outer (Fresh []) _ (option str) None
    (fun _ => ret (mk_ir IC_ERROR (ItOption o) []))); try assumption; try (rewrite <- Us; exact (more_nil (set_iter (set_iter st it) it'))).
  - fold cfg. rewrite (next_option_eq cfg st t it Md Nx Lk). unfold process_option. rewrite bind_gets.
    change (ps_command (set_iter st it)) with (ps_command st). rewrite Fo. unfold process_known_option.
    rewrite !bind_assoc. unfold apply_operation. destruct Tv as (Eo & Ek).
    assert (X : m_next_value (set_iter st it) = Ret None (set_iter (set_iter st it) it')).
    { unfold m_next_value. cbn [ps_iter set_iter]. rewrite Nv. reflexivity. }
    destruct Eo as [Eo|Eo]; rewrite Eo, Ek; cbn [is_empty negb]; rewrite bind_assoc; rewrite (bind_ret_eq _ _ _ _ _ _ _ X);
      cbv beta iota; unfold bind; destruct (error cfg (MsgNoValue t) (set_iter (set_iter st it) it')); reflexivity.
  - intros s. eexists. split; reflexivity.
Qed.

Lemma late_stop : forall past args us init outer c ks ws pl st t o pl' v pl'',
  late past args us init outer c (got ks c) ws false pl st -> flag cfg c pl t o pl' ->
  takes (s_style cfg) o pl' v pl'' -> o_type o = OT_STOP \/ o_type o = OT_EXIT \/ o_type o = OT_HELP ->
  exists h, so_far_h init c (ws ++ [Optional o v]) h /\ stops_so q 2 st o (more us (left_at pl'')) ((c, h) :: outer).
Proof.
  intros past args us init outer c ks ws pl st t o pl' v pl'' I0 Fl Ta Ty.
  pose proof (late_shape _ _ _ _ _ _ _ _ _ _ _ I0) as Sh. destruct I0 as [(m & Rc) Ec0 Md Pl Ou Le Cn Ca Fr Us Sp Pa].
  rewrite <- Ec0 in Fl.
  destruct (flag_next p q H Hn Hi st pl t o pl' v pl'' Sh Md Pl Fl Ta) as (it & it' & n & evs & Nx & W1 & Fo & Io & Rv & A2 & Fe & E).
  fold cfg in E. destruct Le as (L1 & L2 & L3 & L5 & L6). cbn in L1, L2.
  set (h := init ++ meant (got ks c) (ws ++ [Optional o v])).
  exists h. split.
  { exists (got ks c). split; [|split; [intros a; apply got_in|reflexivity]]. rewrite positionals_app. cbn. rewrite app_nil_r. exact Cn. }
  set (s0 := noted (started o st v it') n evs) in *.
  assert (V1 : l_values (ps_cur s0) = fold_left apply_change h []).
  { cbn. rewrite op_values_fold, L2, <- fold_left_app. unfold h. rewrite <- app_assoc. do 2 f_equal.
    pose proof (meant_app ws [Optional o v] (got ks c) [] Cn) as X. rewrite app_nil_r in X. rewrite X.
    cbn [meant]. rewrite app_nil_r. reflexivity. }
  destruct (left_ok _ _ _ A2) as (it2 & Rem).
  assert (Q : Forall quiet (ps_events s0)) by (cbn; apply Forall_app; auto).
  set (s1 := match o_type o with OT_HELP => add_event s0 (EvHelp c) | _ => s0 end).
  set (s2 := set_cur (set_mode s1 ST_DONE) (set_breaking_option o (ps_cur (set_mode s1 ST_DONE)))).
  assert (G : (r <- apply_type o ;; ret (r, v)) s0 = Ret ((match o_type o with OT_STOP => OR_STOP | _ => OR_EXIT end), v) s2).
  { unfold s2, s1, apply_type. destruct Ty as [Ty|[Ty|Ty]]; rewrite Ty; [reflexivity|reflexivity|].
    rewrite <- Ec0. reflexivity. }
  assert (I2 : ps_iter s2 = it') by (unfold s2, s1; destruct (o_type o); reflexivity).
  assert (C2 : ps_cur s2 = set_breaking_option o (ps_cur s0)) by (unfold s2, s1; destruct (o_type o); reflexivity).
  assert (P2 : ps_parents s2 = ps_parents st) by (unfold s2, s1; destruct (o_type o); reflexivity).
  assert (E2 : ps_events s2 = ps_events s0 ++ match o_type o with OT_HELP => [EvHelp c] | _ => [] end).
  { unfold s2, s1. destruct (o_type o); cbn; rewrite ?app_nil_r; reflexivity. }
  assert (M2 : ps_mode s2 = ST_DONE) by (unfold s2, s1; destruct (o_type o); reflexivity).
  rewrite (bind_ret_eq _ _ _ _ _ _ _ G) in E. unfold concludes, conclude in E.
  set (s3 := set_cur (set_iter s2 it2) (add_unprocessed (ps_cur s2) (left_at pl''))).
  assert (E3 : (copy_remaining ;;; ret (mk_ir IC_OPTION (ItOption o) v)) s2 = Ret (mk_ir IC_OPTION (ItOption o) v) s3).
  { unfold bind, copy_remaining. rewrite I2, Rem. reflexivity. }
  assert (Dn : parse_loop cfg 1 s3 = Ret tt s3).
  { cbn [parse_loop]. unfold bind at 1. unfold next. rewrite bind_gets. change (ps_mode s3) with (ps_mode s2). rewrite M2. reflexivity. }
  assert (Cl : closes RC_NONE RC_STOP (Some o) (more us (left_at pl'')) ((c, h) :: outer) s3).
  { split.
    { rewrite <- Us. apply (kept_copied s2 it2). unfold kept. rewrite C2, P2. reflexivity. }
    exists (c, h), outer. split; [reflexivity|]. split.
    - unfold level_closed, s3. cbn [ps_cur set_cur]. rewrite C2. cbn. cbn in V1. auto 10.
    - change (ps_parents s3) with (ps_parents s2). rewrite P2. apply open_parents. exact Ou. }
  assert (Ex : (s_auto_exit cfg && match o_type o with OT_STOP => false | _ => true end = false /\ next cfg st = Ret (mk_ir IC_OPTION (ItOption o) v) s3) \/
    (s_auto_exit cfg && match o_type o with OT_STOP => false | _ => true end = true /\ next cfg st = Exits (s_normal_exit cfg) s2)).
  { destruct (s_auto_exit cfg); destruct Ty as [Ty|[Ty|Ty]]; rewrite Ty in E |- *; cbn [andb];
      [left|right|right|left|left|left]; (split; [reflexivity|]); rewrite E; try exact E3; reflexivity. }
  unfold stops_so. fold cfg. destruct Ex as [(X & N1)|(X & N1)]; rewrite X.
  - exists c, s3, (ps_events s0). split; [exact Q|]. split; [reflexivity|]. split; [exact E2|]. split; [|exact Cl].
    apply (loop_more q 1 s3 s3 (mk_ir IC_OPTION (ItOption o) v) st Dn N1); discriminate.
  - exists c, s2, (ps_events s0). split; [exact Q|]. split; [reflexivity|]. split; [exact E2|].
    cbn [parse_loop]. unfold bind at 1. rewrite N1. reflexivity.
Qed.

Lemma late_judged : forall init c ks ws extra s1,
  within top c -> fair (c_arguments c) (N.of_nat (length (positionals ws))) ks ->
  N.of_nat (length (positionals ws)) = maxima (c_arguments c) -> positionals extra = [] ->
  is_complete (ps_counter s1) = true -> ps_command s1 = c -> l_subs (ps_cur s1) = [] ->
  let h := init ++ meant (got ks c) (ws ++ extra) in
  l_values (ps_cur s1) = fold_left apply_change h [] ->
  acceptable init c (ws ++ extra) h \/
  exists m, check_counts cfg s1 = bind (error cfg m) (fun _ => ret false) s1 /\
    shortfall c h (N.of_nat (length (positionals (ws ++ extra)))) m /\ forall t, m <> MsgTooManyArguments t.
Proof.
  intros init c ks ws extra s1 Wi Fk Em Pe Ic Ec1 Su h Ev.
  destruct (counts_cases p q H Sd s1 c h Wi Ec1 Su Ev) as [(E & A & Rq & Cp)|(m & E & Sf)].
  - left. unfold acceptable. rewrite positionals_app, Pe, app_nil_r. split; [exact Rq|]. destruct (Sd _ Wi) as (Pr & _). split.
    { rewrite Em in Fk |- *. exact (full_last_used _ _ Pr Fk). }
    split; [exists ks; split; [exact Fk|reflexivity]|]. intros o Io Op Hh. apply (A o Io). split; [exact Op|exact Hh].
  - right. exists m. split; [exact E|]. split.
    + destruct Sf as [Sf|[Sf|(_ & _ & X & _)]]; [left; exact Sf|right; left; exact Sf|congruence].
    + intros t. destruct Sf as [(b & o & a & _ & _ & _ & ->)|[(_ & _ & ->)|(_ & _ & _ & ->)]]; discriminate.
Qed.

Lemma late_end_judged : forall args us init outer c ks ws only pl st,
  late true args us init outer c (got ks c) ws only pl st -> (if only then no_text pl else no_token pl) ->
  fair (c_arguments c) (N.of_nat (length (positionals ws))) ks -> N.of_nat (length (positionals ws)) = maxima (c_arguments c) ->
  (exists h, acceptable init c ws h) \/
  exists m h, so_far_h init c ws h /\ shortfall c h (N.of_nat (length (positionals ws))) m /\
    (forall t, m <> MsgTooManyArguments t) /\ fails_with q 1 st m us ((c, h) :: outer).
Proof.
  intros args us init outer c ks ws only pl st I0 Np Fk Em.
  pose proof (late_so_far _ _ _ _ _ _ _ _ _ _ _ I0) as Sf. pose proof (late_shape _ _ _ _ _ _ _ _ _ _ _ I0) as Sh.
  destruct I0 as [(m & Rc) Ec Md Pl Ou Le Cn Ca Fr Us Sp Pa].
  assert (Wi : within top c) by (rewrite <- Ec, (sh_command _ _ _ Sh); eapply chain_within; apply (sh_chain _ _ _ Sh)).
  assert (R : exists it, reads st None it /\ at_place (s_style cfg) it (Fresh [])).
  { unfold reads. rewrite Md. destruct only.
    - destruct (no_text_ok _ _ _ Pl Np) as (it & E & A). eauto.
    - eexists. split; [exact (no_token_ok _ _ _ Pl Np)|apply ap_fresh]. }
  destruct R as (it & R & A). pose proof Le as (L1 & L2 & L3 & L5 & L6). cbn in L1, L2.
  pose proof (late_judged init c ks ws [] (set_iter st it) Wi Fk Em eq_refl (Pa eq_refl) Ec L3) as J. cbv zeta in J.
  rewrite app_nil_r in J. destruct (J L2) as [Ac|(m' & E & Sf' & Nm)].
  - left. eauto.
  - right. exists m'. eexists. split; [exact Sf|]. split; [exact Sf'|]. split; [exact Nm|].
    apply (error_ends q st (set_iter st it) m' c _ outer (Fresh []) _ bool false
      (fun ok => ret (mk_ir (if ok then IC_DONE else IC_ERROR) ItNone []))); try assumption; try (rewrite <- Us; exact (more_nil (set_iter st it))).
    + fold cfg. rewrite (next_eq cfg _ _ _ R). unfold bind in E |- *. rewrite E. reflexivity.
    + intros s. eexists. split; reflexivity.
Qed.

Lemma late_last_judged : forall args us init outer c ks ws pl st t o pl' v pl'',
  late true args us init outer c (got ks c) ws false pl st -> flag cfg c pl t o pl' ->
  takes (s_style cfg) o pl' v pl'' -> o_type o = OT_LAST_ARGUMENT ->
  fair (c_arguments c) (N.of_nat (length (positionals ws))) ks -> N.of_nat (length (positionals ws)) = maxima (c_arguments c) ->
  (exists h, acceptable init c (ws ++ [Optional o v]) h) \/
  exists m h, so_far_h init c (ws ++ [Optional o v]) h /\
    shortfall c h (N.of_nat (length (positionals (ws ++ [Optional o v])))) m /\
    (forall t, m <> MsgTooManyArguments t) /\ fails_with q 1 st m (more us (left_at pl'')) ((c, h) :: outer).
Proof.
  intros args us init outer c ks ws pl st t o pl' v pl'' I0 Fl Ta Ty Fk Em.
  pose proof (late_shape _ _ _ _ _ _ _ _ _ _ _ I0) as Sh.
  destruct I0 as [(m & Rc) Ec Md Pl Ou Le Cn Ca Fr Us Sp Pa].
  assert (Wi : within top c) by (rewrite <- Ec, (sh_command _ _ _ Sh); eapply chain_within; apply (sh_chain _ _ _ Sh)).
  rewrite <- Ec in Fl.
  destruct (flag_next p q H Hn Hi st pl t o pl' v pl'' Sh Md Pl Fl Ta) as (it & it' & n & evs & Nx & W1 & Fo & Io & Rv & A2 & Fe & E).
  fold cfg in E. destruct Le as (L1 & L2 & L3 & L5 & L6). cbn in L1, L2.
  set (s1 := set_mode (noted (started o st v it') n evs) ST_DONE).
  assert (V1 : l_values (ps_cur s1) = fold_left apply_change (init ++ meant (got ks c) (ws ++ [Optional o v])) []).
  { cbn. rewrite op_values_fold, L2, <- fold_left_app, <- app_assoc. do 2 f_equal.
    pose proof (meant_app ws [Optional o v] (got ks c) [] Cn) as X. rewrite app_nil_r in X. rewrite X.
    cbn [meant]. rewrite app_nil_r. reflexivity. }
  destruct (late_judged init c ks ws [Optional o v] s1 Wi Fk Em eq_refl (Pa eq_refl) Ec L3 V1) as [Ac|(m' & E1 & Sf & Nm)].
  - left. eauto.
  - right. exists m'. eexists. split.
    { exists (got ks c). split; [|split; [intros a; apply got_in|reflexivity]]. rewrite positionals_app. cbn. rewrite app_nil_r. exact Cn. }
    split; [exact Sf|]. split; [exact Nm|].
    eapply (error_ends q st s1 m' c _ outer pl'' _ bool false); try exact Ou; try exact A2; try assumption; try (rewrite <- Us; reflexivity).
    + unfold level_is. cbn. auto 10.
    + cbn. apply Forall_app. auto.
    + fold cfg. rewrite E. unfold apply_type. rewrite Ty. unfold bind at 1. unfold bind at 1. rewrite bind_modify. cbn [ret]. cbv beta iota.
      unfold concludes, conclude. change (set_mode _ ST_DONE) with s1. unfold bind in E1 |- *. rewrite E1. reflexivity.
    + intros s. eexists. split; reflexivity.
Qed.

(* ------------------------------------------------------------------------ *)
(** ** The whole line *)

Local Notation halt := (LineProofs.halt q).

Lemma late_reach : forall only c pl is subs e, skimming cfg only c pl is subs e -> c_commands c = [] ->
  forall args u us init outer ks ws st,
  late true args (u :: us) init outer c (got ks c) ws only pl st ->
  exists n done w on pl' st', trim 0 is = done ++ map Read w /\ positionals (words done) = [] /\ halt on c pl' w e /\
    (forall k, parse_loop (lenient cfg) (n + k) st = parse_loop (lenient cfg) k st') /\
    late true args ((u ++ ignored done) :: us) init outer c (got ks c) (ws ++ words done) on pl' st'.
Proof.
  intros only c pl is subs e Rd.
  assert (Here : forall only c pl w e, halt only c pl w e -> forall args u us init outer ks ws st,
    late true args (u :: us) init outer c (got ks c) ws only pl st ->
    exists n done w' on pl' st', map Read w = done ++ map Read w' /\ positionals (words done) = [] /\ halt on c pl' w' e /\
    (forall k, parse_loop (lenient cfg) (n + k) st = parse_loop (lenient cfg) k st') /\
    late true args ((u ++ ignored done) :: us) init outer c (got ks c) (ws ++ words done) on pl' st').
  { clear. intros only c pl w e X args u us init outer ks ws st I0. exists 0, [], w, only, pl, st.
    split; [reflexivity|]. split; [reflexivity|]. split; [exact X|]. split; [reflexivity|]. cbn. rewrite !app_nil_r. exact I0. }
  assert (Step : forall r st st1 n st', next (lenient cfg) st = Ret r st1 -> ir_code r <> IC_ERROR -> ir_code r <> IC_DONE ->
    (forall k, parse_loop (lenient cfg) (n + k) st1 = parse_loop (lenient cfg) k st') ->
    forall k, parse_loop (lenient cfg) (S n + k) st = parse_loop (lenient cfg) k st').
  { clear. intros r st st1 n st' E N1 N2 L k. cbn [Nat.add parse_loop]. unfold bind. rewrite E. destruct (ir_code r); try congruence; apply L. }
  induction Rd as [c pl a pl' is subs e Ia Rd IH|c pl Np|c pl Np|only c pl t pl' is subs e Pt Cm0 Rd IH|c pl t o pl' v pl'' is subs e Fl Ta Ty Rd IH
    |c pl t o pl' v pl'' is subs e Fl Ta Ty Rd IH|c pl t o pl' v pl'' Fl Ta Ty|c pl t o pl' v pl'' Fl Ta Ty
    |only c pl t pl' d is subs e Pt Fn Rd IH|only c pl t pl' Pt Nc Nn|c pl t pl' Tk Lk Dp Un|c pl t o pl' Fl Tv Nt];
    intros Cm args u us init outer ks ws st I0.
  - destruct (late_ignored p q H _ _ _ _ _ _ _ _ _ _ _ _ _ I0 Ia) as (s1 & E1 & I1).
    destruct (IH Cm _ _ _ _ _ _ _ _ I1) as (n & done & w & on & pl2 & st' & Et & Pd & X & L & I2).
    exists (S n), (Ignored a :: done), w, on, pl2, st'. cbn [trim]. rewrite Et. split; [reflexivity|]. split; [exact Pd|]. split; [exact X|].
    split; [exact (Step _ _ _ _ _ E1 ltac:(discriminate) ltac:(discriminate) L)|]. rewrite <- app_assoc in I2. exact I2.
  - exact (Here _ _ _ [] _ (h_end q false c pl Np) _ _ _ _ _ _ _ _ I0).
  - exact (Here _ _ _ [] _ (h_end q true c pl Np) _ _ _ _ _ _ _ _ I0).
  - destruct (late_surplus p q H One _ _ _ _ _ _ _ _ _ _ _ _ _ _ I0 Pt Cm) as (r & s1 & E1 & Cr & I1).
    destruct (IH Cm _ _ _ _ _ _ _ _ I1) as (n & done & w & on & pl2 & st' & Et & Pd & X & L & I2).
    exists (S n), (Ignored t :: done), w, on, pl2, st'. cbn [trim]. rewrite Et. split; [reflexivity|]. split; [exact Pd|]. split; [exact X|].
    split; [apply (Step _ _ _ _ _ E1); [rewrite Cr; discriminate|rewrite Cr; discriminate|exact L]|]. rewrite <- app_assoc in I2. exact I2.
  - destruct (late_option p q H Hn Hi _ _ _ _ _ _ _ _ _ _ _ _ _ _ _ I0 Fl Ta (or_introl Ty)) as (s1 & E1 & I1). rewrite Ty in I1.
    destruct (IH Cm _ _ _ _ _ _ _ _ I1) as (n & done & w & on & pl2 & st' & Et & Pd & X & L & I2).
    exists (S n), (Read (Optional o v) :: done), w, on, pl2, st'. cbn [trim]. rewrite Et. split; [reflexivity|]. split; [exact Pd|]. split; [exact X|].
    split; [exact (Step _ _ _ _ _ E1 ltac:(discriminate) ltac:(discriminate) L)|]. rewrite <- app_assoc in I2. exact I2.
  - destruct (late_option p q H Hn Hi _ _ _ _ _ _ _ _ _ _ _ _ _ _ _ I0 Fl Ta (or_intror Ty)) as (s1 & E1 & I1). rewrite Ty in I1.
    destruct (IH Cm _ _ _ _ _ _ _ _ I1) as (n & done & w & on & pl2 & st' & Et & Pd & X & L & I2).
    exists (S n), (Read (Optional o v) :: done), w, on, pl2, st'. cbn [trim]. rewrite Et. split; [reflexivity|]. split; [exact Pd|]. split; [exact X|].
    split; [exact (Step _ _ _ _ _ E1 ltac:(discriminate) ltac:(discriminate) L)|]. rewrite <- app_assoc in I2. exact I2.
  - refine (Here _ _ _ [Optional o v] _ _ _ _ _ _ _ _ _ _ I0). eapply h_last; eassumption.
  - refine (Here _ _ _ [Optional o v] _ _ _ _ _ _ _ _ _ _ I0). eapply h_stop; eassumption.
  - exfalso. destruct Fn as (b & a0 & X & _). rewrite Cm in X. destruct b; discriminate.
  - contradiction.
  - refine (Here _ _ _ [] _ _ _ _ _ _ _ _ _ _ I0). eapply h_unknown; eassumption.
  - refine (Here _ _ _ [] _ _ _ _ _ _ _ _ _ _ I0). eapply h_no_value; eassumption.
Qed.

Section Whole.
Variables (args : list str) (is : list item) (subs : list (cmd_data * list item)) (e : ending).
Hypothesis Rd : skimming cfg false top (Fresh args) is subs e.
Hypothesis Fw : Forall (item_fits q) ((top, is) :: subs).

Definition roomy (front : list (cmd_data * list item)) (c : cmd_data) (dn : list item) (on : bool) (pl : place) (st' : pstate) : Prop :=
  exists st0 rs, LineProofs.line_inv q args (ignored dn :: rev (lefts front) ++ []) (begin (at_first top) (map words_of front))
    (rev (passed (at_first top) (map words_of front)) ++ []) c (words dn) on pl st0 rs st' /\
  (N.of_nat (length (positionals (words dn))) <= maxima (c_arguments c))%N.
Definition crowded (front : list (cmd_data * list item)) (c : cmd_data) (dn : list item) (on : bool) (pl : place) (st' : pstate) : Prop :=
  c_commands c = [] /\ exists ks, late true args (ignored dn :: rev (lefts front) ++ []) (begin (at_first top) (map words_of front))
    (rev (passed (at_first top) (map words_of front)) ++ []) c (got ks c) (words dn) on pl st' /\
  fair (c_arguments c) (N.of_nat (length (positionals (words dn)))) ks /\
  N.of_nat (length (positionals (words dn))) = maxima (c_arguments c).

Lemma lenient_halts : exists st n front c dn w on pl st',
  start_counter (lenient cfg) (initial_state (lenient cfg) top args) = Ret tt st /\
  (forall k, parse_loop (lenient cfg) (n + k) st = parse_loop (lenient cfg) k st') /\
  map trimmed ((top, is) :: subs) = front ++ [(c, dn ++ map Read w)] /\ halt on c pl w e /\
  (roomy front c dn on pl st' \/ crowded front c dn on pl st').
Proof.
  destruct (lenient_walked p q H Sd Hn Hi Ig One args is subs e Rd Fw) as (st & E & R0 & n & front & c & dn & w & on & pl & st0 & rs & st' & Es & I0 & L & Rc & Lm & X).
  fold cfg top in E, L, R0, Rc, Es. pose proof (plain_until_last q _ _ _ _ _ _ Rd _ _ _ Es) as Pf. apply (trimmed_front) in Pf.
  rewrite Es, map_app, Pf. cbn [map]. unfold trimmed. cbn [fst snd].
  destruct X as [(ws & -> & X)|(t' & pl' & rest & -> & Pt & Cm & Em & Rd')].
  - assert (Z : positionals ws = []) by (inversion X; reflexivity).
    exists st, n, front, c, dn, ws, on, pl, st'. split; [exact E|]. split; [exact L|]. rewrite trim_room.
    2: rewrite words_app, words_read, positionals_app, Z, app_nil_r; lia.
    split; [reflexivity|]. split; [exact X|]. left. exists st0, rs. split; [exact I0|exact Lm].
  - assert (Ek : N.to_nat (maxima (c_arguments c)) = length (positionals (words dn))) by lia.
    rewrite Ek, trim_surplus. destruct (Rc 0%N R0) as (m & Rm).
    pose proof (inv_facts p q H Sd Hn Ig _ _ _ _ _ _ _ _ _ _ _ I0) as (Sh & Ec0 & Wi & _ & _ & _).
    destruct I0 as [En Ec Pc Fs Cn Md Pl Ou Le Ca Pn Fr Us].
    pose proof (full_distributed p q H Sd Hn Ig args st0 rs st' En Pc) as D. rewrite Ec in D. cbv zeta in D.
    destruct (D Fs) as ((ks & Fk & Eg) & Sp); [rewrite Cn; exact Em|].
    rewrite Eg in Le, Cn.
    assert (La : late false args (ignored dn :: rev (lefts front) ++ []) (begin (at_first top) (map words_of front))
      (rev (passed (at_first top) (map words_of front)) ++ []) c (got ks c) (words dn) on pl st').
    { constructor; try assumption; [exists m; exact Rm|discriminate]. }
    destruct (late_surplus p q H One _ _ _ _ _ _ _ _ _ _ _ _ _ _ La Pt Cm) as (r & s1 & E1 & Cr & I1).
    rewrite <- Em in Fk.
    destruct (late_reach _ _ _ _ _ _ Rd' Cm _ _ _ _ _ _ _ _ I1) as (n2 & done & w & on2 & pl2 & st2 & Et & Pd & X & L2 & I2).
    exists st, (n + S n2), front, c, (dn ++ Ignored t' :: done), w, on2, pl2, st2.
    split; [exact E|]. split.
    { intros k. rewrite <- Nat.add_assoc, L. cbn [Nat.add parse_loop]. unfold bind. fold cfg in E1. rewrite E1, Cr. apply L2. }
    split; [cbn [trim]; rewrite Et, <- app_assoc; reflexivity|]. split; [exact X|]. right. split; [exact Cm|]. exists ks.
    assert (Ww : words (dn ++ Ignored t' :: done) = words dn ++ words done) by (rewrite words_app; reflexivity).
    assert (Wi2 : ignored (dn ++ Ignored t' :: done) = ignored dn ++ t' :: ignored done) by (rewrite ignored_app; reflexivity).
    rewrite Ww, Wi2. replace (positionals (words dn ++ words done)) with (positionals (words dn)) by (rewrite positionals_app, Pd, app_nil_r; reflexivity).
    split; [|auto]. rewrite <- app_assoc in I2. exact I2.
Qed.

Lemma segs_words : forall front c dn w, map trimmed ((top, is) :: subs) = front ++ [(c, dn ++ map Read w)] ->
  map words_of (map trimmed ((top, is) :: subs)) = map words_of front ++ [(c, words dn ++ w)].
Proof.
  intros front c dn w E. rewrite E, map_app. cbn [map]. unfold words_of at 2. cbn [fst snd].
  rewrite words_app, words_read. reflexivity.
Qed.

Local Notation segs := (map words_of (map trimmed ((top, is) :: subs))).
Local Notation lefts_of := (leftovers (map trimmed ((top, is) :: subs))).

Lemma surplus_stop : forall o left, e = AtStop o left ->
  exists hs, so_far (at_first top) segs hs /\ stops_with (lenient cfg) top args o hs (lefts_of left).
Proof.
  intros o left Ee. destruct lenient_halts as (st & n & front & c & dn & w & on & pl & st' & E & L & Es & X & I0).
  rewrite (segs_words _ _ _ _ Es), Es. inversion X; subst; try discriminate. match goal with Q : AtStop _ _ = AtStop _ _ |- _ => injection Q as -> <- end.
  assert (S0 : exists h, so_far_h (begin (at_first top) (map words_of front)) c (words dn ++ [Optional o v]) h /\
    stops_so q 2 st' o (more (ignored dn :: rev (lefts front) ++ []) (left_at pl'')) ((c, h) :: rev (passed (at_first top) (map words_of front)) ++ [])).
  { destruct I0 as [(st0 & rs & I0 & Lm)|(_ & ks & I0 & _)].
    - exact (stop_ends p q H Sd Hn Hi Ig _ _ _ _ _ _ _ _ _ _ _ _ _ _ _ I0 ltac:(eassumption) ltac:(eassumption) ltac:(eassumption)).
    - exact (late_stop _ _ _ _ _ _ _ _ _ _ _ _ _ _ _ I0 ltac:(eassumption) ltac:(eassumption) ltac:(eassumption)). }
  destruct S0 as (h & Sf & St). apply lenient_stops in St.
  eexists. split; [exact (so_far_from _ _ _ _ _ Sf)|]. rewrite <- left_at_last. exact (stops_from (lenient_parser q) _ _ _ _ _ _ _ _ _ _ E L St).
Qed.

Lemma surplus_fault : (forall f l, e = AtUnknown f l -> s_ignore_options cfg = false) -> left_of e = None ->
  (forall o l, e <> AtStop o l) ->
  exists m hs left, so_far (at_first top) segs hs /\ complaint args e m left /\
    refuses_with (lenient cfg) top args m hs (lefts_of left).
Proof.
  intros Io El Ns. destruct lenient_halts as (st & n & front & c & dn & w & on & pl & st' & E & L & Es & X & I0).
  rewrite (segs_words _ _ _ _ Es), Es.
  inversion X; subst; try discriminate El; try (exfalso; eapply Ns; reflexivity); rewrite app_nil_r.
  - destruct I0 as [(st0 & rs & I0 & Lm)|(Cm & _)]; [|contradiction].
    destruct (no_command_ends p q H Sd Hn Ig _ _ _ _ _ _ _ _ _ _ _ _ _ I0 ltac:(eassumption) ltac:(eassumption) ltac:(eassumption)) as (h & Sf & Fl).
    apply lenient_fails in Fl; [|discriminate].
    eexists _, _, _. split; [exact (so_far_from _ _ _ _ _ Sf)|]. split; [split; reflexivity|].
    rewrite <- left_at_last. exact (refuses_from (lenient_parser q) _ _ _ _ _ _ _ _ _ _ E L Fl).
  - assert (S0 : exists h a, so_far_h (begin (at_first top) (map words_of front)) c (words dn) h /\ within_line args (left_at pl') a /\
      fails_with q 1 st' (MsgUnknownOption a) (more (ignored dn :: rev (lefts front) ++ []) (left_at pl')) ((c, h) :: rev (passed (at_first top) (map words_of front)) ++ [])).
    { destruct I0 as [(st0 & rs & I0 & Lm)|(_ & ks & I0 & _)].
      - exact (unknown_ends p q H Sd Hn Ig _ _ _ _ _ _ _ _ _ _ _ _ (Io _ _ eq_refl) I0 ltac:(eassumption) ltac:(eassumption) ltac:(eassumption) ltac:(eassumption)).
      - exact (late_unknown _ _ _ _ _ _ _ _ _ _ _ _ (Io _ _ eq_refl) I0 ltac:(eassumption) ltac:(eassumption) ltac:(eassumption) ltac:(eassumption)). }
    destruct S0 as (h & a & Sf & Ia & Fl). apply lenient_fails in Fl; [|discriminate].
    eexists _, _, _. split; [exact (so_far_from _ _ _ _ _ Sf)|]. split; [split; [reflexivity|eauto]|].
    rewrite <- left_at_last. exact (refuses_from (lenient_parser q) _ _ _ _ _ _ _ _ _ _ E L Fl).
  - assert (S0 : exists h, so_far_h (begin (at_first top) (map words_of front)) c (words dn) h /\
      fails_with q 1 st' (MsgNoValue t) (ignored dn :: rev (lefts front) ++ []) ((c, h) :: rev (passed (at_first top) (map words_of front)) ++ [])).
    { destruct I0 as [(st0 & rs & I0 & Lm)|(_ & ks & I0 & _)].
      - exact (no_value_ends p q H Sd Hn Ig _ _ _ _ _ _ _ _ _ _ _ _ _ I0 ltac:(eassumption) ltac:(eassumption) ltac:(eassumption)).
      - exact (late_no_value _ _ _ _ _ _ _ _ _ _ _ _ _ I0 ltac:(eassumption) ltac:(eassumption) ltac:(eassumption)). }
    destruct S0 as (h & Sf & Fl). apply lenient_fails in Fl; [|discriminate].
    eexists _, _, _. split; [exact (so_far_from _ _ _ _ _ Sf)|]. split; [split; reflexivity|].
    rewrite <- left_at_end. exact (refuses_from (lenient_parser q) _ _ _ _ _ _ _ _ _ _ E L Fl).
Qed.

Lemma shortfall_mild : forall c h k m, shortfall c h k m -> forall t, m <> MsgTooManyArguments t.
Proof. intros c h k m [(b & o & a & _ & _ & _ & ->)|[(_ & _ & ->)|(_ & _ & _ & ->)]] t; discriminate. Qed.

Lemma surplus_judged : forall left, left_of e = Some left ->
  (exists hs, all_acceptable (at_first top) segs hs) \/
  exists front c w h m, segs = front ++ [(c, w)] /\
    so_far (at_first top) segs (passed (at_first top) front ++ [(c, h)]) /\
    shortfall c h (N.of_nat (length (positionals w))) m /\
    refuses_with (lenient cfg) top args m (passed (at_first top) front ++ [(c, h)]) (lefts_of left).
Proof.
  intros left El. destruct lenient_halts as (st & n & front & c & dn & w & on & pl & st' & E & L & Es & X & I0).
  assert (G : (exists h, acceptable (begin (at_first top) (map words_of front)) c (words dn ++ w) h) \/
    exists m h, so_far_h (begin (at_first top) (map words_of front)) c (words dn ++ w) h /\
      shortfall c h (N.of_nat (length (positionals (words dn ++ w)))) m /\
      fails_with q 1 st' m (more (ignored dn :: rev (lefts front) ++ []) left) ((c, h) :: rev (passed (at_first top) (map words_of front)) ++ [])).
  { inversion X; subst; try discriminate El; cbn in El; injection El as <-.
    - rewrite app_nil_r. cbn [more]. rewrite app_nil_r. destruct I0 as [(st0 & rs & I0 & Lm)|(_ & ks & I0 & Fk & Em)].
      + exact (end_judged p q H Sd Hn Ig _ _ _ _ _ _ _ _ _ _ _ I0 ltac:(eassumption) Lm).
      + destruct (late_end_judged _ _ _ _ _ _ _ _ _ _ I0 ltac:(eassumption) Fk Em) as [A|(m & h & A & B & _ & C)]; eauto 8.
    - destruct I0 as [(st0 & rs & I0 & Lm)|(_ & ks & I0 & Fk & Em)].
      + exact (last_judged p q H Sd Hn Hi Ig _ _ _ _ _ _ _ _ _ _ _ _ _ _ _ I0 ltac:(eassumption) ltac:(eassumption) ltac:(eassumption) Lm).
      + destruct (late_last_judged _ _ _ _ _ _ _ _ _ _ _ _ _ _ I0 ltac:(eassumption) ltac:(eassumption) ltac:(eassumption) Fk Em) as [A|(m & h & A & B & _ & C)]; eauto 8. }
  pose proof (segs_words _ _ _ _ Es) as Ew. rewrite Ew, Es. destruct G as [(h & Ac)|(m & h & Sf & Sh & Fl)].
  - left. eexists. exists (map words_of front), c, (words dn ++ w), h. auto.
  - right. exists (map words_of front), c, (words dn ++ w), h, m. split; [reflexivity|]. split; [exact (so_far_from _ _ _ _ _ Sf)|].
    split; [exact Sh|]. apply (lenient_fails _ _ _ _ _ (shortfall_mild _ _ _ _ Sh)) in Fl.
    rewrite <- left_at_last. exact (refuses_from (lenient_parser q) _ _ _ _ _ _ _ _ _ _ E L Fl).
Qed.
End Whole.
End Refused.
