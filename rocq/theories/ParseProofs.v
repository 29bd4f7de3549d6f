(** Properties of whole executions. *)
From Verif Require Import Base BaseProofs MStrings MOptIter MData MCounter MValues MParser
  STok SIndex SDef SValues SCounter SParser
  TokProofs IndexProofs DefProofs FinishProofs ValuesProofs CounterProofs CounterInv
  MonadProofs FrameProofs InvProofs NextProofs.
Open Scope nat_scope.

(** The states in which parse() may return. *)
Definition ended (cfg : settings) (top : cmd_data) (k : N) (st : pstate) : Prop :=
  failed cfg top st \/ succeeded cfg top k st \/
  exists o, stopped cfg top o st /\ (s_auto_exit cfg = true -> o_type o = OT_STOP).

Section Runs.
Variable cfg : settings.
Variable top : cmd_data.
Hypothesis P : prepared top.

Lemma ended_inv : forall k st, ended cfg top k st -> inv cfg top k st.
Proof.
  intros k st [F|[S0|(o & S0 & T)]]; [apply inv_failed|apply inv_succeeded|eapply inv_stopped];
    eassumption.
Qed.

Lemma inv_ended : forall k st, inv cfg top k st -> ~ in_progress (ps_mode st) -> ended cfg top k st.
Proof.
  intros k st [R Pr|F|Su|o So T] N0; [contradiction|left; exact F|right; left; exact Su|].
  right. right. eauto.
Qed.

Lemma ended_mode : forall k st, ended cfg top k st -> ~ in_progress (ps_mode st).
Proof.
  intros k st [F|[S0|(o & S0 & T)]] [E|E].
  - rewrite (fa_mode _ _ _ F) in E. discriminate.
  - rewrite (fa_mode _ _ _ F) in E. discriminate.
  - rewrite (su_mode _ _ _ _ S0) in E. discriminate.
  - rewrite (su_mode _ _ _ _ S0) in E. discriminate.
  - rewrite (sp_mode _ _ _ _ S0) in E. discriminate.
  - rewrite (sp_mode _ _ _ _ S0) in E. discriminate.
Qed.

(** The loop of parse(). *)
Lemma parse_loop_post : forall args fuel k st, reached cfg top args st k -> ps_mode st <> ST_ERROR ->
  post (fun _ st' => exists k', reached cfg top args st' k' /\ ended cfg top k' st')
    (ex_exit cfg) (cb_thrown cfg top) False True (parse_loop cfg fuel st).
Proof.
  intros args. induction fuel as [|fuel IH]; intros k st H Ne; [simpl; exact I|].
  cbn [parse_loop]. pose proof (reached_inv cfg top P args st k H) as V.
  pose proof (inv_next cfg top P k st V) as N1. unfold bind. destruct (next cfg st) as [r st'|c st'|e st'| |] eqn:E.
  - pose proof (reached_next cfg top args st k r st' H E) as H'.
    assert (V' : inv cfg top (count_after st k r st') st') by exact N1.
    assert (C : ir_code r = IC_ERROR \/ ir_code r = IC_DONE -> ended cfg top (count_after st k r st') st').
    { intros C. destruct V as [R Pr|F|Su|o So T].
      - pose proof (next_post cfg top P k st R Pr) as N2. rewrite E in N2. simpl in N2.
        unfold next_done in N2. apply inv_ended; [exact V'|]. intros Pm. destruct C as [C|C]; rewrite C in N2.
        + rewrite (fa_mode _ _ _ N2) in Pm. destruct Pm; discriminate.
        + destruct N2 as (N2 & _). rewrite (su_mode _ _ _ _ N2) in Pm. destruct Pm; discriminate.
      - destruct (Ne (fa_mode _ _ _ F)).
      - apply inv_ended; [exact V'|]. rewrite next_finished in E by apply Su. injection E as _ <-.
        rewrite (su_mode _ _ _ _ Su). intros [Z|Z]; discriminate.
      - apply inv_ended; [exact V'|]. rewrite next_finished in E by apply So. injection E as _ <-.
        rewrite (sp_mode _ _ _ _ So). intros [Z|Z]; discriminate. }
    assert (Ne' : ir_code r <> IC_ERROR -> ir_code r <> IC_DONE -> ps_mode st' <> ST_ERROR).
    { intros C1 C2. destruct V as [R Pr|F|Su|o So T].
      - pose proof (next_post cfg top P k st R Pr) as N2. rewrite E in N2. simpl in N2.
        unfold next_done in N2. destruct (ir_code r); try contradiction;
          (destruct N2 as [(_ & [X|X] & _)|[(X & _)|((o & X & _) & _)]];
           [rewrite X; discriminate|rewrite X; discriminate|
            rewrite (su_mode _ _ _ _ X); discriminate|rewrite (sp_mode _ _ _ _ X); discriminate]).
      - destruct (Ne (fa_mode _ _ _ F)).
      - rewrite next_finished in E by apply Su. injection E as _ <-. exact Ne.
      - rewrite next_finished in E by apply So. injection E as _ <-. exact Ne. }
    destruct (ir_code r) eqn:Ec;
      try (eapply IH; [exact H'|apply Ne'; congruence]);
      simpl; exists (count_after st k r st'); (split; [exact H'|apply C; auto]).
  - exact N1.
  - simpl in N1 |- *. destruct N1 as [(_ & F & ->)|N1]; [|exact N1].
    destruct (Ne (fa_mode _ _ _ F)).
  - exact N1.
  - destruct N1.
Qed.

Lemma run_parser_post : forall args fuel,
  post (fun _ st' => exists k', reached cfg top args st' k' /\ ended cfg top k' st')
    (ex_exit cfg) (cb_thrown cfg top) False True (run_parser cfg fuel top args).
Proof.
  intros args fuel. unfold run_parser.
  destruct (start_post cfg top args) as (st & E & R & M & _).
  unfold bind. rewrite E. eapply (parse_loop_post args fuel 0 st).
  - constructor. exact E.
  - rewrite M. discriminate.
Qed.

Lemma parsed_ended : forall args st, parsed cfg top args st ->
  exists k, reached cfg top args st k /\ ended cfg top k st.
Proof.
  intros args st (fuel & E). pose proof (run_parser_post args fuel) as H. rewrite E in H. exact H.
Qed.

(* ------------------------------------------------------------------------ *)
(** ** Termination *)

Lemma parse_loop_fuel_mono : forall fuel fuel' st, fuel <= fuel' ->
  parse_loop cfg fuel st <> NoFuel -> parse_loop cfg fuel' st = parse_loop cfg fuel st.
Proof.
  induction fuel as [|fuel IH]; intros fuel' st L H; [destruct (H eq_refl)|].
  destruct fuel' as [|fuel']; [lia|]. cbn [parse_loop] in *. unfold bind in *.
  destruct (next cfg st) as [r st'| | | |]; try reflexivity.
  destruct (ir_code r); try reflexivity; apply IH; [lia|exact H|lia|exact H|lia|exact H|lia|exact H].
Qed.

Lemma run_fuel_mono : forall fuel fuel' args, fuel <= fuel' ->
  run_parser cfg fuel top args <> NoFuel ->
  run_parser cfg fuel' top args = run_parser cfg fuel top args.
Proof.
  intros fuel fuel' args L H. unfold run_parser in *. unfold bind in *.
  destruct (start_counter cfg _); try reflexivity. apply parse_loop_fuel_mono; assumption.
Qed.

Lemma not_error_ended_total : forall fuel st, 0 < fuel -> ps_mode st = ST_DONE ->
  parse_loop cfg fuel st <> NoFuel.
Proof.
  intros [|fuel] st L M; [lia|]. cbn [parse_loop]. unfold bind. rewrite next_finished by exact M.
  simpl. discriminate.
Qed.

(** A bound when callbacks insert nothing from now on. *)
Lemma parse_loop_quiet : forall fuel k st, running cfg top k st -> in_progress (ps_mode st) ->
  quiet_from cfg top (ps_calls st) -> S (meas (ps_iter st)) < fuel ->
  parse_loop cfg fuel st <> NoFuel.
Proof.
  induction fuel as [|fuel IH]; intros k st R Pr Q L; [lia|]. cbn [parse_loop]. unfold bind.
  pose proof (next_post cfg top P k st R Pr) as N1.
  destruct (next cfg st) as [r st'|c st'|e st'| |]; try discriminate.
  2:{ destruct N1. }
  simpl in N1. unfold next_done in N1.
  assert (G : (running cfg top (count_after st k r st') st' /\ in_progress (ps_mode st') /\
      progress cfg top st st') \/
     (succeeded cfg top (count_after st k r st') st' /\ ir_code r = IC_OPTION) \/
     ((exists o, stopped cfg top o st' /\ ir_item r = ItOption o /\
        (s_auto_exit cfg = true -> o_type o = OT_STOP)) /\ ir_code r = IC_OPTION) ->
     parse_loop cfg fuel st' <> NoFuel).
  { intros [(R' & Pr' & (C' & Pg'))|[(S' & _)|((o & S' & _) & _)]].
    - assert (M' : meas (ps_iter st') < meas (ps_iter st)) by (apply Pg'; right; exact Q).
      eapply IH; [exact R'|exact Pr'| |lia]. eapply quiet_from_le; [|exact Q]. exact C'.
    - apply not_error_ended_total; [lia|]. apply S'.
    - apply not_error_ended_total; [lia|]. apply S'. }
  destruct (ir_code r); try discriminate; apply G; exact N1.
Qed.

Lemma start_meas : forall args, meas (make_option_iterator (s_style cfg) args) = args_size args.
Proof. intros args. unfold make_option_iterator. destruct (s_style cfg); reflexivity. Qed.

Lemma run_quiet : forall fuel args, no_insertions cfg top -> S (args_size args) < fuel ->
  run_parser cfg fuel top args <> NoFuel.
Proof.
  intros fuel args Q L. unfold run_parser.
  destruct (start_post cfg top args) as (st & E & R & M & I & K & _).
  unfold bind. rewrite E. eapply parse_loop_quiet; [exact R|left; exact M| |].
  - intros f Hf m v vs _. apply Q. exact Hf.
  - rewrite I, start_meas. exact L.
Qed.

(** Callbacks that insert nothing after the K'th invocation. *)
Lemma parse_loop_eventually : forall K, quiet_from cfg top K ->
  forall d m k st, running cfg top k st -> in_progress (ps_mode st) ->
  K - ps_calls st <= d -> meas (ps_iter st) <= m ->
  exists fuel, parse_loop cfg fuel st <> NoFuel.
Proof.
  intros K Q. induction d as [|d IHd].
  { intros m k st R Pr Ld Lm. exists (S (S (S (meas (ps_iter st))))).
    eapply parse_loop_quiet; [exact R|exact Pr| |lia]. eapply quiet_from_le; [|exact Q]. lia. }
  induction m as [m IHm] using lt_wf_ind. intros k st R Pr Ld Lm.
  pose proof (next_post cfg top P k st R Pr) as N1.
  assert (G : forall r st', next cfg st = Ret r st' ->
     (exists fuel, parse_loop cfg fuel st' <> NoFuel) ->
     exists fuel, parse_loop cfg fuel st <> NoFuel).
  { intros r st' E (fuel & H). exists (S fuel). cbn [parse_loop]. unfold bind. rewrite E.
    destruct (ir_code r); try discriminate; exact H. }
  destruct (next cfg st) as [r st'|c st'|e st'| |] eqn:E;
    try (exists 1; cbn [parse_loop]; unfold bind; rewrite E; discriminate).
  2:{ destruct N1. }
  destruct (ir_code r) eqn:Ec; simpl in N1; unfold next_done in N1; rewrite Ec in N1;
    try (exists 1; cbn [parse_loop]; unfold bind; rewrite E, Ec; discriminate);
    (eapply G; [reflexivity|];
     destruct N1 as [(R' & Pr' & (C' & Pg'))|[(S' & _)|((o & S' & _) & _)]];
     [|exists 1; apply not_error_ended_total; [lia|apply S']..];
     destruct (Nat.eq_dec (ps_calls st') (ps_calls st)) as [Eq|Nq];
     [assert (M' : meas (ps_iter st') < meas (ps_iter st)) by (apply Pg'; left; exact Eq);
      eapply (IHm (meas (ps_iter st'))); [lia|exact R'|exact Pr'|lia|lia]
     |eapply (IHd (meas (ps_iter st'))); [exact R'|exact Pr'|lia|lia]]).
Qed.

Lemma run_eventually : forall K args, quiet_from cfg top K ->
  exists fuel, run_parser cfg fuel top args <> NoFuel.
Proof.
  intros K args Q. destruct (start_post cfg top args) as (st & E & R & M & _).
  destruct (parse_loop_eventually K Q (K - ps_calls st) (meas (ps_iter st)) 0 st R (or_introl M)
              (le_n _) (le_n _)) as (fuel & H).
  exists fuel. unfold run_parser, bind. rewrite E. exact H.
Qed.

(* ------------------------------------------------------------------------ *)
(** ** Results *)

Lemma toplevel_pop : forall parents cur, exists l parents',
  last (cur :: parents) cur = l /\
  fst (pop_levels (length parents) cur parents) = parents' /\
  l_command parents' = l_command l /\ l_result parents' = l_result l /\
  l_stop parents' = l_stop l /\ l_values parents' = l_values l.
Proof.
  induction parents as [|p r IH]; intros cur.
  - simpl. do 2 eexists. repeat (split; [reflexivity|]). reflexivity.
  - destruct (IH (add_sub p cur)) as (l & l' & E1 & E2 & E3 & E4 & E5 & E6).
    simpl length. simpl pop_levels. exists (last (p :: r) cur), l'.
    split; [destruct r; reflexivity|]. split; [exact E2|].
    destruct r as [|q r].
    + simpl in E1. subst l. simpl in *. auto.
    + assert (last (p :: q :: r) cur = l).
      { rewrite <- E1. simpl. clear. revert q. induction r as [|x r IH]; intros q; [reflexivity|]. apply IH. }
      rewrite H. auto.
Qed.

(** The top-level result is that of the outermost open level. *)
Lemma toplevel_of : forall st, exists l, In l (open_levels st) /\
  l_command (toplevel st) = l_command l /\ l_result (toplevel st) = l_result l /\
  l_stop (toplevel st) = l_stop l /\ l_values (toplevel st) = l_values l.
Proof.
  intros st. destruct (toplevel_pop (ps_parents st) (ps_cur st)) as (l & t & E1 & E2 & E3).
  exists l. unfold toplevel. rewrite E2. split; [|exact E3].
  rewrite <- E1. unfold open_levels. clear. generalize (ps_cur st) at 2.
  generalize (ps_cur st). induction (ps_parents st) as [|p r IH]; intros c d.
  - left. reflexivity.
  - right. apply IH.
Qed.

Lemma failed_reported : forall st, failed cfg top st -> reported_error st.
Proof.
  intros st F. destruct (fa_events _ _ _ F) as (evs & m & E & _). do 2 eexists. rewrite E.
  apply in_or_app. right. left. reflexivity.
Qed.

Lemma no_trouble_no_error : forall evs, no_trouble evs -> forall c m, ~ In (EvError c m) evs.
Proof. intros evs N0 c m H. apply N0 in H. simpl in H. destruct H. discriminate. Qed.

Lemma succeeded_unreported : forall k st, succeeded cfg top k st -> ~ reported_error st.
Proof.
  intros k st S0 (c & m & H). exact (no_trouble_no_error _ (su_events _ _ _ _ S0) c m H).
Qed.

Lemma stopped_unreported : forall o st, stopped cfg top o st -> ~ reported_error st.
Proof.
  intros o st S0 (c & m & H). destruct (sp_events _ _ _ _ S0) as [(_ & N0)|(_ & evs & E & N0)].
  - exact (no_trouble_no_error _ N0 c m H).
  - rewrite E in H. apply in_app_or in H. destruct H as [H|[H|[]]]; [|discriminate].
    exact (no_trouble_no_error _ N0 c m H).
Qed.

Lemma result_code_proof : forall args st, parsed cfg top args st ->
  (l_result (ps_cur st) = RC_FAILURE <-> reported_error st) /\
  (l_result (ps_cur st) <> RC_NONE) /\
  (forall l, In l (open_levels st) ->
     l_result (ps_cur st) = RC_SUCCESS \/ l_result (ps_cur st) = RC_FAILURE ->
     l_result l = l_result (ps_cur st)) /\
  (l_result (ps_cur st) = RC_STOP <-> exists o, l_stop (ps_cur st) = Some o) /\
  (l_result (toplevel st) = RC_FAILURE <-> reported_error st).
Proof.
  intros args st H. apply parsed_ended in H. destruct H as (k & _ & V).
  destruct (toplevel_of st) as (t & It & _ & -> & _).
  destruct V as [F|[S0|(o & S0 & _)]].
  - pose proof (fa_codes _ _ _ F) as C. destruct (C (ps_cur st) (or_introl eq_refl)) as (C1 & C2).
    pose proof (failed_reported _ F) as Rp.
    rewrite C1, C2. split; [tauto|]. split; [discriminate|]. split; [intros l Hl _; apply C; exact Hl|].
    split; [split; [discriminate|intros (o & Z); discriminate]|]. destruct (C t It) as (-> & _). tauto.
  - pose proof (su_codes _ _ _ _ S0) as C. destruct (C (ps_cur st) (or_introl eq_refl)) as (C1 & C2).
    pose proof (succeeded_unreported _ _ S0) as Rp.
    rewrite C1, C2. split; [split; [discriminate|contradiction]|]. split; [discriminate|].
    split; [intros l Hl _; apply C; exact Hl|].
    split; [split; [discriminate|intros (o & Z); discriminate]|]. destruct (C t It) as (-> & _).
    split; [discriminate|contradiction].
  - pose proof (stopped_unreported _ _ S0) as Rp. rewrite (sp_code _ _ _ _ S0), (sp_option _ _ _ _ S0).
    split; [split; [discriminate|contradiction]|]. split; [discriminate|].
    split; [intros l _ [Z|Z]; discriminate|]. split; [split; [eauto|reflexivity]|].
    split; [|contradiction]. intros Z.
    pose proof (sp_parents _ _ _ _ S0) as Pa. rewrite Forall_forall in Pa.
    destruct It as [<-|It]; [rewrite (sp_code _ _ _ _ S0) in Z; discriminate|].
    destruct (Pa t It) as (_ & [W|W]); rewrite W in Z; discriminate.
Qed.

Lemma success_proof : forall args st k, parsed cfg top args st -> reached cfg top args st k ->
  l_result (ps_cur st) = RC_SUCCESS ->
  ps_command st = l_command (ps_cur st) /\ succeeded cfg top k st.
Proof.
  intros args st k H Rk E. apply parsed_ended in H. destruct H as (k' & _ & V).
  pose proof (reached_inv cfg top P args st k Rk) as Vk.
  assert (S0 : succeeded cfg top k st).
  { apply ended_mode in V. apply inv_ended in Vk; [|exact V].
    destruct Vk as [F|[S0|(o & S0 & _)]].
    - destruct (fa_codes _ _ _ F (ps_cur st) (or_introl eq_refl)). congruence.
    - exact S0.
    - rewrite (sp_code _ _ _ _ S0) in E. discriminate. }
  split; [|exact S0]. apply (sh_command _ _ _ (su_shape _ _ _ _ S0)).
Qed.

Lemma mandatory_proof : forall args st o, parsed cfg top args st ->
  l_result (ps_cur st) = RC_SUCCESS -> In o (c_options (l_command (ps_cur st))) ->
  o_optional o = false -> exists v aid, In (o_value_id o, (v, aid)) (l_values (ps_cur st)).
Proof.
  intros args st o H E I Op. destruct (parsed_ended _ _ H) as (k & Rk & _).
  destruct (success_proof _ _ _ H Rk E) as (Ec & S0). rewrite <- Ec in I.
  pose proof (su_mandatory _ _ _ _ S0 o I Op) as Hv. unfold has_value in Hv.
  apply existsb_exists in Hv. destruct Hv as ((vid & (v & aid)) & Hin & Heq).
  apply N.eqb_eq in Heq. simpl in Heq. subst vid. eauto.
Qed.

Lemma counts_proof : forall args st n, sound top -> parsed cfg top args st ->
  reached cfg top args st n -> l_result (ps_cur st) = RC_SUCCESS ->
  (minima (c_arguments (l_command (ps_cur st))) <= n <= maxima (c_arguments (l_command (ps_cur st))))%N /\
  (c_require (l_command (ps_cur st)) = Some true -> l_subs (ps_cur st) <> []).
Proof.
  intros args st n Sd H Rk E. destruct (success_proof _ _ _ H Rk E) as (Ec & S0). rewrite <- Ec.
  split.
  - eapply counter_ok_complete; [apply (su_counter _ _ _ _ S0 Sd)|apply (su_complete _ _ _ _ S0)].
  - apply (su_subs _ _ _ _ S0).
Qed.

(** Levels of the complete result. *)
Lemma toplevel_levels : forall parents cur, chain top cur parents ->
  (forall x, in_result cur x -> level_ok x) -> Forall open_ok parents ->
  forall x, in_result (fst (pop_levels (length parents) cur parents)) x -> level_ok x.
Proof.
  induction parents as [|p r IH]; intros cur Ch Hc Fo x Hx; [apply Hc; exact Hx|].
  simpl in Hx. inversion Fo as [|? ? Op Fo']; subst. destruct Ch as (I & Ch).
  eapply IH; [|clear x Hx; intros y Hy|exact Fo'|exact Hx].
  - eapply chain_command; [|exact Ch]. reflexivity.
  - destruct Op as ((D & L & V) & S0 & M). apply in_result_inv in Hy.
    destruct Hy as [->|(s & Is & Iy)].
    + split; [|split].
      * simpl. intros s Is. apply in_app_or in Is. destruct Is as [Is|[<-|[]]]; [apply D; exact Is|exact I].
      * simpl. destruct M as [M|M]; [rewrite M; left; simpl; lia|right; exact M].
      * exact V.
    + simpl in Is. apply in_app_or in Is. destruct Is as [Is|[<-|[]]]; [|apply Hc; exact Iy].
      destruct (S0 s Is y Iy). assumption.
Qed.

Lemma inv_shape : forall k st, inv cfg top k st -> shape cfg top st.
Proof.
  intros k st [R _|F|Su|o So _]; [apply R|apply F|apply Su|apply So].
Qed.

Lemma subcommands_proof : forall args st n x, reached cfg top args st n ->
  in_result (toplevel st) x ->
  (forall s, In s (l_subs x) -> In (l_command s) (c_commands (l_command x))) /\
  (length (l_subs x) <= 1 \/ c_multi (l_command x) = true).
Proof.
  intros args st n x H Hx. apply (reached_inv cfg top P) in H. apply inv_shape in H.
  destruct H as [A1 A2 A3 A4 A5 A6]. unfold open_levels in A3. inversion A3 as [|? ? O1 O2]; subst.
  assert (L : level_ok x).
  { eapply toplevel_levels; [exact A2| |exact O2|exact Hx].
    intros y Hy. apply in_result_inv in Hy. destruct Hy as [->|(s & Is & Iy)]; [apply O1|].
    destruct O1 as (_ & S0 & _). destruct (S0 s Is y Iy). assumption. }
  split; apply L.
Qed.

(* ------------------------------------------------------------------------ *)
(** ** Ends *)

Lemma exits_proof : forall fuel args c st, run_parser cfg fuel top args = Exits c st ->
  s_auto_exit cfg = true /\
  ((c = s_error_exit cfg /\ reported_error st) \/
   (c = s_normal_exit cfg /\ ~ reported_error st /\
    exists o, l_stop (ps_cur st) = Some o /\ In o (c_options (ps_command st)) /\
      (o_type o = OT_HELP \/ o_type o = OT_EXIT))).
Proof.
  intros fuel args c st E. pose proof (run_parser_post args fuel) as H. rewrite E in H.
  destruct H as (A & [(-> & evs & m & Ev & _)|(H1 & H2 & o & H3 & H4 & H5 & _)]); (split; [exact A|]); [left|right; eauto 8].
  split; [reflexivity|]. do 2 eexists. rewrite Ev. apply in_or_app. right. left. reflexivity.
Qed.

Lemma auto_exit_returns : forall args st, s_auto_exit cfg = true -> parsed cfg top args st ->
  ~ reported_error st /\ l_result (ps_cur st) <> RC_FAILURE /\
  l_result (toplevel st) <> RC_FAILURE /\
  forall o, l_stop (ps_cur st) = Some o -> o_type o = OT_STOP.
Proof.
  intros args st A H. destruct (parsed_ended _ _ H) as (k & _ & V).
  destruct (result_code_proof _ _ H) as (R1 & _ & _ & _ & R2).
  assert (N0 : ~ reported_error st /\ forall o, l_stop (ps_cur st) = Some o -> o_type o = OT_STOP).
  { destruct V as [F|[S0|(o & S0 & T)]].
    - rewrite (fa_auto _ _ _ F) in A. discriminate.
    - split; [eapply succeeded_unreported; exact S0|].
      destruct (su_codes _ _ _ _ S0 (ps_cur st) (or_introl eq_refl)) as (_ & ->). discriminate.
    - split; [eapply stopped_unreported; exact S0|]. rewrite (sp_option _ _ _ _ S0).
      intros o' Eo. injection Eo as <-. apply T. exact A. }
  destruct N0 as (N0 & N1). rewrite R1, R2. auto.
Qed.

Lemma safety_proof : forall fuel args,
  match run_parser cfg fuel top args with
  | Undefined => False
  | Throws e st => (exists f, callback_of cfg top f) /\
                   ((e = EParseError /\ s_auto_exit cfg = false /\ reported_error st) \/
                    e = ECallback \/ exists name, e = EUnknownValue name)
  | _ => True
  end.
Proof.
  intros fuel args. pose proof (run_parser_post args fuel) as H.
  destruct (run_parser cfg fuel top args); simpl in H; auto.
  destruct H as ([(E & A & evs & m & Ev & _)|(H & _)] & C); (split; [exact C|]); [left|auto].
  split; [exact E|]. split; [exact A|]. do 2 eexists. rewrite Ev. apply in_or_app. right. left. reflexivity.
Qed.

Lemma final_done_proof : forall args st n r st', reached cfg top args st n ->
  next cfg st = Ret r st' ->
  (ir_code r = IC_DONE -> next cfg st' = Ret r st') /\
  (ir_code r = IC_ERROR -> next cfg st' = Throws ENextAfterError st').
Proof.
  intros args st n r st' H E. pose proof (reached_inv cfg top P args st n H) as V.
  destruct V as [R Pr|F|Su|o So T].
  - pose proof (next_post cfg top P n st R Pr) as N1. rewrite E in N1. simpl in N1.
    unfold next_done in N1. split; intros C; rewrite C in N1.
    + destruct N1 as (N1 & _ & ->). apply next_finished. apply N1.
    + apply next_failed. apply N1.
  - rewrite next_failed in E by apply F. discriminate.
  - rewrite next_finished in E by apply Su. injection E as <- <-. split; [|discriminate].
    intros _. apply next_finished. apply Su.
  - rewrite next_finished in E by apply So. injection E as <- <-. split; [|discriminate].
    intros _. apply next_finished. apply So.
Qed.
End Runs.
