(** Arguments that no argument of the command can take (C89). *)
From Verif Require Import Base BaseProofs MStrings MOptIter MData MCounter MValues MParser
  SStrings STok SIndex SDef SValues SCounter SParser SStep SLook SEquiv SApi SLine SIgnore SSurplus
  StrProofs TokProofs IndexProofs DefProofs FinishProofs ValuesProofs CounterProofs CounterInv
  MonadProofs FrameProofs InvProofs NextProofs ParseProofs StepProofs StepProofs2
  SimProofs3 EquivProofs LookProofs AcceptProofs ItemProofs LineProofs.
Open Scope nat_scope.

(* ------------------------------------------------------------------------ *)
(** ** The counter *)

Lemma next_in_range : forall ac, ac_first_optional ac <= length (ac_counters ac) ->
  ac_first_optional (snd (next_argument ac)) <= length (ac_counters (snd (next_argument ac))).
Proof.
  intros ac L. unfold next_argument. destruct (nth_error _ _) as [(k, a)|]; cbn; [|exact L].
  rewrite <- (map_length snd), decrement_args, map_length. exact L.
Qed.
Lemma calls_in_range : forall n ac, ac_first_optional ac <= length (ac_counters ac) ->
  ac_first_optional (snd (calls n ac)) <= length (ac_counters (snd (calls n ac))).
Proof.
  induction n as [|n IH]; intros ac L; [exact L|]. cbn [calls]. pose proof (next_in_range ac L) as L1.
  destruct (next_argument ac) as (a, ac1). specialize (IH ac1 L1). destruct (calls n ac1). exact IH.
Qed.

(** A counter from which nothing more can be had. *)
Definition spent (ac : arg_counter) : Prop := next_argument ac = (None, ac) /\ is_complete ac = true.

Lemma next_spent : forall ac ac', ac_first_optional ac <= length (ac_counters ac) ->
  next_argument ac = (None, ac') -> spent ac'.
Proof.
  intros ac ac' L E. unfold next_argument in E.
  destruct (nth_error (ac_counters ac) _) as [(k, a)|] eqn:En; [discriminate|]. injection E as <-.
  set (i := skip_empty _ _) in *. assert (Li : length (ac_counters ac) <= i) by (apply nth_error_None; exact En).
  split.
  - unfold next_argument. cbn [ac_index ac_counters ac_counter ac_first_optional]. rewrite skipn_all2 by exact Li. cbn [skip_empty].
    rewrite En. reflexivity.
  - unfold is_complete. cbn [ac_index ac_counters ac_counter ac_first_optional].
    replace (ac_first_optional ac <=? i) with true by (symmetry; apply Nat.leb_le; lia). reflexivity.
Qed.

Lemma counted_full : forall args n, proper args -> (maxima args < 2 ^ 64)%N ->
  sum (map fst (make_counters_n args n)) = maxima args ->
  fair args (maxima args) (map fst (make_counters_n args n)).
Proof.
  intros args n Pr Mx. unfold make_counters_n. rewrite min_max_proof.
  pose proof (minima_le_maxima args (fun x Hx => proj1 (Pr x Hx))) as Le.
  assert (G : forall m, (m <= maxima args - minima args)%N -> sum (map fst (distribute args m)) = maxima args ->
    fair args (maxima args) (map fst (distribute args m))).
  { intros m L E. pose proof (distribute_fair args m Pr L) as F. assert (X : (minima args + m = maxima args)%N).
    { destruct F as (_ & S0 & _). congruence. }
    rewrite X in F. exact F. }
  apply G. destruct (N.ltb_spec n (minima args)); [lia|].
  destruct (N.ltb_spec (N.min (2 ^ 64 - 1) (maxima args)) n); lia.
Qed.

(* ------------------------------------------------------------------------ *)
(** ** The settings *)

Lemma lenient_start : forall cfg, start_counter (lenient cfg) = start_counter cfg.
Proof. intros []. reflexivity. Qed.
Lemma lenient_option : forall cfg, process_option (lenient cfg) = process_option cfg.
Proof. intros []. reflexivity. Qed.
Lemma lenient_initial : forall cfg, initial_state (lenient cfg) = initial_state cfg.
Proof. intros []. reflexivity. Qed.
Lemma lenient_counts : forall cfg, check_counts (lenient cfg) = check_counts cfg.
Proof. intros []. reflexivity. Qed.
Lemma lenient_command : forall cfg, process_command (lenient cfg) = process_command cfg.
Proof. intros []. reflexivity. Qed.

Lemma lenient_argument : forall cfg v st, process_argument (lenient cfg) v st = process_argument cfg v st \/
  exists s1, process_argument cfg v st = (error cfg (MsgTooManyArguments v) ;;; ret (mk_ir IC_ERROR ItNone [])) s1.
Proof.
  intros cfg v st. unfold process_argument. rewrite !bind_gets.
  change (find_sibling_command (lenient cfg)) with (find_sibling_command cfg).
  destruct (find_sibling_command cfg st v) as [(c, k)|]; [left; rewrite lenient_command; reflexivity|].
  assert (Nx : forall B (f : option arg_data -> M B), bind m_next_argument f st =
    f (fst (next_argument (ps_counter st))) (set_counter st (snd (next_argument (ps_counter st))))).
  { intros B f. unfold bind, m_next_argument. destruct (next_argument (ps_counter st)). reflexivity. }
  rewrite !Nx. destruct (next_argument (ps_counter st)) as ([a|], ac); cbn [fst snd].
  - left. destruct cfg. reflexivity.
  - cbn [s_ignore_arguments lenient]. destruct (s_ignore_arguments cfg); [left; reflexivity|]. right. eexists. reflexivity.
Qed.

Lemma lenient_next : forall cfg st, next (lenient cfg) st = next cfg st \/
  exists v s1, next cfg st = (error cfg (MsgTooManyArguments v) ;;; ret (mk_ir IC_ERROR ItNone [])) s1.
Proof.
  intros cfg st. unfold next. rewrite !bind_gets.
  assert (G : forall mode (m : M (option str)),
    bind m (fun t => match t with
      | None => ok <- check_counts (lenient cfg) ;; ret (mk_ir (if (ok : bool) then IC_DONE else IC_ERROR) ItNone [])
      | Some arg => process_token (lenient cfg) mode arg end) st =
    bind m (fun t => match t with
      | None => ok <- check_counts cfg ;; ret (mk_ir (if (ok : bool) then IC_DONE else IC_ERROR) ItNone [])
      | Some arg => process_token cfg mode arg end) st \/
    exists v s1, bind m (fun t => match t with
      | None => ok <- check_counts cfg ;; ret (mk_ir (if (ok : bool) then IC_DONE else IC_ERROR) ItNone [])
      | Some arg => process_token cfg mode arg end) st = (error cfg (MsgTooManyArguments v) ;;; ret (mk_ir IC_ERROR ItNone [])) s1).
  { intros mode m.
    assert (Bx : forall B (f : option str -> M B), bind m f st =
      match m st with Ret a s => f a s | Exits c s => Exits c s | Throws e s => Throws e s | Undefined => Undefined | NoFuel => NoFuel end)
      by reflexivity.
    rewrite !Bx. destruct (m st) as [[t|] s| | | |]; try (left; reflexivity).
    unfold process_token. rewrite !bind_gets, lenient_option, lenient_command.
    change (s_style (lenient cfg)) with (s_style cfg). change (s_case_insensitive (lenient cfg)) with (s_case_insensitive cfg).
    destruct (match mode with ARGUMENTS_AND_OPTIONS => true | _ => false end && is_option t (s_style cfg)); [left; reflexivity|].
    destruct (is_empty (c_commands (ps_command s))).
    - destruct (lenient_argument cfg t s) as [X|(s1 & X)]; [left; exact X|right; eauto].
    - left. destruct cfg. reflexivity. }
  destruct (ps_mode st); try (left; reflexivity); apply G.
Qed.

Lemma error_noted : forall cfg m s (r : iter_result) s', (error cfg m ;;; ret r) s = Ret r s' ->
  exists c, In (EvError c m) (ps_events s').
Proof.
  intros cfg m s r s' E. exists (ps_command s). unfold error in E. rewrite bind_assoc, bind_gets, bind_assoc in E.
  unfold bind at 1, emit, modify in E. destruct (s_auto_exit cfg); [discriminate|].
  rewrite bind_assoc in E. unfold bind at 1, copy_remaining in E.
  destruct (it_remaining _) as [(l, it)|]; [|discriminate]. rewrite bind_assoc in E. unfold modify, bind, ret in E. injection E as <-.
  cbn. apply in_or_app. right. left. reflexivity.
Qed.

Lemma lenient_step : forall cfg st r st', next cfg st = Ret r st' -> ir_code r <> IC_ERROR ->
  next (lenient cfg) st = Ret r st'.
Proof.
  intros cfg st r st' E N0. destruct (lenient_next cfg st) as [->|(v & s1 & X)]; [exact E|]. exfalso.
  rewrite X in E. unfold bind in E. destruct (error cfg _ s1); try discriminate E. unfold ret in E. injection E as <- <-. apply N0. reflexivity.
Qed.

Lemma lenient_quiet : forall cfg k st st', parse_loop cfg k st = Ret tt st' -> Forall quiet (ps_events st') ->
  parse_loop (lenient cfg) k st = Ret tt st'.
Proof.
  intros cfg. induction k as [|k IH]; intros st st' E Q; [discriminate|]. cbn [parse_loop] in E |- *. unfold bind in E |- *.
  destruct (lenient_next cfg st) as [->|(v & s1 & X)].
  - destruct (next cfg st) as [r s| | | |]; try discriminate E. destruct (ir_code r); try exact E; apply IH; assumption.
  - exfalso. rewrite X in E. destruct ((error cfg (MsgTooManyArguments v);;; ret (mk_ir IC_ERROR ItNone [])) s1) as [r s| | | |] eqn:Er; try discriminate E.
    assert (r = mk_ir IC_ERROR ItNone []) as ->.
    { unfold bind in Er. destruct (error cfg _ s1); try discriminate Er. unfold ret in Er. congruence. }
    cbn in E. unfold ret in E. injection E as <-. destruct (error_noted _ _ _ _ _ Er) as (c & Ic).
    rewrite Forall_forall in Q. exact (Q _ Ic).
Qed.

Lemma lenient_finish_command : forall st c full i a, finish_command (lenient st) full i a c = finish_command st full i a c.
Proof.
  intros st. induction c as [c IH] using cmd_nested_ind. intros full i a. rewrite !finish_command_eq.
  change (s_style (lenient st)) with (s_style st). change (s_case_insensitive (lenient st)) with (s_case_insensitive st).
  destruct (validate_all (s_style st) (c_options c)) as [opts1|e]; [|reflexivity].
  destruct (update_require (c_require c) (c_commands c)) as [rq'|e]; [|reflexivity]. cbv zeta.
  change (add_help_option opts1 (c_current_section c) (lenient st)) with (add_help_option opts1 (c_current_section c) st).
  destruct (set_internal_ids _ _ _ _) as (((args' & opts') & vid') & aid').
  destruct (build_option_index _ _) as [index|e]; [|reflexivity].
  assert (G : finish_subs (lenient st) (c_name c) vid' aid' (c_commands c) = finish_subs st (c_name c) vid' aid' (c_commands c)).
  { induction IH as [|d l Hd Hl IHl]; [reflexivity|]. cbn [finish_subs]. rewrite Hd, IHl. reflexivity. }
  rewrite G. reflexivity.
Qed.

Lemma lenient_finish : forall p q, finish_parser p = Val q -> finish_parser (lenient_parser p) = Val (lenient_parser q).
Proof.
  intros p q E. unfold finish_parser in E |- *. cbn [d_command d_settings d_version d_line_width d_word_rules lenient_parser].
  change (add_version_option (c_options (d_command p)) (c_current_section (d_command p)) (c_name (d_command p)) (d_version p) (lenient (d_settings p)))
    with (add_version_option (c_options (d_command p)) (c_current_section (d_command p)) (c_name (d_command p)) (d_version p) (d_settings p)).
  cbv zeta in E |- *. rewrite lenient_finish_command. destruct (finish_command _ _ _ _ _) as [c2|e]; [|discriminate].
  injection E as <-. reflexivity.
Qed.

Section Surplus.
Variables (p q : parser_data).
Hypothesis H : finish_parser p = Val q.
Let cfg := d_settings q.
Let top := d_command q.
Hypothesis Sd : sound top.
Hypothesis Hn : no_insertions cfg top.
Hypothesis Hi : no_interference cfg top.
Hypothesis Ig : s_ignore_arguments cfg = false.
Hypothesis One : one_at_a_time top.

(** When the command has received all that it can take. *)
Lemma full_distributed : forall args st rs st', entered cfg top args st -> proceeds cfg st rs st' ->
  Forall (foreseeable cfg (ps_command st)) rs ->
  let defs := c_arguments (ps_command st) in
  N.of_nat (length (received rs)) = maxima defs ->
  (exists ks, fair defs (maxima defs) ks /\ received rs = order (combine ks defs)) /\
  exists ac, next_argument (ps_counter st') = (None, ac) /\ spent ac.
Proof.
  intros args st rs st' En Pc Fs defs Em.
  destruct (exhausted p q H Sd Hn Ig args st rs st' En Pc Fs Em) as (ac & Na).
  destruct (counters_full p q H Sd Hn Ig args st rs st' En Pc Fs) as (St & Pm & _ & Wi & Cs). fold defs in Cs.
  destruct (Sd _ Wi) as (Pr & Mx & _). fold defs in Pr, Mx. split.
  - destruct Cs as [(Rq & _ & El)|(Rq & Cm & n & s0 & Ec0 & Ep0 & Cp & Ec & Lj & Ah & El)].
    + assert (D : distributed defs (received rs)).
      { apply (plain_distributed defs (received rs) (left_over (ps_counter st')) Pr).
        - apply requires_count_false. exact Rq.
        - rewrite <- El. unfold left_over, plain_counter. simpl. symmetry. apply make_counters_order.
          intros a Ha. apply Pr in Ha. lia. }
      rewrite <- Em. apply D. rewrite Em. apply minima_le_maxima. intros a Ha. apply Pr in Ha. lia.
    + rewrite counted_left in El. simpl in El.
      assert (Ls : N.of_nat (length (order (make_counters_n defs n))) = sum (map fst (make_counters_n defs n)))
        by (rewrite order_length; reflexivity).
      destruct (counted_sum defs n Pr) as ((_ & Le) & _).
      assert (Lr : length (order (make_counters_n defs n)) = length (received rs) + length (left_over (ps_counter st')))
        by (rewrite El, app_length; reflexivity).
      assert (Es : sum (map fst (make_counters_n defs n)) = maxima defs) by lia.
      assert (Lo : length (left_over (ps_counter st')) = 0) by lia.
      apply length_zero_iff_nil in Lo. rewrite Lo, app_nil_r in El. eexists. split; [exact (counted_full defs n Pr Mx Es)|].
      rewrite <- El. f_equal. rewrite <- (pairs_split (make_counters_n defs n)) at 1. rewrite counted_args. reflexivity.
  - exists ac. split; [exact Na|]. apply (next_spent _ _) in Na; [exact Na|].
    destruct Cs as [(_ & E & _)|(_ & _ & n & s0 & _ & _ & _ & E & _)]; rewrite E; apply calls_in_range.
    + apply plain_in_range.
    + unfold counted_counter. cbn. apply le_n.
Qed.

(* ------------------------------------------------------------------------ *)
(** ** Up to the first argument that is too much *)

Definition lwalked (args : list str) (us : list (list str)) (init : list change) (outer : list (cmd_data * list change))
  (segs : list (cmd_data * list item)) (e : ending) (st : pstate) : Prop :=
  exists n front c done is only pl st0 rs st', segs = front ++ [(c, done ++ is)] /\
    LineProofs.line_inv q args (ignored done :: rev (lefts front) ++ us) (begin init (map words_of front))
      (rev (passed init (map words_of front)) ++ outer) c (words done) only pl st0 rs st' /\
    (forall k, parse_loop (lenient cfg) (n + k) st = parse_loop (lenient cfg) k st') /\
    (forall m, reached (lenient cfg) top args st m -> exists m', reached (lenient cfg) top args st' m') /\
    (N.of_nat (length (positionals (words done))) <= maxima (c_arguments c))%N /\
    ((exists ws, is = map Read ws /\ LineProofs.halt q only c pl ws e) \/ LineProofs.surplus q only c done pl is e).

Local Notation line_inv := (LineProofs.line_inv q).
Local Notation halt := (LineProofs.halt q).
Local Notation surplus := (LineProofs.surplus q).
Local Notation item_fits := (LineProofs.item_fits q).

Lemma lwalked_here : forall args us init outer c done is only pl st0 rs st e,
  line_inv args (ignored done :: us) init outer c (words done) only pl st0 rs st ->
  (N.of_nat (length (positionals (words done))) <= maxima (c_arguments c))%N ->
  ((exists ws, is = map Read ws /\ halt only c pl ws e) \/ surplus only c done pl is e) ->
  lwalked args us init outer [(c, done ++ is)] e st.
Proof.
  intros args us init outer c done is only pl st0 rs st e I0 L X.
  exists 0, [], c, done, is, only, pl, st0, rs, st. split; [reflexivity|]. split; [exact I0|]. eauto 10.
Qed.

Lemma lwalked_more : forall args us init outer segs e st st' r,
  lwalked args us init outer segs e st' -> next cfg st = Ret r st' -> ir_code r <> IC_ERROR -> ir_code r <> IC_DONE ->
  lwalked args us init outer segs e st.
Proof.
  intros args us init outer segs e st st' r (n & front & c & done & is & only & pl & st0 & rs & s2 & E & I0 & L & X) N0 C1 C2.
  exists (S n), front, c, done, is, only, pl, st0, rs, s2. split; [exact E|]. split; [exact I0|].
  apply lenient_step in N0; [|exact C1]. destruct X as (Rc & X). split; [|split; [|exact X]].
  2:{ intros m R. eapply Rc. eapply reached_next; [exact R|exact N0]. }
  intros k. rewrite <- L. cbn [Nat.add parse_loop]. unfold bind. rewrite N0. destruct (ir_code r); try congruence; reflexivity.
Qed.

Lemma lwalk : forall only c pl is subs e, skimming cfg only c pl is subs e ->
  forall args us init outer done st0 rs st, line_inv args (ignored done :: us) init outer c (words done) only pl st0 rs st ->
  Forall item_fits ((c, is) :: subs) -> (N.of_nat (length (positionals (words done))) <= maxima (c_arguments c))%N ->
  lwalked args us init outer ((c, done ++ is) :: subs) e st.
Proof.
  intros only c pl is subs e Rd.
  induction Rd as [c pl a pl' is subs e Ia Rd IH|c pl Np|c pl Np|only c pl t pl' is subs e Pt Cm Rd IH|c pl t o pl' v pl'' is subs e Fl Ta Ty Rd IH
    |c pl t o pl' v pl'' is subs e Fl Ta Ty Rd IH|c pl t o pl' v pl'' Fl Ta Ty|c pl t o pl' v pl'' Fl Ta Ty
    |only c pl t pl' d is subs e Pt Fn Rd IH|only c pl t pl' Pt Nc Nn|c pl t pl' Tk Lk Dp Un|c pl t o pl' Fl Tv Nt];
    intros args us init outer done st0 rs st I0 Fw Lm; inversion_clear Fw as [|? ? F1 Fs].
  - (* an ignored argument *)
    destruct (ignored_goes_on p q H Sd Hn Ig _ _ _ _ _ _ _ _ _ _ _ _ _ I0 Ia) as (s1 & E1 & I1).
    eapply lwalked_more; [|exact E1|discriminate|discriminate].
    replace (done ++ Ignored a :: is) with ((done ++ [Ignored a]) ++ is) by (rewrite <- app_assoc; reflexivity).
    apply (IH args us init outer (done ++ [Ignored a]) st0 (rs ++ [mk_ir IC_UNKNOWN ItNone a]) s1).
    + rewrite ignored_app, words_app. cbn [words ignored flat_map app]. rewrite app_nil_r. exact I1.
    + constructor; [exact F1|exact Fs].
    + rewrite words_app. cbn [words flat_map app]. rewrite app_nil_r. exact Lm.
  - apply (lwalked_here _ _ _ _ _ _ _ _ _ _ _ _ _ I0 Lm). left. exists []. split; [reflexivity|]. constructor. exact Np.
  - apply (lwalked_here _ _ _ _ _ _ _ _ _ _ _ _ _ I0 Lm). left. exists []. split; [reflexivity|]. constructor. exact Np.
  - (* an argument *)
    pose proof (no_commands_no_more q _ _ _ _ _ _ Rd Cm) as ->. inversion_clear F1 as [|? ? F2 F3]. cbn in F2, F3.
    destruct (N.eq_dec (N.of_nat (length (positionals (words done)))) (maxima (c_arguments c))) as [Eq|Ne].
    + apply (lwalked_here _ _ _ _ _ _ _ _ _ _ _ _ _ I0 Lm). right. exists t, pl', is. auto.
    + assert (Lt : (N.of_nat (length (positionals (words done))) < maxima (c_arguments c))%N) by lia.
      destruct (positional_goes_on p q H Sd Hn Hi Ig One _ _ _ _ _ _ _ _ _ _ _ t pl' I0 Pt Cm F2 Lt) as (a & s1 & E1 & I1).
      eapply lwalked_more; [|exact E1|discriminate|discriminate].
      replace (done ++ Read (Positional t) :: is) with ((done ++ [Read (Positional t)]) ++ is) by (rewrite <- app_assoc; reflexivity).
      apply (IH args us init outer (done ++ [Read (Positional t)]) st0 (rs ++ [mk_ir IC_ARGUMENT (ItArgument a) t]) s1).
      * rewrite ignored_app, words_app. cbn [words ignored flat_map app]. rewrite app_nil_r. exact I1.
      * constructor; [exact F3|constructor].
      * rewrite words_app, positionals_app, app_length. cbn. lia.
  - (* an option *)
    inversion_clear F1 as [|? ? F2 F3]. cbn in F2, F3.
    destruct (option_goes_on p q H Sd Hn Hi Ig _ _ _ _ _ _ _ _ _ _ _ _ _ _ _ I0 Fl Ta (or_introl Ty) F2) as (s1 & E1 & I1). rewrite Ty in I1.
    eapply lwalked_more; [|exact E1|discriminate|discriminate].
    replace (done ++ Read (Optional o v) :: is) with ((done ++ [Read (Optional o v)]) ++ is) by (rewrite <- app_assoc; reflexivity).
    apply (IH args us init outer (done ++ [Read (Optional o v)]) st0 (rs ++ [mk_ir IC_OPTION (ItOption o) v]) s1).
    + rewrite ignored_app, words_app. cbn [words ignored flat_map app]. rewrite app_nil_r. exact I1.
    + constructor; assumption.
    + rewrite words_app, positionals_app. cbn. rewrite app_nil_r. exact Lm.
  - inversion_clear F1 as [|? ? F2 F3]. cbn in F2, F3.
    destruct (option_goes_on p q H Sd Hn Hi Ig _ _ _ _ _ _ _ _ _ _ _ _ _ _ _ I0 Fl Ta (or_intror Ty) F2) as (s1 & E1 & I1). rewrite Ty in I1.
    eapply lwalked_more; [|exact E1|discriminate|discriminate].
    replace (done ++ Read (Optional o v) :: is) with ((done ++ [Read (Optional o v)]) ++ is) by (rewrite <- app_assoc; reflexivity).
    apply (IH args us init outer (done ++ [Read (Optional o v)]) st0 (rs ++ [mk_ir IC_OPTION (ItOption o) v]) s1).
    + rewrite ignored_app, words_app. cbn [words ignored flat_map app]. rewrite app_nil_r. exact I1.
    + constructor; assumption.
    + rewrite words_app, positionals_app. cbn. rewrite app_nil_r. exact Lm.
  - apply (lwalked_here _ _ _ _ _ _ _ _ _ _ _ _ _ I0 Lm). left. exists [Optional o v]. split; [reflexivity|]. eapply h_last; eassumption.
  - apply (lwalked_here _ _ _ _ _ _ _ _ _ _ _ _ _ I0 Lm). left. exists [Optional o v]. split; [reflexivity|]. eapply h_stop; eassumption.
  - (* a command *)
    destruct (command_goes_on p q H Sd Hn Ig _ _ _ _ _ _ _ _ _ _ _ _ _ _ I0 Pt Fn) as (cur & s1 & E1 & I1).
    eapply lwalked_more; [|exact E1|discriminate|discriminate].
    destruct (IH _ _ _ _ [] _ _ _ I1 Fs (N.le_0_l _)) as (n & front & c2 & dn2 & w2 & on2 & pl2 & st02 & rs2 & s2 & E & I2 & L & X).
    exists n, ((c, done) :: front), c2, dn2, w2, on2, pl2, st02, rs2, s2. rewrite app_nil_r.
    split; [cbn [app]; rewrite <- E; reflexivity|]. split; [|auto].
    assert (Eu : rev (lefts ((c, done) :: front)) ++ us = rev (lefts front) ++ ignored done :: us).
    { unfold lefts. cbn [map rev fst snd]. rewrite <- app_assoc. reflexivity. }
    assert (Eb : begin init (map words_of ((c, done) :: front)) = begin [] (map words_of front)) by (destruct front; reflexivity).
    assert (Ep : rev (passed init (map words_of ((c, done) :: front))) ++ outer =
      rev (passed [] (map words_of front)) ++ (c, init ++ meant [] (words done)) :: outer).
    { cbn [map]. unfold words_of at 1. cbn [fst snd passed rev]. rewrite <- app_assoc. reflexivity. }
    rewrite Eu, Eb, Ep. exact I2.
  - apply (lwalked_here _ _ _ _ _ _ _ _ _ _ _ _ _ I0 Lm). left. exists []. split; [reflexivity|]. eapply h_no_command; eassumption.
  - apply (lwalked_here _ _ _ _ _ _ _ _ _ _ _ _ _ I0 Lm). left. exists []. split; [reflexivity|]. eapply h_unknown; eassumption.
  - apply (lwalked_here _ _ _ _ _ _ _ _ _ _ _ _ _ I0 Lm). left. exists []. split; [reflexivity|]. eapply h_no_value; eassumption.
Qed.


(* ------------------------------------------------------------------------ *)
(** ** From there on *)

Record late (past : bool) (args : list str) (us : list (list str)) (init : list change) (outer : list (cmd_data * list change))
  (c : cmd_data) (got : list arg_data) (ws : list word) (only : bool) (pl : place) (st : pstate) : Prop := {
  la_reached : exists m, reached (lenient cfg) top args st m;
  la_command : ps_command st = c;
  la_mode : ps_mode st = if only then ARGUMENTS_ONLY else ARGUMENTS_AND_OPTIONS;
  la_place : stands q st pl;
  la_outer : Forall2 level_is outer (ps_parents st);
  la_level : level_is (c, init ++ meant got ws) (ps_cur st);
  la_count : length got = length (positionals ws);
  la_calm : Forall quiet (ps_events st);
  la_from : ends_with (it_args (ps_iter st)) args;
  la_kept : kept st = us;
  la_spent : exists ac, next_argument (ps_counter st) = (None, ac) /\ spent ac;
  la_past : past = true -> is_complete (ps_counter st) = true
}.

Lemma lenient_shape : forall args st m, reached (lenient cfg) top args st m -> shape cfg top st.
Proof.
  intros args st m R. destruct (reached_shape (lenient_parser p) (lenient_parser q) (lenient_finish p q H) args st m R)
    as [S1 S2 S3 S4 S5 S6]. constructor; assumption.
Qed.

(** An option. *)
Lemma late_option : forall past args us init outer c got ws pl st t o pl' v pl'',
  late past args us init outer c got ws false pl st -> flag cfg c pl t o pl' ->
  takes (s_style cfg) o pl' v pl'' -> o_type o = OT_NORMAL \/ o_type o = OT_LAST_OPTION ->
  exists st', next (lenient cfg) st = Ret (mk_ir IC_OPTION (ItOption o) v) st' /\
    late past args us init outer c got (ws ++ [Optional o v])
      (match o_type o with OT_LAST_OPTION => true | _ => false end) pl'' st'.
Proof.
  intros past args us init outer c got ws pl st t o pl' v pl'' [(m & Rc) Ec Md Pl Ou Le Cn Ca Fr Us Sp Pa] Fl Ta Ty. subst c.
  pose proof (lenient_shape _ _ _ Rc) as Sh.
  destruct (flag_next p q H Hn Hi st pl t o pl' v pl'' Sh Md Pl Fl Ta) as (it & it' & n & evs & Nx & _ & _ & Io & Rv & A2 & Fe & E).
  fold cfg in E.
  assert (G : exists st', next cfg st = Ret (mk_ir IC_OPTION (ItOption o) v) st' /\
    st' = set_mode (noted (started o st v it') n evs)
            (match o_type o with OT_LAST_OPTION => ARGUMENTS_ONLY | _ => ARGUMENTS_AND_OPTIONS end)).
  { eexists. split; [|reflexivity]. rewrite E. destruct Ty as [Ty|Ty]; unfold apply_type; rewrite Ty; cbn; [|reflexivity].
    rewrite <- Md. destruct st. reflexivity. }
  destruct G as (st' & Es & Est). apply lenient_step in Es; [|discriminate]. exists st'. split; [exact Es|].
  constructor.
  - eexists. eapply reached_next; [exact Rc|exact Es].
  - rewrite Est. reflexivity.
  - rewrite Est. cbn. destruct Ty as [Ty|Ty]; rewrite Ty; reflexivity.
  - unfold stands. rewrite Est. exact A2.
  - rewrite Est. exact Ou.
  - rewrite Est. destruct Le as (L1 & L2 & L3). unfold level_is. cbn.
    split; [exact L1|]. split; [|exact L3].
    cbn [snd] in L2. rewrite op_values_fold, L2, <- fold_left_app, <- app_assoc. do 2 f_equal.
    pose proof (meant_app ws [Optional o v] got [] Cn) as X. rewrite app_nil_r in X. rewrite X.
    cbn [meant]. rewrite app_nil_r. reflexivity.
  - rewrite positionals_app. cbn. rewrite app_nil_r. exact Cn.
  - rewrite Est. cbn. apply Forall_app. auto.
  - rewrite Est. cbn. exact (ends_tran _ _ _ (reads_args _ _ _ _ Rv) (ends_tran _ _ _ (next_args _ _ _ Nx) Fr)).
  - rewrite Est. exact Us.
  - rewrite Est. exact Sp.
  - rewrite Est. exact Pa.
Qed.

(** An unknown option. *)
Lemma late_ignored : forall past args u us init outer c got ws pl st a pl',
  late past args (u :: us) init outer c got ws false pl st -> ignorable cfg c pl a pl' ->
  exists st', next (lenient cfg) st = Ret (mk_ir IC_UNKNOWN ItNone a) st' /\
    late past args ((u ++ [a]) :: us) init outer c got ws false pl' st'.
Proof.
  intros past args u us init outer c got ws pl st a pl' [(m & Rc) Ec Md Pl Ou Le Cn Ca Fr Us Sp Pa] (Io & Ng & Lf & t & Tk & Lk & Dp & Un).
  pose proof (lenient_shape _ _ _ Rc) as Sh.
  destruct (token_ok _ _ _ _ _ Pl Tk) as (it & Nx & A1).
  destruct (current_some it (next_head _ _ _ Nx)) as (cur & Ecur).
  destruct (token_argument _ _ _ _ _ _ _ Pl Tk Nx A1 Ng Lf) as (Ea & Bg).
  assert (cur = a) as -> by congruence. clear Ea.
  exists (set_cur (set_iter st it) (add_unprocessed (ps_cur st) [a])).
  assert (Es : next cfg st = Ret (mk_ir IC_UNKNOWN ItNone a) (set_cur (set_iter st it) (add_unprocessed (ps_cur st) [a]))).
  { rewrite (next_option_eq cfg st t it Md Nx Lk). unfold process_option. rewrite bind_gets.
    change (ps_command (set_iter st it)) with (ps_command st). rewrite <- Ec in Dp, Un.
    assert (Fn : find_option (ps_command st) t (s_abbreviations cfg) (s_case_insensitive cfg) = None).
    { destruct (find_option (ps_command st) t (s_abbreviations cfg) (s_case_insensitive cfg)) as [o|] eqn:E; [|reflexivity].
      apply (shape_lookup p q H st t o Sh Dp) in E. destruct (Un o E). }
    rewrite Fn, Io. cbn [negb].
    unfold bind, m_current. cbn [ps_iter set_iter]. rewrite Ecur, Bg. reflexivity. }
  apply lenient_step in Es; [|discriminate]. split; [exact Es|]. constructor.
  - eexists. eapply reached_next; [exact Rc|exact Es].
  - exact Ec.
  - exact Md.
  - exact A1.
  - exact Ou.
  - destruct Le as (L1 & L2 & L3 & L5 & L6). unfold level_is. cbn. auto 10.
  - exact Cn.
  - exact Ca.
  - exact (ends_tran _ _ _ (next_args _ _ _ Nx) Fr).
  - exact (kept_copied st it [a] _ Us).
  - exact Sp.
  - exact Pa.
Qed.

(** An argument too many. *)
Lemma late_surplus : forall past args u us init outer c got ws only pl st t pl',
  late past args (u :: us) init outer c got ws only pl st -> plain cfg only pl t pl' -> c_commands c = [] ->
  exists r st', next (lenient cfg) st = Ret r st' /\ ir_code r = IC_UNKNOWN /\
    late true args ((u ++ [t]) :: us) init outer c got ws only pl' st'.
Proof.
  intros past args u us init outer c got ws only pl st t pl' [(m & Rc) Ec Md Pl Ou Le Cn Ca Fr Us (ac & Na & Sp) Pa] Pt Cm.
  pose proof (lenient_shape _ _ _ Rc) as Sh.
  destruct (plain_reads q only st pl t pl' Md Pl Pt) as (it & R & A' & Nl & Io).
  pose proof (no_sibling_alone q One st t Sh) as Ns.
  assert (Ne : exists cur, it_current it = Some cur).
  { unfold reads in R. destruct only; rewrite Md in R.
    - apply current_some. eapply next_value_head. exact R.
    - apply current_some. eapply next_head. exact R. }
  destruct Ne as (cur & Ecur).
  set (s1 := set_cur (set_counter (set_iter st it) ac) (add_unprocessed (ps_cur st) [t])).
  exists (mk_ir IC_UNKNOWN ItNone cur), s1.
  assert (Es : next (lenient cfg) st = Ret (mk_ir IC_UNKNOWN ItNone cur) s1).
  { rewrite (next_eq (lenient cfg) _ _ _ R). unfold process_token. rewrite bind_gets.
    change (s_style (lenient cfg)) with (s_style cfg). fold cfg in Io. rewrite Io.
    change (ps_command (set_iter st it)) with (ps_command st). rewrite Ec, Cm. cbn [is_empty].
    unfold process_argument. rewrite bind_gets. pose proof (no_sibling_none q st t it Ns) as Nst. fold cfg in Nst.
    change (find_sibling_command (lenient cfg)) with (find_sibling_command cfg). rewrite Nst.
    unfold bind at 1, m_next_argument. change (ps_counter (set_iter st it)) with (ps_counter st). rewrite Na.
    cbn [s_ignore_arguments lenient]. rewrite bind_modify. change (set_cur (set_counter (set_iter st it) ac) _) with s1.
    unfold bind, m_current. change (ps_iter s1) with it. rewrite Ecur. reflexivity. }
  split; [exact Es|]. split; [reflexivity|]. constructor.
  - eexists. eapply reached_next; [exact Rc|exact Es].
  - exact Ec.
  - exact Md.
  - exact A'.
  - exact Ou.
  - destruct Le as (L1 & L2 & L3 & L5 & L6). unfold level_is. cbn. auto 10.
  - exact Cn.
  - exact Ca.
  - exact (ends_tran _ _ _ (read_args _ _ _ R) Fr).
  - exact (kept_copied st it [t] _ Us).
  - exists ac. split; [apply Sp|exact Sp].
  - intros _. apply Sp.
Qed.

(** The end. *)
Lemma late_end : forall args us init outer c ks ws only pl st h,
  late true args us init outer c (order (combine ks (c_arguments c))) ws only pl st ->
  (if only then no_text pl else no_token pl) ->
  fair (c_arguments c) (N.of_nat (length (positionals ws))) ks -> acceptable init c ws h ->
  exists st', parse_loop (lenient cfg) 1 st = Ret tt st' /\ Forall quiet (ps_events st') /\
    closes RC_SUCCESS RC_SUCCESS None us ((c, h) :: outer) st'.
Proof.
  intros args us init outer c ks ws only pl st h [(m & Rc) Ec Md Pl Ou Le Cn Ca Fr Us Sp Pa] Np Fk' (Rq & Lu & (ks2 & Fk & Eh) & Mn).
  rewrite (fair_unique_proof _ _ _ _ Fk Fk') in Eh.
  pose proof (lenient_shape _ _ _ Rc) as Sh.
  assert (Wi : within top c) by (rewrite <- Ec, (sh_command _ _ _ Sh); eapply chain_within; apply (sh_chain _ _ _ Sh)).
  assert (R : exists it, reads st None it).
  { unfold reads. rewrite Md. destruct only.
    - destruct (no_text_ok _ _ _ Pl Np) as (it & E & _). eauto.
    - eexists. exact (no_token_ok _ _ _ Pl Np). }
  destruct R as (it & R). destruct Le as (L1 & L2 & L3 & L5 & L6). cbn in L1, L2. rewrite <- Eh in L2.
  exists (after_success (set_iter st it)).
  assert (Q : Forall quiet (ps_events (after_success (set_iter st it)))) by exact Ca.
  split; [|split; [exact Q|split]].
  - apply lenient_quiet; [|exact Q]. cbn [parse_loop]. unfold bind. rewrite (next_eq cfg _ _ _ R). unfold bind.
    pose proof (counts_ok p q H (set_iter st it) c h Wi Ec L3 L2 Rq Mn (Pa eq_refl)) as Ck. fold cfg in Ck. rewrite Ck. reflexivity.
  - rewrite <- Us. exact (kept_success (set_iter st it)).
  - exists (c, h), outer. split; [reflexivity|]. split; [unfold level_closed; cbn; auto 10|]. cbn. apply close_parents. exact Ou.
Qed.

Lemma late_last : forall args us init outer c ks ws pl st t o pl' v pl'' h,
  late true args us init outer c (order (combine ks (c_arguments c))) ws false pl st -> flag cfg c pl t o pl' ->
  takes (s_style cfg) o pl' v pl'' -> o_type o = OT_LAST_ARGUMENT ->
  fair (c_arguments c) (N.of_nat (length (positionals ws))) ks -> acceptable init c (ws ++ [Optional o v]) h ->
  exists st', parse_loop (lenient cfg) 2 st = Ret tt st' /\ Forall quiet (ps_events st') /\
    closes RC_SUCCESS RC_SUCCESS None (more us (left_at pl'')) ((c, h) :: outer) st'.
Proof.
  intros args us init outer c ks ws pl st t o pl' v pl'' h [(m & Rc) Ec Md Pl Ou Le Cn Ca Fr Us Sp Pa] Fl Ta Ty Fk' (Rq & Lu & (ks2 & Fk & Eh) & Mn).
  pose proof (lenient_shape _ _ _ Rc) as Sh.
  assert (Wi : within top c) by (rewrite <- Ec, (sh_command _ _ _ Sh); eapply chain_within; apply (sh_chain _ _ _ Sh)).
  rewrite <- Ec in Fl.
  destruct (flag_next p q H Hn Hi st pl t o pl' v pl'' Sh Md Pl Fl Ta) as (it & it' & n & evs & Nx & W1 & Fo & Io & Rv & A2 & Fe & E).
  fold cfg in E. destruct Le as (L1 & L2 & L3 & L5 & L6). cbn in L1, L2.
  assert (Ek : length (positionals (ws ++ [Optional o v])) = length (positionals ws)).
  { rewrite positionals_app. cbn. rewrite app_nil_r. reflexivity. }
  rewrite Ek in Fk. rewrite (fair_unique_proof _ _ _ _ Fk Fk') in Eh.
  set (s1 := set_mode (noted (started o st v it') n evs) ST_DONE).
  assert (V1 : l_values (ps_cur s1) = fold_left apply_change h []).
  { cbn. rewrite op_values_fold, L2, <- fold_left_app, <- app_assoc, Eh. do 2 f_equal.
    pose proof (meant_app ws [Optional o v] (order (combine ks (c_arguments c))) [] Cn) as X. rewrite app_nil_r in X. rewrite X.
    cbn [meant]. rewrite app_nil_r. reflexivity. }
  pose proof (counts_ok p q H s1 c h Wi Ec L3 V1 Rq Mn (Pa eq_refl)) as Ck. fold cfg in Ck.
  destruct (left_ok _ _ _ A2) as (it2 & Rem).
  assert (Fm : find_first_multi_command_parent (after_success s1) = None).
  { unfold find_first_multi_command_parent. apply single_parents. cbn. intros l Il. apply in_map_iff in Il.
    destruct Il as (x & <- & Ix). pose proof (parent_single q One st Sh x Ix) as X. destruct x. exact X. }
  set (s2 := after_success s1).
  exists (set_cur (set_iter s2 it2) (add_unprocessed (ps_cur s2) (left_at pl''))).
  match goal with |- _ /\ ?Q /\ _ => assert (Qt : Q) by (cbn; apply Forall_app; auto) end.
  split; [|split; [exact Qt|]].
  - apply lenient_quiet; [|exact Qt]. cbn [parse_loop]. unfold bind at 1. rewrite E. unfold apply_type. rewrite Ty.
    unfold bind at 1. unfold bind at 1. rewrite bind_modify. cbn [ret]. cbv beta iota.
    unfold concludes, conclude. unfold bind at 1. change (set_mode _ ST_DONE) with s1. rewrite Ck. cbn [negb].
    rewrite bind_gets, Fm. unfold bind at 1, copy_remaining. change (ps_iter (after_success s1)) with it'. rewrite Rem.
    reflexivity.
  - split; [rewrite <- Us; exact (kept_copied (after_success s1) it2 _ (kept st) (kept_success _))|].
    exists (c, h), outer. split; [reflexivity|]. split.
    + unfold level_closed. cbn. auto 10.
    + cbn. apply close_parents. exact Ou.
Qed.

Lemma trim_read : forall k ws, positionals ws = [] -> trim k (map Read ws) = map Read ws.
Proof.
  intros k. induction ws as [|w ws IH]; intros Z; [reflexivity|]. destruct w as [o v|t]; [|discriminate Z].
  cbn in *. rewrite IH by exact Z. reflexivity.
Qed.

Lemma loop_step : forall k st st' r s, parse_loop (lenient cfg) k st' = Ret tt s -> next (lenient cfg) st = Ret r st' ->
  ir_code r <> IC_ERROR -> ir_code r <> IC_DONE -> parse_loop (lenient cfg) (S k) st = Ret tt s.
Proof.
  intros k st st' r s L E N1 N2. cbn [parse_loop]. unfold bind. rewrite E. destruct (ir_code r); try congruence; exact L.
Qed.

(** All the rest of the line. *)
Lemma late_walk : forall only c pl is subs e, skimming cfg only c pl is subs e -> c_commands c = [] ->
  forall left, left_of e = Some left ->
  forall args u us init outer ks ws st h,
  late true args (u :: us) init outer c (order (combine ks (c_arguments c))) ws only pl st ->
  fair (c_arguments c) (N.of_nat (length (positionals ws))) ks ->
  acceptable init c (ws ++ words (trim 0 is)) h ->
  exists k st', parse_loop (lenient cfg) k st = Ret tt st' /\ Forall quiet (ps_events st') /\
    closes RC_SUCCESS RC_SUCCESS None ((u ++ ignored (trim 0 is) ++ left) :: us) ((c, h) :: outer) st'.
Proof.
  intros only c pl is subs e Rd.
  induction Rd as [c pl a pl' is subs e Ia Rd IH|c pl Np|c pl Np|only c pl t pl' is subs e Pt Cm0 Rd IH|c pl t o pl' v pl'' is subs e Fl Ta Ty Rd IH
    |c pl t o pl' v pl'' is subs e Fl Ta Ty Rd IH|c pl t o pl' v pl'' Fl Ta Ty|c pl t o pl' v pl'' Fl Ta Ty
    |only c pl t pl' d is subs e Pt Fn Rd IH|only c pl t pl' Pt Nc Nn|c pl t pl' Tk Lk Dp Un|c pl t o pl' Fl Tv Nt];
    intros Cm left El args u us init outer ks ws st h I0 Fk Ac; try discriminate El.
  - destruct (late_ignored _ _ _ _ _ _ _ _ _ _ _ _ _ I0 Ia) as (s1 & E1 & I1).
    destruct (IH Cm left El _ _ _ _ _ _ _ _ h I1 Fk Ac) as (k & s & L & Q & Cl). exists (S k), s.
    split; [exact (loop_step _ _ _ _ _ L E1 ltac:(discriminate) ltac:(discriminate))|]. split; [exact Q|].
    rewrite <- app_assoc in Cl. exact Cl.
  - cbn in El. injection El as <-. cbn in Ac |- *. rewrite app_nil_r in Ac |- *.
    destruct (late_end _ _ _ _ _ _ _ _ _ _ h I0 Np Fk Ac) as (s & X). exists 1, s. exact X.
  - cbn in El. injection El as <-. cbn in Ac |- *. rewrite app_nil_r in Ac |- *.
    destruct (late_end _ _ _ _ _ _ _ _ _ _ h I0 Np Fk Ac) as (s & X). exists 1, s. exact X.
  - destruct (late_surplus _ _ _ _ _ _ _ _ _ _ _ _ _ _ I0 Pt Cm) as (r & s1 & E1 & Cr & I1).
    destruct (IH Cm left El _ _ _ _ _ _ _ _ h I1 Fk Ac) as (k & s & L & Q & Cl). exists (S k), s.
    split; [apply (loop_step _ _ _ _ _ L E1); rewrite Cr; discriminate|]. split; [exact Q|].
    rewrite <- app_assoc in Cl. exact Cl.
  - destruct (late_option _ _ _ _ _ _ _ _ _ _ _ _ _ _ _ I0 Fl Ta (or_introl Ty)) as (s1 & E1 & I1). rewrite Ty in I1.
    cbn [trim words flat_map app] in Ac. change (Optional o v :: flat_map _ (trim 0 is)) with ([Optional o v] ++ words (trim 0 is)) in Ac.
    rewrite app_assoc in Ac. destruct (IH Cm left El _ _ _ _ _ _ _ _ h I1) as (k & s & L & Q & Cl); [|exact Ac|].
    { rewrite positionals_app. cbn. rewrite app_nil_r. exact Fk. }
    exists (S k), s. split; [exact (loop_step _ _ _ _ _ L E1 ltac:(discriminate) ltac:(discriminate))|]. split; [exact Q|exact Cl].
  - destruct (late_option _ _ _ _ _ _ _ _ _ _ _ _ _ _ _ I0 Fl Ta (or_intror Ty)) as (s1 & E1 & I1). rewrite Ty in I1.
    cbn [trim words flat_map app] in Ac. change (Optional o v :: flat_map _ (trim 0 is)) with ([Optional o v] ++ words (trim 0 is)) in Ac.
    rewrite app_assoc in Ac. destruct (IH Cm left El _ _ _ _ _ _ _ _ h I1) as (k & s & L & Q & Cl); [|exact Ac|].
    { rewrite positionals_app. cbn. rewrite app_nil_r. exact Fk. }
    exists (S k), s. split; [exact (loop_step _ _ _ _ _ L E1 ltac:(discriminate) ltac:(discriminate))|]. split; [exact Q|exact Cl].
  - cbn in El. injection El as <-.
    destruct (late_last _ _ _ _ _ _ _ _ _ _ _ _ _ _ h I0 Fl Ta Ty Fk Ac) as (s & X). exists 2, s. exact X.
  - exfalso. destruct Fn as (b & a0 & X & _). rewrite Cm in X. destruct b; discriminate.
Qed.

Lemma trim_surplus : forall done rest,
  trim (length (positionals (words done))) (done ++ rest) = done ++ trim 0 rest.
Proof.
  induction done as [|[[o v|t]|a] done IH]; intros rest; cbn [words flat_map app positionals length trim]; [reflexivity|f_equal; apply IH..].
Qed.

(** What the front consists of does not change. *)
Lemma trim_room : forall is k, length (positionals (words is)) <= k -> trim k is = is.
Proof.
  induction is as [|[[o v|t]|a] is IH]; intros k L; cbn [words flat_map app positionals length trim] in *; [reflexivity| | |].
  - f_equal. apply IH. exact L.
  - destruct k as [|k]; [lia|]. f_equal. apply IH. apply le_S_n. exact L.
  - f_equal. apply IH. exact L.
Qed.

(** The last command of a line has all the words with arguments. *)
Lemma plain_until_last : forall only c pl is subs e, skimming cfg only c pl is subs e ->
  forall front d ds, (c, is) :: subs = front ++ [(d, ds)] -> Forall (fun sg => positionals (words (snd sg)) = []) front.
Proof.
  intros only c pl is subs e Rd.
  assert (G : forall c is subs, (c_commands c = [] -> subs = []) -> (c_commands c <> [] -> positionals (words is) = []) ->
    (forall front d ds, subs = front ++ [(d, ds)] -> Forall (fun sg => positionals (words (snd sg)) = []) front) ->
    forall front (d : cmd_data) ds, (c, is) :: subs = front ++ [(d, ds)] -> Forall (fun sg => positionals (words (snd sg)) = []) front).
  { clear. intros c is subs Z Np IH [|x front] d ds E; [constructor|]. cbn [app] in E. injection E as <- E.
    constructor; [|exact (IH _ _ _ E)]. apply Np. intros Cm. rewrite (Z Cm) in E. destruct front; discriminate. }
  assert (None_left : forall front (d : cmd_data) (ds : list item), [] = front ++ [(d, ds)] ->
    Forall (fun sg => positionals (words (snd sg)) = []) front) by (intros [|x front] d ds E; discriminate).
  assert (X : (c_commands c = [] -> subs = []) /\ (c_commands c <> [] -> positionals (words is) = []) /\
    (forall front d ds, subs = front ++ [(d, ds)] -> Forall (fun sg => positionals (words (snd sg)) = []) front)).
  { induction Rd as [c pl a pl' is subs e Ia Rd IH|c pl Np|c pl Np|only c pl t pl' is subs e Pt Cm Rd IH|c pl t o pl' v pl'' is subs e Fl Ta Ty Rd IH
    |c pl t o pl' v pl'' is subs e Fl Ta Ty Rd IH|c pl t o pl' v pl'' Fl Ta Ty|c pl t o pl' v pl'' Fl Ta Ty
    |only c pl t pl' d is subs e Pt Fn Rd IH|only c pl t pl' Pt Nc Nn|c pl t pl' Tk Lk Dp Un|c pl t o pl' Fl Tv Nt];
      try exact IH; try (split; [reflexivity|]; split; [intros _; reflexivity|exact None_left]).
    - destruct IH as (A & B & C). split; [exact A|]. split; [intros N0; contradiction|exact C].
    - destruct IH as (A & B & C). split; [|split; [intros _; reflexivity|exact (G _ _ _ A B C)]].
      intros Cm. destruct Fn as (b & a0 & X & _). rewrite Cm in X. destruct b; discriminate. }
  destruct X as (A & B & C). exact (G _ _ _ A B C).
Qed.

Section Whole.
Variables (args : list str) (is : list item) (subs : list (cmd_data * list item)) (e : ending).
Hypothesis Rd : skimming cfg false top (Fresh args) is subs e.
Hypothesis Fw : Forall item_fits ((top, is) :: subs).

Lemma lenient_walked : exists st, start_counter (lenient cfg) (initial_state (lenient cfg) top args) = Ret tt st /\
  reached (lenient cfg) top args st 0 /\
  lwalked args [] (at_first top) [] ((top, is) :: subs) e st.
Proof.
  destruct (line_starts q args) as (st & E & I0). fold cfg top in E. exists st.
  rewrite lenient_start, lenient_initial. split; [exact E|].
  split; [apply reached_start; rewrite lenient_start, lenient_initial; exact E|].
  exact (lwalk _ _ _ _ _ _ Rd args [] _ [] [] _ _ _ I0 Fw (N.le_0_l _)).
Qed.

Lemma lenient_succeeds : forall st n st' k s front c h us, start_counter (lenient cfg) (initial_state (lenient cfg) top args) = Ret tt st ->
  (forall k, parse_loop (lenient cfg) (n + k) st = parse_loop (lenient cfg) k st') -> parse_loop (lenient cfg) k st' = Ret tt s ->
  Forall quiet (ps_events s) -> closes RC_SUCCESS RC_SUCCESS None us ((c, h) :: rev (passed (at_first top) front) ++ []) s ->
  succeeds_with (lenient cfg) top args (passed (at_first top) front ++ [(c, h)]) (rev us).
Proof.
  intros st n st' k s front c h us E L R Q Cl. exists s. split.
  { exists (n + k). unfold run_parser, bind. rewrite E, L. exact R. }
  split; [exact Q|]. apply shows_closed. rewrite rev_app_distr. cbn [rev app]. rewrite app_nil_r in Cl. exact Cl.
Qed.

Lemma trimmed_front : forall front, Forall (fun sg : cmd_data * list item => positionals (words (snd sg)) = []) front ->
  map trimmed front = front.
Proof.
  intros front F. induction F as [|(c, x) front Z F IH]; [reflexivity|]. cbn [map]. rewrite IH. f_equal. unfold trimmed. cbn [fst snd] in *.
  rewrite trim_room; [reflexivity|]. rewrite Z. apply Nat.le_0_l.
Qed.

Lemma surplus_success : forall left hs, left_of e = Some left ->
  all_acceptable (at_first top) (map words_of (map trimmed ((top, is) :: subs))) hs ->
  succeeds_with (lenient cfg) top args hs (leftovers (map trimmed ((top, is) :: subs)) left).
Proof.
  intros left hs El (front & c & w & h & Es & Ac & ->).
  destruct lenient_walked as (st & E & R0 & n & front' & c' & dn & w' & on & pl & st0 & rs & st' & Es' & I0 & L & Rc & Lm & X).
  pose proof (plain_until_last _ _ _ _ _ _ Rd _ _ _ Es') as Pf. apply trimmed_front in Pf.
  rewrite Es', map_app, Pf in Es |- *. cbn [map] in Es |- *. unfold trimmed in Es |- *. cbn [fst snd] in Es |- *.
  rewrite map_app in Es. cbn [map] in Es. apply app_inj_tail in Es. destruct Es as (<- & Es).
  unfold words_of in Es. cbn [fst snd] in Es. injection Es as -> Es.
  destruct X as [(ws & -> & X)|(t' & pl' & rest & -> & Pt & Cm & Em & Rd')].
  - (* there is room for all *)
    assert (Z : positionals ws = []) by (inversion X; reflexivity).
    rewrite trim_room in Es |- *.
    2,3: rewrite words_app, words_read, positionals_app, Z, app_nil_r; lia.
    rewrite words_app, words_read in Es. subst w.
    inversion X; subst; try discriminate El; cbn in El; injection El as <-.
    + rewrite app_nil_r in Ac. destruct (ends_well p q H Sd Hn Ig _ _ _ _ _ _ _ _ _ _ _ h I0 ltac:(eassumption) Ac) as (s & R & Ev & Cl).
      rewrite <- left_at_end. assert (Q : Forall quiet (ps_events s)) by (rewrite Ev; apply (li_calm _ _ _ _ _ _ _ _ _ _ _ _ I0)).
      exact (lenient_succeeds _ _ _ _ _ _ _ _ _ E L (lenient_quiet _ _ _ _ R Q) Q Cl).
    + destruct (ends_last p q H Sd Hn Hi Ig One _ _ _ _ _ _ _ _ _ _ _ _ _ _ _ h I0 ltac:(eassumption) ltac:(eassumption) ltac:(eassumption) Ac) as (s & R & Q & Cl).
      rewrite <- left_at_last. exact (lenient_succeeds _ _ _ _ _ _ _ _ _ E L (lenient_quiet _ _ _ _ R Q) Q Cl).
  - (* the first argument too many *)
    assert (Ek : N.to_nat (maxima (c_arguments c)) = length (positionals (words dn))) by lia.
    rewrite Ek, trim_surplus in Es |- *. rewrite words_app in Es. subst w.
    destruct (Rc 0%N R0) as (m & Rm).
    pose proof (inv_facts p q H Sd Hn Ig _ _ _ _ _ _ _ _ _ _ _ I0) as (Sh & Ec0 & Wi & _ & _ & _).
    destruct I0 as [En Ec Pc Fs Cn Md Pl Ou Le Ca Pn Fr Us].
    pose proof (full_distributed args st0 rs st' En Pc) as D. rewrite Ec in D. cbv zeta in D.
    destruct (D Fs) as ((ks & Fk & Eg) & Sp); [rewrite Cn; exact Em|].
    rewrite Eg in Le, Cn.
    assert (La : late false args (ignored dn :: rev (lefts front') ++ []) (begin (at_first top) (map words_of front'))
      (rev (passed (at_first top) (map words_of front')) ++ []) c (order (combine ks (c_arguments c))) (words dn) on pl st').
    { constructor; try assumption; [exists m; exact Rm|discriminate]. }
    destruct (late_surplus _ _ _ _ _ _ _ _ _ _ _ _ _ _ La Pt Cm) as (r & s1 & E1 & Cr & I1).
    rewrite <- Em in Fk.
    destruct (late_walk _ _ _ _ _ _ Rd' Cm left El _ _ _ _ _ _ _ _ h I1 Fk Ac) as (k & s & Lk & Q & Cl).
    assert (Lk' : parse_loop (lenient cfg) (S k) st' = Ret tt s) by (apply (loop_step _ _ _ _ _ Lk E1); rewrite Cr; discriminate).
    pose proof (lenient_succeeds _ _ _ _ _ _ _ _ _ E L Lk' Q Cl) as Fin.
    rewrite leftovers_app, ignored_app. cbn [trim ignored flat_map app]. cbn [rev] in Fin. rewrite app_nil_r, rev_involutive in Fin.
    rewrite <- !app_assoc in Fin |- *. exact Fin.
Qed.
End Whole.
End Surplus.
