(** Proofs about callbacks that use their builder step by step. *)
From Coq Require Import Sorted.
From Verif Require Import Base BaseProofs MStrings MOptIter MData MCounter MValues MParser MBuilder
  SIndex SDef SValues SHelp SParser SStep SCallback SBuilder ValuesProofs
  TokProofs MonadProofs FrameProofs StepProofs StepProofs2 CallbackProofs ResultProofs.
Open Scope nat_scope.

Section Induction.
Variable Pr : program -> Prop.
Hypothesis Hf : forall new, Pr (Finish new).
Hypothesis Hr : Pr Raise.
Hypothesis Hw : forall t p, Pr p -> Pr (Write t p).
Hypothesis Hc : forall op h p, (forall p', h = Some p' -> Pr p') -> Pr p -> Pr (Change op h p).
Hypothesis Hq : forall q h k, (forall p', h = Some p' -> Pr p') -> (forall a, Pr (k a)) -> Pr (Read q h k).
Fixpoint program_rect2 (p : program) : Pr p :=
  match p with
  | Finish new => Hf new
  | Raise => Hr
  | Write t p => Hw t p (program_rect2 p)
  | Change op h p => Hc op h p
      (fun p' E => match h as h0 return h0 = Some p' -> Pr p' with
                   | Some x => fun E => eq_ind x Pr (program_rect2 x) p' (f_equal (fun o => match o with Some y => y | None => x end) E)
                   | None => fun E => False_ind _ (eq_ind None (fun o => match o with None => True | Some _ => False end) I _ E)
                   end E) (program_rect2 p)
  | Read q h k => Hq q h k
      (fun p' E => match h as h0 return h0 = Some p' -> Pr p' with
                   | Some x => fun E => eq_ind x Pr (program_rect2 x) p' (f_equal (fun o => match o with Some y => y | None => x end) E)
                   | None => fun E => False_ind _ (eq_ind None (fun o => match o with None => True | Some _ => False end) I _ E)
                   end E) (fun a => program_rect2 (k a))
  end.
End Induction.

(** ** What is read *)

Lemma ids_means : forall c k,
  (exists id b, means c k id b /\ ids_of c k = Val (id, b)) \/
  (exists name, k = ByName name /\ (forall id, ~ carries c name id) /\ ids_of c k = Exn (EUnknownValue name)).
Proof.
  intros c [name|vid aid]; unfold ids_of.
  - destruct (get_value_id c name) as [v|e] eqn:E.
    + left. exists v, 0%N. split; [|reflexivity]. apply get_value_id_least in E. destruct E as (E & L).
      split; [exact E|]. split; [exact L|reflexivity].
    + right. exists name. split; [reflexivity|]. split.
      * intros id Ca. destruct (least_exists _ _ _ Ca) as (w & Hw). apply get_value_id_least in Hw. rewrite E in Hw. discriminate Hw.
      * revert E. unfold get_value_id. destruct (nth_error _ _) as [[[n v] a]|]; [destruct (str_eqb n name)|];
          intros E; try discriminate; injection E as <-; reflexivity.
  - left. exists vid, aid. split; [split; reflexivity|reflexivity].
Qed.

Lemma has_value_pick : forall vs id, in_order vs -> has_value vs id = negb (is_empty (get_values vs id)).
Proof.
  intros vs id O. rewrite get_values_pick by exact O. clear O.
  induction vs as [|[k x] r IH]; [reflexivity|]. unfold has_value in *. simpl. destruct (k =? id)%N; [reflexivity|exact IH].
Qed.

Lemma ask_exact : forall c vs q, in_order vs ->
  (exists a, answers c vs q a /\ ask c vs q = Val a) \/ (exists e, refuses c vs q e /\ ask c vs q = Exn e).
Proof.
  intros c vs q O. destruct q as [k|k|k]; unfold ask;
    destruct (ids_means c k) as [(id & b & Me & ->)|(name & -> & N & ->)].
  2,4,6: right; eexists; split; [apply refuse_name; [reflexivity|exact N]|reflexivity].
  - left. eexists. split; [|reflexivity]. rewrite has_value_pick by exact O.
    destruct (get_values vs id) as [|x r] eqn:E; simpl.
    + eapply answer_has_not; eassumption.
    + eapply answer_has; [eassumption|]. rewrite E. discriminate.
  - rewrite get_value_values by exact O. destruct (get_values vs id) as [|[s by_id] [|y r]] eqn:E.
    + left. eexists. split; [eapply answer_none; eassumption|reflexivity].
    + left. eexists. split; [|reflexivity]. destruct k as [name|vid aid].
      * eapply answer_name; eassumption.
      * destruct Me as (-> & ->). eapply answer_view. exact E.
    + right. eexists. split; [eapply refuse_many; eassumption|reflexivity].
  - left. eexists. split; [eapply answer_values; eassumption|reflexivity].
Qed.

(** ** What is done *)

Lemma left_by_nil : forall st, left_by st [] (l_values (ps_cur st)) = st.
Proof. intros []. unfold left_by. simpl. rewrite app_nil_r, level_same. reflexivity. Qed.

Lemma left_by_events : forall st e evs vs, left_by (add_event st e) evs vs = left_by st (e :: evs) vs.
Proof. intros. unfold left_by, add_event. simpl. rewrite <- app_assoc. reflexivity. Qed.

Lemma left_by_values : forall st w evs vs, left_by (set_values st w) evs vs = left_by st evs vs.
Proof. intros. reflexivity. Qed.

Lemma add_events_one : forall st e, add_events st [e] = add_event st e.
Proof. reflexivity. Qed.

Lemma program_exact : forall cfg p st, in_order (l_values (ps_cur st)) ->
  exists evs vs' s, proceeds cfg (l_command (ps_cur st)) (l_values (ps_cur st)) p evs vs' s /\ in_order vs' /\
    run_program cfg p st = comes_out s (left_by st evs vs').
Proof.
  intros cfg p. induction p as [new| |t p IH|op h p IHh IH|q h k IHh IH] using program_rect2; intros st O.
  - exists [], (l_values (ps_cur st)), (Returned new). rewrite left_by_nil. split; [constructor|]. split; [exact O|reflexivity].
  - exists [], (l_values (ps_cur st)), (LetOut ECallback). rewrite left_by_nil. split; [constructor|]. split; [exact O|reflexivity].
  - destruct (IH (add_event st (EvText t)) O) as (evs & vs' & s & B & O' & E).
    exists (EvText t :: evs), vs', s. split; [constructor; exact B|]. split; [exact O'|].
    cbn [run_program]. rewrite E, left_by_events. reflexivity.
  - cbn [run_program]. destruct (value_op_exact cfg op st O) as [(ch & Op & E)|(pr & F & E)]; rewrite E.
    + pose proof (apply_change_in_order (l_values (ps_cur st)) ch O) as O1.
      destruct (IH (set_values st (apply_change (l_values (ps_cur st)) ch)) O1) as (evs & vs' & s & B & O' & E').
      exists evs, vs', s. split; [|split; [exact O'|rewrite E'; reflexivity]].
      eapply does_change; [exact Op|apply (changed_one (Some ch)); exact O|exact B].
    + destruct pr as [text|name|]; [| |inversion F].
      * cbn [problem_events]. unfold ending. rewrite add_events_one. destruct (s_auto_exit cfg) eqn:A.
        { exists [EvError (l_command (ps_cur st)) (MsgUser text)], (l_values (ps_cur st)), (Exited (s_error_exit cfg)).
          split; [apply does_exit; assumption|]. split; [exact O|].
          rewrite <- left_by_events. change (l_values (ps_cur st)) with (l_values (ps_cur (add_event st (EvError (l_command (ps_cur st)) (MsgUser text))))).
          rewrite left_by_nil. reflexivity. }
        destruct h as [h|].
        { destruct (IHh h eq_refl (add_event st (EvError (l_command (ps_cur st)) (MsgUser text))) O) as (evs & vs' & s & B & O' & E').
          exists (EvError (l_command (ps_cur st)) (MsgUser text) :: evs), vs', s.
          split; [apply does_catch; assumption|]. split; [exact O'|]. rewrite E', left_by_events. reflexivity. }
        exists [EvError (l_command (ps_cur st)) (MsgUser text)], (l_values (ps_cur st)), (LetOut EParseError).
        split; [apply does_report; assumption|]. split; [exact O|].
        rewrite <- left_by_events. change (l_values (ps_cur st)) with (l_values (ps_cur (add_event st (EvError (l_command (ps_cur st)) (MsgUser text))))).
        rewrite left_by_nil. reflexivity.
      * cbn [problem_events ending thrown_by]. rewrite add_events_nil. destruct h as [h|].
        { destruct (IHh h eq_refl st O) as (evs & vs' & s & B & O' & E').
          exists evs, vs', s. split; [eapply does_without; eassumption|]. split; [exact O'|exact E']. }
        exists [], (l_values (ps_cur st)), (LetOut (EUnknownValue name)). rewrite left_by_nil.
        split; [apply does_not_find; exact F|]. split; [exact O|reflexivity].
  - cbn [run_program]. destruct (ask_exact (l_command (ps_cur st)) (l_values (ps_cur st)) q O) as [(a & An & ->)|(e & Re & ->)].
    + destruct (IH a st O) as (evs & vs' & s & B & O' & E'). exists evs, vs', s.
      split; [eapply does_read; eassumption|]. split; [exact O'|exact E'].
    + destruct h as [h|].
      * destruct (IHh h eq_refl st O) as (evs & vs' & s & B & O' & E'). exists evs, vs', s.
        split; [eapply does_read_not; eassumption|]. split; [exact O'|exact E'].
      * exists [], (l_values (ps_cur st)), (LetOut e). rewrite left_by_nil.
        split; [apply does_not_read; exact Re|]. split; [exact O|reflexivity].
Qed.

(** ** The specification leaves no choice *)

Lemma means_unique : forall c k id b id' b', means c k id b -> means c k id' b' -> id = id' /\ b = b'.
Proof.
  intros c [name|v a] id b id' b'; simpl.
  - intros (C & L & ->) (C' & L' & ->). specialize (L _ C'). specialize (L' _ C). split; [lia|reflexivity].
  - intros (-> & ->) (-> & ->). split; reflexivity.
Qed.
Lemma means_carried : forall c name id b, means c (ByName name) id b -> (forall i, ~ carries c name i) -> False.
Proof. intros c name id b (C & _) N. exact (N _ C). Qed.

Lemma operation_unique : forall c op ch ch', operation c op ch -> operation c op ch' -> ch = ch'.
Proof.
  intros c op ch ch' H H'. inversion H as [k v id b Me|k v id b Me|k id b Me]; subst;
    inversion H' as [k' v' id' b' Me'|k' v' id' b' Me'|k' id' b' Me']; subst;
    destruct (means_unique _ _ _ _ _ _ Me Me') as (-> & ->); reflexivity.
Qed.
Lemma operation_failure : forall c op ch p, operation c op ch -> failure c op p -> False.
Proof.
  intros c op ch p H F. destruct H as [k v id b Me|k v id b Me|k id b Me]; inversion F as [? ? K N| |]; subst;
    simpl in K; injection K as ->; exact (means_carried _ _ _ _ Me N).
Qed.
Lemma failure_unique : forall c op p p', failure c op p -> failure c op p' -> p = p'.
Proof.
  intros c op p p' F F'. inversion F as [op0 n K N|m|m i]; subst; inversion F' as [op1 n' K' N'|m'|m' i']; subst;
    simpl in *; try discriminate; congruence.
Qed.

Definition alike (vs ws : store) : Prop := forall id, get_values vs id = get_values ws id.
Lemma changed_alike : forall ch vs vs1 ws ws1, alike vs ws -> changed (Some ch) vs vs1 -> changed (Some ch) ws ws1 ->
  alike vs1 ws1.
Proof. intros ch vs vs1 ws ws1 A C C' id. rewrite (C id), (C' id), (A id). reflexivity. Qed.

Lemma answers_unique : forall c vs ws q a a', alike vs ws -> answers c vs q a -> answers c ws q a' -> a = a'.
Proof.
  intros c vs ws q a a' A H H'.
  destruct H as [k id b Me E|k id b Me E|k id b Me E|n id b s y Me E|id b s y E|k id b Me];
    inversion H' as [k' id' b' Me' E'|k' id' b' Me' E'|k' id' b' Me' E'|n' id' b' s' y' Me' E'|id' b' s' y' E'|k' id' b' Me']; subst;
    try (destruct (means_unique _ _ _ _ _ _ Me Me') as (<- & <-)); try rewrite <- A in E'; try congruence.
  - destruct Me as (-> & ->). congruence.
  - destruct Me' as (-> & ->). congruence.
Qed.
Lemma answers_refuses : forall c vs ws q a e, alike vs ws -> answers c vs q a -> refuses c ws q e -> False.
Proof.
  intros c vs ws q a e A H R. destruct R as [q name K N|k id b x y r Me E].
  - destruct H as [k i b Me _|k i b Me _|k i b Me _|n i b s y Me _|i b s y _|k i b Me]; simpl in K; try discriminate K;
      try (injection K as ->); subst; eapply means_carried; eassumption.
  - rewrite <- A in E. inversion H as [k' i b' Me' E'|k' i b' Me' E'|k' i b' Me' E'|n i b' s w Me' E'|i b' s w E'|k' i b' Me']; subst;
      try (destruct (means_unique _ _ _ _ _ _ Me Me') as (<- & <-); congruence).
    destruct Me as (-> & ->). congruence.
Qed.
Lemma refuses_unique : forall c vs ws q e e', alike vs ws -> refuses c vs q e -> refuses c ws q e' -> e = e'.
Proof.
  intros c vs ws q e e' A R R'. destruct R as [q name K N|k id b x y r Me E];
    inversion R' as [q' name' K' N'|k' id' b' x' y' r' Me' E']; subst; simpl in *; subst; try congruence.
  - exfalso. eapply means_carried; eassumption.
  - exfalso. eapply means_carried; eassumption.
Qed.

Lemma behaves_unique : forall cfg c p vs ws evs vs' s fvs ws' t, alike vs ws ->
  proceeds cfg c vs p evs vs' s -> proceeds cfg c ws p fvs ws' t -> evs = fvs /\ alike vs' ws' /\ s = t.
Proof.
  intros cfg c p. induction p as [new| |t0 p IH|op h p IHh IH|q h k IHh IH] using program_rect2;
    intros vs ws evs vs' s fvs ws' t A B B'.
  - inversion B; inversion B'; subst. auto.
  - inversion B; inversion B'; subst. auto.
  - inversion B as [| |? ? ? ? ? ? X| | | | | | | | |]; inversion B' as [| |? ? ? ? ? ? X'| | | | | | | | |]; subst.
    destruct (IH _ _ _ _ _ _ _ _ A X X') as (-> & A' & ->). auto.
  - inversion B; subst; inversion B'; subst; clear B B'; try congruence;
    try (exfalso; match goal with H : operation _ _ _, F : failure _ _ _ |- _ => exact (operation_failure _ _ _ _ H F) end);
    repeat match goal with H : operation _ _ _, F : operation _ _ _ |- _ =>
      pose proof (operation_unique _ _ _ _ H F); subst; clear F end;
    repeat match goal with H : failure _ _ _, F : failure _ _ _ |- _ =>
      let E := fresh in pose proof (failure_unique _ _ _ _ H F) as E; try discriminate E; injection E as E; subst; clear F end; auto.
    + eapply IH; [eapply changed_alike; eassumption|eassumption|eassumption].
    + eapply IHh; [reflexivity|eassumption..].
    + match goal with A : alike ?a ?b, X : proceeds _ _ ?a _ _ _ _, Y : proceeds _ _ ?b _ _ _ _ |- _ =>
        destruct (IHh _ eq_refl _ _ _ _ _ _ _ _ A X Y) as (-> & A' & ->) end. auto.
  - inversion B; subst; inversion B'; subst; clear B B';
    try (exfalso; match goal with H : answers _ ?v _ _, F : refuses _ ?w _ _ |- _ =>
      eapply (answers_refuses _ v w); [first [exact A|intros i; symmetry; apply A]|exact H|exact F] end).
    + match goal with A : alike ?a ?b, H : answers _ ?a _ _, F : answers _ ?b _ _ |- _ => pose proof (answers_unique _ _ _ _ _ _ A H F); subst end.
      eapply IH; eassumption.
    + match goal with A : alike ?a ?b, H : refuses _ ?a _ _, F : refuses _ ?b _ _ |- _ => pose proof (refuses_unique _ _ _ _ _ _ A H F); subst end. auto.
    + eapply IHh; [reflexivity|eassumption..].
Qed.

(** ** Programs as functions *)

Definition op_result (c : cmd_data) (op : value_op) (vs : store) : exc store :=
  match op with
  | VAssign k v => match ids_of c k with Val (id, b) => Val (assign_value vs id v b) | Exn e => Exn e end
  | VAppend k v => match ids_of c k with Val (id, b) => Val (append_value vs id v b) | Exn e => Exn e end
  | VClear k => match ids_of c k with Val (id, _) => Val (clear_value vs id) | Exn e => Exn e end
  | VError _ | VErrorAt _ _ => Exn EParseError
  end.

Fixpoint compile (c : cmd_data) (p : program) (vs : store) : cb_effect :=
  match p with
  | Finish new => mk_eff [] [] false new
  | Raise => mk_eff [] [] true []
  | Write t p => let e := compile c p vs in mk_eff (t :: eff_out e) (eff_ops e) (eff_throws e) (eff_new e)
  | Change op h p =>
      match op_result c op vs with
      | Val vs1 => let e := compile c p vs1 in mk_eff (eff_out e) (op :: eff_ops e) (eff_throws e) (eff_new e)
      | Exn _ => if is_report op then mk_eff [] [op] false []
                 else match h with Some h => compile c h vs | None => mk_eff [] [op] false [] end
      end
  | Read q h k =>
      match ask c vs q with
      | Val a => compile c (k a) vs
      | Exn e => match h with
                 | Some h => compile c h vs
                 | None => match e with
                           | EUnknownValue name => mk_eff [] [VClear (ByName name)] false []
                           | _ => mk_eff [] [] true []
                           end
                 end
      end
  end.

Definition run_effect (cfg : settings) (eff : cb_effect) : M unit :=
  emit_texts (eff_out eff) ;;;
  run_value_ops cfg (eff_ops eff) ;;;
  (if eff_throws eff then throw ECallback else ret tt) ;;;
  update_arguments cfg (eff_new eff).

Lemma resolve_ids : forall k st, resolve_key k st =
  match ids_of (l_command (ps_cur st)) k with Val x => Ret x st | Exn e => Throws e st end.
Proof. intros [name|v a] st; simpl; [destruct (get_value_id _ name)|]; reflexivity. Qed.

Lemma op_result_run : forall cfg op st, is_report op = false -> run_value_op cfg op st =
  match op_result (l_command (ps_cur st)) op (l_values (ps_cur st)) with
  | Val vs => Ret tt (set_values st vs)
  | Exn e => Throws e st
  end.
Proof.
  intros cfg [k v|k v|k|m|m a] st E; try discriminate E; cbn [run_value_op op_result];
    unfold bind; rewrite resolve_ids; destruct (ids_of _ k) as [[id b]|e]; reflexivity.
Qed.
Lemma op_result_error : forall c op vs, is_report op = true -> op_result c op vs = Exn EParseError.
Proof. intros c [k v|k v|k|m|m a] vs E; try discriminate E; reflexivity. Qed.
Lemma error_run : forall cfg op st, is_report op = true -> exists st',
  forall A (m : M A), bind (run_value_op cfg op) (fun _ => m) st =
    (if s_auto_exit cfg then Exits (s_error_exit cfg) st' else Throws EParseError st') /\
  run_value_op cfg op st = (if s_auto_exit cfg then Exits (s_error_exit cfg) st' else Throws EParseError st').
Proof.
  intros cfg [k v|k v|k|msg|msg a] st E; try discriminate E; cbn [run_value_op].
  - exists (add_event st (EvError (l_command (ps_cur st)) (MsgUser msg))). intros A m. unfold bind. rewrite user_error_eq. simpl.
    destruct (s_auto_exit cfg); split; reflexivity.
  - eexists. intros A m. unfold bind. rewrite bind_gets || cbn [gets]. rewrite user_error_eq. simpl.
    destruct (s_auto_exit cfg); split; reflexivity.
Qed.

Definition events_added (st : pstate) (ts : list str) : pstate := fold_left add_event (map EvText ts) st.

Lemma run_effect_eq : forall cfg eff st, run_effect cfg eff st =
  bind (run_value_ops cfg (eff_ops eff)) (fun _ =>
    bind (if eff_throws eff then throw ECallback else ret tt) (fun _ => update_arguments cfg (eff_new eff)))
    (events_added st (eff_out eff)).
Proof. intros. unfold run_effect. unfold bind at 1. rewrite emit_texts_eq. reflexivity. Qed.

Lemma events_added_cur : forall st ts, ps_cur (events_added st ts) = ps_cur st.
Proof. intros. unfold events_added. rewrite fold_events. reflexivity. Qed.
Lemma events_added_values : forall st vs ts, events_added (set_values st vs) ts = set_values (events_added st ts) vs.
Proof. intros. unfold events_added. rewrite !fold_events. reflexivity. Qed.

Lemma update_never_throws : forall cfg new st e st', update_arguments cfg new st <> Throws e st'.
Proof.
  intros cfg new st e st'. unfold update_arguments. destruct (is_empty new); [discriminate|].
  unfold bind, gets, modify, ret, count_arguments. destruct (it_insert _ _); [|discriminate].
  destruct (negb _); [discriminate|]. destruct (count_tokens _ _ _ _ _ _); discriminate.
Qed.

Lemma run_effect_one : forall cfg op st, run_effect cfg (mk_eff [] [op] false []) st =
  match run_value_op cfg op st with
  | Ret _ s => Ret tt s | Throws e s => Throws e s | Exits n s => Exits n s | Undefined => Undefined | NoFuel => NoFuel
  end.
Proof.
  intros. rewrite run_effect_eq. cbn [eff_out eff_ops eff_throws eff_new events_added map fold_left run_value_ops].
  unfold bind. unfold ret. destruct (run_value_op cfg op _) as [[] s| | | |]; reflexivity.
Qed.

Lemma run_effect_ops : forall cfg e op st vs1, is_report op = false ->
  op_result (l_command (ps_cur st)) op (l_values (ps_cur st)) = Val vs1 ->
  run_effect cfg (mk_eff (eff_out e) (op :: eff_ops e) (eff_throws e) (eff_new e)) st = run_effect cfg e (set_values st vs1).
Proof.
  intros cfg e op st vs1 R E. rewrite !run_effect_eq. cbn [eff_out eff_ops eff_throws eff_new run_value_ops].
  rewrite bind_assoc. unfold bind at 1. rewrite op_result_run by exact R. rewrite events_added_cur, E.
  rewrite events_added_values. reflexivity.
Qed.

Lemma compiled : forall cfg p st, s_auto_exit cfg = true \/ yields p ->
  by_callback (bind (run_program cfg p) (update_arguments cfg) st) =
  run_effect cfg (compile (l_command (ps_cur st)) p (l_values (ps_cur st))) st.
Proof.
  intros cfg p. induction p as [new| |t p IH|op h p IHh IH|q h k IHh IH] using program_rect2; intros st Y.
  - unfold bind. cbn [run_program compile]. unfold run_effect, bind, ret. simpl.
    destruct (update_arguments cfg new st) as [|? ?|e s| |] eqn:E; try reflexivity.
    destruct (update_never_throws _ _ _ _ _ E).
  - reflexivity.
  - cbn [compile]. set (e := compile _ p _) in *.
    transitivity (run_effect cfg e (add_event st (EvText t))); [|reflexivity].
    apply (IH (add_event st (EvText t))). destruct Y as [Y|Y]; [left; exact Y|right; inversion Y; assumption].
  - assert (Y' : s_auto_exit cfg = true \/ yields p) by (destruct Y as [Y|Y]; [left; exact Y|right; inversion Y; assumption]).
    assert (Yh : forall p', h = Some p' -> s_auto_exit cfg = true \/ yields p').
    { intros p' E. destruct Y as [Y|Y]; [left; exact Y|right]. inversion Y as [| | |? ? ? H1 H2 H3|]; subst. apply H2. reflexivity. }
    unfold bind. cbn [run_program compile].
    destruct (is_report op) eqn:R.
    + rewrite op_result_error by exact R. rewrite run_effect_one.
      destruct (error_run cfg op st R) as (st' & X). destruct (X unit (ret tt)) as (_ & ->). clear X.
      destruct Y as [Y|Y]; [rewrite Y; reflexivity|]. inversion Y as [| | |? ? ? H1 H2 H3|]; subst. rewrite (H1 R).
      destruct (s_auto_exit cfg); reflexivity.
    + rewrite op_result_run by exact R. destruct (op_result _ op _) as [vs1|e] eqn:E.
      * cbv zeta. rewrite (run_effect_ops _ _ _ _ _ R E). apply (IH (set_values st vs1) Y').
      * destruct h as [h|]; [apply (IHh h eq_refl st); apply Yh; reflexivity|].
        rewrite run_effect_one, op_result_run by exact R. rewrite E.
        destruct op as [k v|k v|k|m|m a]; try discriminate R; cbn [op_result] in E;
          (destruct (ids_means (l_command (ps_cur st)) k) as [(id & b & _ & Ei)|(name & _ & _ & Ei)]; rewrite Ei in E;
           [discriminate E|injection E as <-; reflexivity]).
  - assert (Y' : forall a, s_auto_exit cfg = true \/ yields (k a)) by (intros a; destruct Y as [Y|Y]; [left; exact Y|right; inversion Y; auto]).
    assert (Yh : forall p', h = Some p' -> s_auto_exit cfg = true \/ yields p').
    { intros p' E. destruct Y as [Y|Y]; [left; exact Y|right]. inversion Y as [| | | |? ? ? H1 H2]; subst. apply H1. reflexivity. }
    unfold bind. cbn [run_program compile]. destruct (ask _ _ q) as [a|e] eqn:E; [apply (IH a st (Y' a))|].
    destruct h as [h|]; [apply (IHh h eq_refl st); apply Yh; reflexivity|].
    assert (Ee : e = EMultipleValues \/ exists name, e = EUnknownValue name /\ ids_of (l_command (ps_cur st)) (ByName name) = Exn (EUnknownValue name)).
    { revert E. unfold ask. destruct q as [k0|k0|k0];
        destruct (ids_means (l_command (ps_cur st)) k0) as [(id & b & _ & Ei)|(name & -> & _ & Ei)]; rewrite Ei; intros E; try discriminate E;
        try (injection E as <-; right; eauto).
      revert E. unfold get_value. destruct (from_lower_bound _ _) as [|[k1 [x1 x2]] [|[k2 x3] r]]; try discriminate;
        destruct (negb _); try discriminate; try (destruct (k2 =? id)%N; try discriminate).
      intros E. injection E as <-. left. reflexivity. }
    destruct Ee as [->|(name & -> & Ei)]; [reflexivity|]. rewrite run_effect_one, op_result_run by reflexivity.
    cbn [op_result]. rewrite Ei. reflexivity.
Qed.

Theorem steps_are_callback : forall c (P : nat -> str -> program), exists f : callback,
  forall cfg ev v st, l_command (ps_cur st) = c ->
    (s_auto_exit cfg = true \/ yields (P (ps_calls st) v)) ->
    by_callback (run_steps cfg P ev v st) = run_callback cfg (Some f) ev v st.
Proof.
  intros c P. exists (fun n v vs => compile c (P n v) vs). intros cfg ev v st <- Y.
  unfold run_steps, run_callback. rewrite !bind_emit, !bind_gets, !bind_modify.
  apply (compiled cfg (P (ps_calls st) v) (count_call (add_event st ev)) Y).
Qed.

Lemma callback_writes : forall cfg f ev v st st', in_order (l_values (ps_cur st)) -> wf_iter (ps_iter st) ->
  run_callback cfg (Some f) ev v st = Ret tt st' -> exists ts, ps_events st' = ps_events st ++ ev :: map EvText ts.
Proof.
  intros cfg f ev v st st' O W E. destruct (callback_exact cfg (Some f) ev v st O W) as (vs' & [p|] & _ & _ & X).
  - rewrite E in X. unfold ending in X. destruct p; [destruct (s_auto_exit cfg)|..]; discriminate X.
  - destruct X as (it & ac & _ & X). rewrite E in X. injection X as ->. unfold cb_state. simpl. eauto.
Qed.
