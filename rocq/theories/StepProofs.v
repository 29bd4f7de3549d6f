(** Exact descriptions of single calls of next(). *)
From Verif Require Import Base BaseProofs MStrings MOptIter MData MCounter MValues MParser
  SStrings STok SIndex SDef SValues SCounter SParser SStep
  StrProofs TokProofs IndexProofs FinishProofs ValuesProofs CounterProofs CounterInv
  MonadProofs FrameProofs InvProofs NextProofs ParseProofs.
Open Scope nat_scope.

Definition T1 {A} : A -> pstate -> Prop := fun _ _ => True.

(** Only what happens in case of a normal return. *)
Definition when {A} (Q : A -> pstate -> Prop) (o : outcome A) : Prop := post Q T1 T1 True True o.

Lemma when_seq : forall {A B} (Q1 : A -> pstate -> Prop) (m : M A) (f : A -> M B) Q st,
  when Q1 (m st) -> (forall a s, Q1 a s -> when Q (f a s)) -> when Q (bind m f st).
Proof. intros. eapply post_seq; [exact H|exact H0|..]; unfold T1; auto. Qed.

Lemma when_mono : forall {A} (Q Q' : A -> pstate -> Prop) o,
  when Q o -> (forall a s, Q a s -> Q' a s) -> when Q' o.
Proof. intros. eapply post_mono; [exact H|exact H0|..]; auto. Qed.

Lemma when_post : forall {A} (Q : A -> pstate -> Prop) X T U F o, post Q X T U F o -> when Q o.
Proof. intros. eapply post_mono; [exact H|auto|..]; unfold T1; auto. Qed.

Lemma when_and : forall {A} (Q Q' : A -> pstate -> Prop) o, when Q o -> when Q' o ->
  when (fun a s => Q a s /\ Q' a s) o.
Proof. intros A Q Q' [a s| | | |] H H'; simpl in *; auto. Qed.

Lemma when_ret : forall {A} (Q : A -> pstate -> Prop) o a st, when Q o -> o = Ret a st -> Q a st.
Proof. intros A Q o a st H ->. exact H. Qed.

Lemma set_iter_same : forall st, set_iter st (ps_iter st) = st.
Proof. intros []. reflexivity. Qed.

(* ------------------------------------------------------------------------ *)
(** ** The operation of an option *)

Definition op_values (o : opt_data) (v : str) (vs : store) : store :=
  match option_change o v with
  | None => vs
  | Some c => apply_change vs c
  end.

Lemma takes_value_dec : forall o, {takes_value o} + {~ takes_value o}.
Proof.
  intros o. unfold takes_value. destruct (o_constant o) as [|c r].
  - destruct (o_operation o); [right|left|left|right]; (split || (intros (H & _))); auto;
      destruct H; discriminate.
  - right. intros (_ & H). discriminate.
Qed.

Section Cfg.
Variable cfg : settings.

Lemma apply_operation_exact : forall o flag st, wf_iter (ps_iter st) ->
  (exists v it', reads_value o (ps_iter st) v it' /\ wf_iter it' /\
     it_kind it' = it_kind (ps_iter st) /\
     apply_operation cfg o flag st =
       Ret (Some v) (set_values (set_iter st it') (op_values o v (l_values (ps_cur st))))) \/
  (exists it', takes_value o /\ it_next_value (ps_iter st) = Ok (None, it') /\ wf_iter it' /\
     apply_operation cfg o flag st =
       bind (error cfg (MsgNoValue flag)) (fun _ => ret None) (set_iter st it')).
Proof.
  intros o flag st W.
  assert (No : ~ takes_value o -> apply_operation cfg o flag st =
                Ret (Some []) (set_values st (op_values o [] (l_values (ps_cur st)))) ->
               exists v it', reads_value o (ps_iter st) v it' /\ wf_iter it' /\
                 it_kind it' = it_kind (ps_iter st) /\
                 apply_operation cfg o flag st =
                 Ret (Some v) (set_values (set_iter st it') (op_values o v (l_values (ps_cur st))))).
  { intros N E. exists [], (ps_iter st). rewrite set_iter_same.
    split; [right; auto|]. auto. }
  unfold takes_value in *.
  destruct (next_value_wf _ W) as (t & it' & E & W' & K).
  unfold apply_operation, op_values, option_change, text_of in *.
  destruct (o_operation o) eqn:Op.
  - left. apply No; [intros ([H|H] & _); discriminate|].
    rewrite set_values_same. reflexivity.
  - destruct (o_constant o) as [|c r] eqn:Co; cbn [is_empty negb] in *.
    + assert (Tk : takes_value o) by (unfold takes_value; rewrite Co; auto). destruct t as [v|].
      * left. exists v, it'. split; [left; auto|]. split; [exact W'|]. split; [exact K|].
        unfold bind at 1, m_next_value. rewrite E. reflexivity.
      * right. exists it'. split; [unfold takes_value in Tk; rewrite Co, Op in Tk; exact Tk|].
        split; [exact E|]. split; [exact W'|].
        unfold bind at 1, m_next_value. rewrite E. reflexivity.
    + left. apply No; [intros (_ & H); discriminate|]. reflexivity.
  - destruct (o_constant o) as [|c r] eqn:Co; cbn [is_empty negb] in *.
    + assert (Tk : takes_value o) by (unfold takes_value; rewrite Co; auto). destruct t as [v|].
      * left. exists v, it'. split; [left; auto|]. split; [exact W'|]. split; [exact K|].
        unfold bind at 1, m_next_value. rewrite E. reflexivity.
      * right. exists it'. split; [unfold takes_value in Tk; rewrite Co, Op in Tk; exact Tk|].
        split; [exact E|]. split; [exact W'|].
        unfold bind at 1, m_next_value. rewrite E. reflexivity.
    + left. apply No; [intros (_ & H); discriminate|]. reflexivity.
  - left. apply No; [intros ([H|H] & _); discriminate|]. reflexivity.
Qed.

(** ** Inserting arguments *)

(** The arguments [new] are inserted and, if necessary, all arguments counted again. *)
Definition inserted (st : pstate) (new : list str) (st' : pstate) : Prop :=
  (new = [] /\ ps_iter st' = ps_iter st /\ ps_counter st' = ps_counter st) \/
  (new <> [] /\ it_insert (ps_iter st) new = Ok (ps_iter st') /\
   let defs := c_arguments (ps_command st) in
   if requires_argument_count defs
   then exists s n, ps_command s = ps_command st /\ ps_parents s = ps_parents st /\
     count_tokens cfg (iter_fuel (ps_iter st')) s (minima defs) (ps_iter st') 0 = CountOk n /\
     ps_counter st' = counted_counter defs (ac_counter (ps_counter st) + n) (ac_counter (ps_counter st))
   else ps_counter st' = ps_counter st).

Lemma update_arguments_inserts : forall new st,
  when (fun _ st' => inserted st new st') (update_arguments cfg new st).
Proof.
  intros new st. unfold update_arguments. destruct new as [|n0 new]; cbn [is_empty].
  { left. auto. }
  unfold bind at 1. destruct (it_insert (ps_iter st) (n0 :: new)) as [it|] eqn:E; [|exact I].
  rewrite bind_gets. cbn [ps_command set_iter].
  destruct (requires_argument_count (c_arguments (ps_command st))) eqn:R; cbn [negb].
  - rewrite bind_gets. unfold bind at 1, count_arguments. cbn [ps_command set_iter ps_iter ps_counter].
    rewrite min_max_proof. cbn [fst].
    destruct (count_tokens _ _ _ _ _ _) as [n| |] eqn:Ct; try exact I.
    right. split; [discriminate|]. split; [exact E|]. cbv zeta. rewrite R.
    exists (set_iter st it), n. auto.
  - right. split; [discriminate|]. split; [exact E|]. cbv zeta. rewrite R. reflexivity.
Qed.

Lemma run_callback_inserts : forall cb ev v st,
  when (fun _ st' => inserted st (new_of cb (ps_calls st) v (l_values (ps_cur st))) st')
    (run_callback cfg cb ev v st).
Proof.
  intros [f|] ev v st; unfold run_callback.
  2:{ left. auto. }
  rewrite bind_emit, bind_gets, bind_modify. unfold bind at 1. rewrite emit_texts_eq. rewrite fold_events.
  cbn [new_of]. set (eff := f (ps_calls (add_event st ev)) v (l_values (ps_cur (add_event st ev)))).
  change (f (ps_calls st) v (l_values (ps_cur st))) with eff.
  remember (mk_ps _ _ _ _ _ _ _ _) as st1 eqn:E1.
  eapply when_seq; [eapply when_post; apply run_value_ops_post|]. cbv beta. intros _ s ((cs & V) & _).
  destruct (eff_throws eff); [exact I|]. rewrite bind_ret.
  eapply when_mono; [apply update_arguments_inserts|]. cbv beta. intros _ s'.
  unfold inserted. rewrite V, E1. auto.
Qed.

(** ** Two callbacks in a row *)

Record called_both (cb1 cb2 : option callback) (e1 e2 : event) (v : str) (st st' : pstate) : Prop := {
  cb2_frame : cb_frame st st';
  cb2_quiet : cb_quiet cb1 (ps_calls st) -> cb_quiet cb2 (ps_calls st + calls_of cb1) ->
    ps_iter st' = ps_iter st /\ ps_counter st' = ps_counter st;
  cb2_passive : cb_passive cb1 (ps_calls st) -> cb_passive cb2 (ps_calls st + calls_of cb1) ->
    ps_cur st' = ps_cur st;
  cb2_calls : ps_calls st' = ps_calls st + calls_of cb1 + calls_of cb2;
  cb2_events : exists vs2, (cb_passive cb1 (ps_calls st) -> vs2 = l_values (ps_cur st)) /\
    ps_events st' = ps_events st ++ called cb1 e1 (ps_calls st) v (l_values (ps_cur st)) ++
                    called cb2 e2 (ps_calls st + calls_of cb1) v vs2;
  cb2_inserted : exists s, cb_frame st s /\
    (cb_passive cb1 (ps_calls st) -> l_values (ps_cur s) = l_values (ps_cur st)) /\
    inserted st (new_of cb1 (ps_calls st) v (l_values (ps_cur st))) s /\
    inserted s (new_of cb2 (ps_calls st + calls_of cb1) v (l_values (ps_cur s))) st'
}.

Lemma two_callbacks_exact : forall cb1 cb2 e1 e2 v st, wf_iter (ps_iter st) ->
  cb_event e1 = true -> cb_event e2 = true ->
  when (fun _ st' => called_both cb1 cb2 e1 e2 v st st')
    ((run_callback cfg cb1 e1 v ;;; run_callback cfg cb2 e2 v) st).
Proof.
  intros cb1 cb2 e1 e2 v st W E1 E2.
  eapply when_seq; [apply when_and; [eapply when_post; apply run_callback_any; assumption|apply run_callback_inserts]|].
  cbv beta. intros _ s ((F & Q & Pa & C) & Is).
  assert (W' : wf_iter (ps_iter s)) by (apply (cf_wf _ _ F), W).
  eapply when_mono; [apply when_and; [eapply when_post; apply run_callback_any; assumption|apply run_callback_inserts]|].
  cbv beta. intros _ s' ((F' & Q' & Pa' & C') & Is').
  assert (Cs : ps_calls s = ps_calls st + calls_of cb1).
  { destruct cb1; simpl; [destruct C as (-> & _); lia|subst s; lia]. }
  assert (Cs' : ps_calls s' = ps_calls s + calls_of cb2).
  { destruct cb2; simpl; [destruct C' as (-> & _); lia|subst s'; lia]. }
  assert (Ev : ps_events s = ps_events st ++ called cb1 e1 (ps_calls st) v (l_values (ps_cur st))).
  { destruct cb1; simpl; [apply C|subst s; rewrite app_nil_r; reflexivity]. }
  assert (Ev' : ps_events s' = ps_events s ++ called cb2 e2 (ps_calls s) v (l_values (ps_cur s))).
  { destruct cb2; simpl; [apply C'|subst s'; rewrite app_nil_r; reflexivity]. }
  rewrite Cs in *. constructor.
  - eapply cb_frame_trans; eassumption.
  - intros H1 H2. destruct (Q H1), (Q' H2). split; congruence.
  - intros H1 H2. rewrite (Pa' H2). exact (Pa H1).
  - rewrite Cs'. lia.
  - exists (l_values (ps_cur s)). split; [intros H; rewrite (Pa H); reflexivity|].
    rewrite Ev', Ev, app_assoc. reflexivity.
  - exists s. split; [exact F|]. split; [intros X; rewrite (Pa X); reflexivity|]. split; assumption.
Qed.

(** ** A known option *)

Definition started (o : opt_data) (st : pstate) (v : str) (it : opt_iter) : pstate :=
  set_values (set_iter st it) (op_values o v (l_values (ps_cur st))).
Definition own_event (o : opt_data) (v : str) := EvOptionCallback false (o_argument_id o) v.
Definition global_event (o : opt_data) (v : str) := EvOptionCallback true (o_argument_id o) v.

Definition no_value_error (flag : str) (st st' : pstate) : Prop :=
  ps_calls st' = ps_calls st /\
  ps_events st' = ps_events st ++ [EvError (ps_command st) (MsgNoValue flag)].

Lemma error_when : forall m st, wf_iter (ps_iter st) ->
  when (fun _ st' => s_auto_exit cfg = false /\ exists l it, it_remaining (ps_iter st) = Ok (l, it) /\
         st' = after_error st m l it) (error cfg m st).
Proof.
  intros m st W. pose proof (error_eq cfg m st W) as H.
  destruct (s_auto_exit cfg) eqn:A.
  - rewrite H. exact I.
  - destruct H as (l & it & E & _ & _ & ->). simpl. split; [reflexivity|]. eauto.
Qed.

Lemma process_known_option_exact : forall o flag st, wf_iter (ps_iter st) ->
  when (fun ra st' =>
      (ra = (OR_ERROR, []) /\ no_value_error flag st st' /\ takes_value o /\
       exists it', it_next_value (ps_iter st) = Ok (None, it')) \/
      (exists it s, reads_value o (ps_iter st) (snd ra) it /\ wf_iter it /\
         called_both (o_callback o) (option_cb cfg o) (own_event o (snd ra))
           (global_event o (snd ra)) (snd ra) (started o st (snd ra) it) s /\
         apply_type o s = Ret (fst ra) st'))
    (process_known_option cfg o flag st).
Proof.
  intros o flag st W. unfold process_known_option.
  destruct (apply_operation_exact o flag st W) as
    [(v & it & Rd & Wi & Ki & E)|(it & Tk & Nv & Wi & E)].
  - unfold bind at 1. rewrite E. cbv beta iota.
    assert (G : forall B (h : M B) Q s0, wf_iter (ps_iter s0) ->
      (forall s, called_both (o_callback o) (option_cb cfg o) (own_event o v)
           (global_event o v) v s0 s -> when Q (h s)) ->
      when Q ((run_callback cfg (o_callback o) (own_event o v) v ;;;
               run_callback cfg (option_cb cfg o) (global_event o v) v ;;; h) s0)).
    { intros B h Q s0 W0 H.
      rewrite <- (bind_assoc (run_callback cfg (o_callback o) (own_event o v) v)
                    (fun _ => run_callback cfg (option_cb cfg o) (global_event o v) v)
                    (fun _ => h)).
      eapply when_seq; [apply two_callbacks_exact; auto|]. cbv beta. intros _ s C. apply H. exact C. }
    apply G; [exact Wi|]. intros s C.
    assert (Ap : exists r st', apply_type o s = Ret r st').
    { unfold apply_type. destruct (o_type o); do 2 eexists; reflexivity. }
    destruct Ap as (r & st' & Ap). unfold bind at 1. rewrite Ap. simpl.
    right. exists it, s. auto.
  - unfold bind at 1. rewrite E. clear E.
    pose proof (error_when (MsgNoValue flag) (set_iter st it) Wi) as H.
    unfold bind at 1. destruct (error cfg (MsgNoValue flag) (set_iter st it)) as [[] s|? ?|? ?| |]; try exact I.
    simpl. left. simpl in H. destruct H as (A & l & it2 & _ & ->).
    split; [reflexivity|]. split; [split; reflexivity|]. eauto.
Qed.

(** ** Effects of the final checks *)

Definition only_error (st st' : pstate) : Prop :=
  ps_calls st' = ps_calls st /\
  exists m, ps_events st' = ps_events st ++ [EvError (ps_command st) m].

Lemma error_only : forall m st, wf_iter (ps_iter st) ->
  when (fun _ st' => only_error st st' /\
                     ps_events st' = ps_events st ++ [EvError (ps_command st) m])
    (error cfg m st).
Proof.
  intros m st W. eapply when_mono; [apply error_when; exact W|].
  cbv beta. intros _ s (_ & l & it & _ & ->). split; [split; [reflexivity|eexists; reflexivity]|reflexivity].
Qed.

Lemma has_all_mandatory_only : forall opts st, wf_iter (ps_iter st) ->
  when (fun (b : bool) st' => if b then st' = st else only_error st st')
    (has_all_mandatory cfg opts st).
Proof.
  induction opts as [|o r IH]; intros st W; cbn [has_all_mandatory]; [reflexivity|].
  rewrite bind_gets. destruct (negb (o_optional o) && negb _).
  - eapply when_seq; [apply error_only; exact W|]. cbv beta. intros _ s (H & _). exact H.
  - apply IH. exact W.
Qed.

Lemma check_counts_only : forall st, wf_iter (ps_iter st) ->
  when (fun (b : bool) st' => if b then st' = after_success st else only_error st st')
    (check_counts cfg st).
Proof.
  intros st W. unfold check_counts. rewrite bind_gets.
  eapply when_seq; [apply has_all_mandatory_only; exact W|].
  cbv beta. intros [|] s H; cbn [negb]; [subst s|exact H].
  destruct (c_require (ps_command st)) as [req|]; [|exact I].
  rewrite bind_gets. destruct (req && is_empty (l_subs (ps_cur st))).
  { eapply when_seq; [apply error_only; exact W|]. cbv beta. intros _ s (H & _). exact H. }
  rewrite bind_gets. destruct (is_complete (ps_counter st)).
  - rewrite bind_modify. reflexivity.
  - destruct (get_min_max_count _) as (lo, hi).
    eapply when_seq; [apply error_only; exact W|]. cbv beta. intros _ s (H & _). exact H.
Qed.

Lemma apply_type_events : forall o s r st', apply_type o s = Ret r st' ->
  ps_calls st' = ps_calls s /\ wf_iter (ps_iter st') = wf_iter (ps_iter s) /\
  ps_events st' = ps_events s ++ (match o_type o with
                                  | OT_HELP => [EvHelp (ps_command s)]
                                  | _ => []
                                  end) /\
  (o_type o <> OT_LAST_ARGUMENT -> r <> OR_LAST_ARGUMENT) /\
  (ps_cur st' = ps_cur s \/ ps_cur st' = set_breaking_option o (ps_cur s)) /\ r <> OR_ERROR.
Proof.
  intros o s r st' E. unfold apply_type in E.
  destruct (o_type o); vm_compute in E; injection E as <- <-; simpl; rewrite ?app_nil_r;
    repeat (split; [solve [reflexivity|auto|discriminate|congruence]|]); try discriminate;
    split; (solve [left; reflexivity|right; reflexivity] || discriminate || (split; [auto|discriminate])).
Qed.

Lemma copy_remaining_when : forall st, wf_iter (ps_iter st) ->
  when (fun _ st' => ps_calls st' = ps_calls st /\ ps_events st' = ps_events st /\
                     l_values (ps_cur st') = l_values (ps_cur st)) (copy_remaining st).
Proof.
  intros st W. destruct (copy_remaining_eq st W) as (l & it & _ & _ & _ & ->). simpl. auto.
Qed.

(** ** process_option *)

Definition help_event (o : opt_data) (st : pstate) : list event :=
  match o_type o with OT_HELP => [EvHelp (ps_command st)] | _ => [] end.

(** What a call of next() that reads option [o] does if it reports no error. *)
Definition option_effects (o : opt_data) (it : opt_iter) (st : pstate) (r : iter_result)
  (st' : pstate) : Prop :=
  r = mk_ir IC_OPTION (ItOption o) (ir_value r) /\
  exists it' vs2 s,
    let v := ir_value r in
    let vs1 := op_values o v (l_values (ps_cur st)) in
    let cb1 := o_callback o in let cb2 := option_cb cfg o in
    reads_value o it v it' /\
    (cb_passive cb1 (ps_calls st) -> vs2 = vs1) /\
    ps_calls st' = ps_calls st + calls_of cb1 + calls_of cb2 /\
    ps_events st' = ps_events st ++ called cb1 (own_event o v) (ps_calls st) v vs1 ++
      called cb2 (global_event o v) (ps_calls st + calls_of cb1) v vs2 ++ help_event o st /\
    called_both cb1 cb2 (own_event o v) (global_event o v) v (started o (set_iter st it) v it') s /\
    (cb_passive cb1 (ps_calls st) -> cb_passive cb2 (ps_calls st + calls_of cb1) ->
     o_type o <> OT_LAST_ARGUMENT -> l_values (ps_cur st') = vs1).

Lemma process_option_exact : forall o flag it st, wf_iter it ->
  find_option (ps_command st) flag (s_abbreviations cfg) (s_case_insensitive cfg) = Some o ->
  when (fun r st' =>
      (r = mk_ir IC_ERROR (ItOption o) [] /\ no_value_error flag st st' /\ takes_value o /\
       exists it', it_next_value it = Ok (None, it')) \/
      (r = mk_ir IC_ERROR ItNone [] /\ o_type o = OT_LAST_ARGUMENT) \/
      option_effects o it st r st')
    (process_option cfg flag (set_iter st it)).
Proof.
  intros o flag it st W F. unfold process_option. rewrite bind_gets.
  change (ps_command (set_iter st it)) with (ps_command st). rewrite F.
  eapply when_seq; [apply process_known_option_exact; exact W|].
  cbv beta. intros (r, v) s1 [(E & H)|(it' & s & Rd & Wi & C & Ap)].
  { injection E as -> ->. left. split; [reflexivity|exact H]. }
  cbn [fst snd] in *.
  destruct (apply_type_events o s r s1 Ap) as (A1 & A2 & A3 & A4 & A5 & A6).
  assert (W1 : wf_iter (ps_iter s1)) by (rewrite A2; apply (cf_wf _ _ (cb2_frame _ _ _ _ _ _ _ C)), Wi).
  assert (Main : forall st', ps_calls st' = ps_calls s1 -> ps_events st' = ps_events s1 ->
            (o_type o <> OT_LAST_ARGUMENT -> l_values (ps_cur st') = l_values (ps_cur s1)) ->
            option_effects o it st (mk_ir IC_OPTION (ItOption o) v) st').
  { intros st' B1 B2 B3. split; [reflexivity|].
    destruct (cb2_events _ _ _ _ _ _ _ C) as (vs2 & P2 & Ev).
    exists it', vs2, s. cbn [ir_value].
    split; [exact Rd|]. split; [exact P2|]. split; [|split; [|split; [exact C|]]].
    - rewrite B1, A1. apply (cb2_calls _ _ _ _ _ _ _ C).
    - rewrite B2, A3, Ev, !app_assoc. unfold help_event.
      rewrite (cf_command _ _ (cb2_frame _ _ _ _ _ _ _ C)). reflexivity.
    - intros Q1 Q2 T. rewrite (B3 T).
      assert (L : l_values (ps_cur s1) = l_values (ps_cur s))
        by (destruct A5 as [->| ->]; reflexivity).
      rewrite L. rewrite (cb2_passive _ _ _ _ _ _ _ C Q1 Q2). reflexivity. }
  destruct r.
  - right. right. apply Main; auto.
  - assert (TL : o_type o = OT_LAST_ARGUMENT).
    { destruct (o_type o); try reflexivity; exfalso; apply A4; congruence. }
    eapply when_seq; [apply check_counts_only; exact W1|].
    cbv beta. intros [|] s2 H; cbn [negb]; [subst s2|right; left; auto].
    rewrite bind_gets. destruct (find_first_multi_command_parent _) as [k|].
    + unfold reactivate. rewrite bind_modify. destruct (pop_levels _ _ _) as (cur, ps).
      right. right. apply Main; auto. intros X. contradiction.
    + eapply when_seq; [apply copy_remaining_when; exact W1|].
      cbv beta. intros _ s2 (B1 & B2 & B3). right. right. apply Main; auto.
  - eapply when_seq; [apply copy_remaining_when; exact W1|].
    cbv beta. intros _ s2 (B1 & B2 & B3). right. right. apply Main; auto.
  - destruct (s_auto_exit cfg); [exact I|].
    eapply when_seq; [apply copy_remaining_when; exact W1|].
    cbv beta. intros _ s2 (B1 & B2 & B3). right. right. apply Main; auto.
  - congruence.
Qed.

(** ** Commands and arguments *)

Lemma start_counter_when : forall st, when (fun _ st' => exists ac, st' = set_counter st ac)
  (start_counter cfg st).
Proof.
  intros st. unfold start_counter. rewrite bind_gets. destruct (negb _).
  - simpl. eauto.
  - unfold bind at 1. unfold count_arguments. destruct (count_tokens _ _ _ _ _ _); try exact I.
    simpl. eauto.
Qed.

Definition silent (st st' : pstate) : Prop :=
  ps_calls st' = ps_calls st /\ ps_events st' = ps_events st.

Lemma process_command_silent : forall d st,
  when (fun r st' => ir_code r = IC_COMMAND /\ ir_item r = ItCommand d /\ silent st st')
    (process_command cfg d st).
Proof.
  intros d st. unfold process_command. rewrite bind_modify.
  eapply when_seq; [apply start_counter_when|]. cbv beta. intros _ s (ac & ->).
  rewrite bind_modify. unfold bind, m_current.
  destruct (it_current _); [|exact I]. simpl. repeat split; reflexivity.
Qed.

Definition arg_own_event (a : arg_data) (v : str) := EvArgumentCallback false (a_argument_id a) v.
Definition arg_global_event (a : arg_data) (v : str) := EvArgumentCallback true (a_argument_id a) v.

Definition arg_started (a : arg_data) (st : pstate) (v : str) (ac : arg_counter) : pstate :=
  set_values (set_counter st ac)
    (append_value (l_values (ps_cur st)) (a_value_id a) v (a_argument_id a)).

Lemma process_argument_exact : forall value st, wf_iter (ps_iter st) ->
  when (fun r st' =>
      (exists a ac, r = mk_ir IC_ARGUMENT (ItArgument a) value /\
         find_sibling_command cfg st value = None /\
         next_argument (ps_counter st) = (Some a, ac) /\
         called_both (a_callback a) (argument_cb cfg a) (arg_own_event a value)
           (arg_global_event a value) value (arg_started a st value ac) st') \/
      (ir_code r = IC_COMMAND /\ silent st st') \/
      (ir_code r = IC_UNKNOWN /\ silent st st') \/
      (r = mk_ir IC_ERROR ItNone [] /\ only_error st st'))
    (process_argument cfg value st).
Proof.
  intros value st W. unfold process_argument. rewrite bind_gets.
  destruct (find_sibling_command cfg st value) as [(d, k)|] eqn:Sb.
  - unfold reactivate. rewrite bind_modify.
    eapply when_mono; [apply process_command_silent|]. cbv beta. intros r s (H & _ & Hs).
    right. left. split; [exact H|]. destruct (pop_levels _ _ _). exact Hs.
  - unfold bind at 1, m_next_argument. destruct (next_argument (ps_counter st)) as ([a|], ac) eqn:N.
    + rewrite bind_modify.
      rewrite <- (bind_assoc (run_callback cfg (a_callback a) (arg_own_event a value) value)
                    (fun _ => run_callback cfg (argument_cb cfg a) (arg_global_event a value) value)
                    (fun _ => ret (mk_ir IC_ARGUMENT (ItArgument a) value))).
      eapply when_seq; [apply two_callbacks_exact; auto|]. cbv beta. intros _ s C.
      left. exists a, ac. auto.
    + destruct (s_ignore_arguments cfg).
      * rewrite bind_modify. unfold bind at 1, m_current. destruct (it_current _); [|exact I].
        right. right. left. split; [reflexivity|]. split; reflexivity.
      * eapply when_seq; [apply error_only; exact W|]. cbv beta. intros _ s (H & _).
        right. right. right. split; [reflexivity|exact H].
Qed.

(** ** next *)

Lemma reads_wf : forall st t it, wf_iter (ps_iter st) -> reads st t it ->
  wf_iter it /\ it_kind it = it_kind (ps_iter st).
Proof.
  intros st t it W R. unfold reads in R. destruct (ps_mode st); try contradiction.
  - destruct (next_wf _ W) as (t' & it' & E & W' & K). rewrite E in R. injection R as <- <-. auto.
  - destruct (next_value_wf _ W) as (t' & it' & E & W' & K). rewrite E in R. injection R as <- <-. auto.
Qed.

Lemma reads_some : forall st, wf_iter (ps_iter st) -> in_progress (ps_mode st) ->
  exists t it, reads st t it.
Proof.
  intros st W [M|M]; unfold reads; rewrite M.
  - destruct (next_wf _ W) as (t & it & E & _). eauto.
  - destruct (next_value_wf _ W) as (t & it & E & _). eauto.
Qed.

Lemma next_eq : forall st t it, reads st t it ->
  next cfg st = match t with
                | None => (ok <- check_counts cfg ;;
                           ret (mk_ir (if (ok : bool) then IC_DONE else IC_ERROR) ItNone []))
                            (set_iter st it)
                | Some arg => process_token cfg (ps_mode st) arg (set_iter st it)
                end.
Proof.
  intros st t it R. unfold next. rewrite bind_gets. unfold reads in R.
  destruct (ps_mode st) eqn:M; try contradiction.
  - unfold bind at 1, m_next. rewrite R. destruct t; reflexivity.
  - unfold bind at 1, m_next_value. rewrite R. destruct t; reflexivity.
Qed.

Lemma is_option_iff : forall t style, is_option t style = true <-> looks_like_option style t.
Proof.
  intros [|c [|d r]] style; unfold looks_like_option; simpl.
  - split; [discriminate|]. intros (? & ? & H). discriminate.
  - split; [discriminate|]. intros (? & ? & H). discriminate.
  - rewrite Ascii.eqb_eq. split.
    + intros ->. exists d, r. destruct style; reflexivity.
    + intros (? & ? & H). injection H as -> _ _. destruct style; reflexivity.
Qed.

Lemma next_option_eq : forall st t it, ps_mode st = ARGUMENTS_AND_OPTIONS ->
  it_next (ps_iter st) = Ok (Some t, it) -> looks_like_option (s_style cfg) t ->
  next cfg st = process_option cfg t (set_iter st it).
Proof.
  intros st t it M R L. rewrite (next_eq st (Some t) it) by (unfold reads; rewrite M; exact R).
  rewrite M. unfold process_token. rewrite bind_gets.
  apply is_option_iff in L. rewrite L. reflexivity.
Qed.

(** What a call of next() can do. *)
Inductive next_case (st : pstate) (r : iter_result) (st' : pstate) : Prop :=
| nc_option : forall t it o, ps_mode st = ARGUMENTS_AND_OPTIONS ->
    it_next (ps_iter st) = Ok (Some t, it) -> looks_like_option (s_style cfg) t ->
    find_option (ps_command st) t (s_abbreviations cfg) (s_case_insensitive cfg) = Some o ->
    option_effects o it st r st' -> next_case st r st'
| nc_argument : forall t it a ac, reads st (Some t) it ->
    (ps_mode st = ARGUMENTS_ONLY \/ ~ looks_like_option (s_style cfg) t) ->
    r = mk_ir IC_ARGUMENT (ItArgument a) t -> c_commands (ps_command st) = [] ->
    find_sibling_command cfg (set_iter st it) t = None ->
    next_argument (ps_counter st) = (Some a, ac) ->
    called_both (a_callback a) (argument_cb cfg a) (arg_own_event a t)
      (arg_global_event a t) t (arg_started a (set_iter st it) t ac) st' -> next_case st r st'
| nc_silent : ir_code r = IC_COMMAND \/ ir_code r = IC_UNKNOWN \/ ir_code r = IC_DONE ->
    silent st st' -> next_case st r st'
| nc_error : ir_code r = IC_ERROR -> only_error st st' -> next_case st r st'
| nc_last_argument : forall t it o, ps_mode st = ARGUMENTS_AND_OPTIONS ->
    it_next (ps_iter st) = Ok (Some t, it) -> looks_like_option (s_style cfg) t ->
    find_option (ps_command st) t (s_abbreviations cfg) (s_case_insensitive cfg) = Some o ->
    o_type o = OT_LAST_ARGUMENT -> r = mk_ir IC_ERROR ItNone [] -> next_case st r st'.

Lemma process_option_unknown : forall t st, wf_iter (ps_iter st) ->
  find_option (ps_command st) t (s_abbreviations cfg) (s_case_insensitive cfg) = None ->
  when (fun r st' => (ir_code r = IC_UNKNOWN /\ silent st st') \/
                     (ir_code r = IC_ERROR /\ only_error st st')) (process_option cfg t st).
Proof.
  intros t st W F. unfold process_option. rewrite bind_gets, F.
  destruct (negb (s_ignore_options cfg)).
  - unfold bind at 1, m_current. destruct (it_current _); [|exact I].
    eapply when_seq; [apply error_only; exact W|]. cbv beta. intros _ s0 (H & _).
    right. split; [reflexivity|exact H].
  - unfold bind at 1, m_current. destruct (it_current _); [|exact I]. destruct (negb _).
    + eapply when_seq; [apply error_only; exact W|]. cbv beta. intros _ s0 (H & _).
      right. split; [reflexivity|exact H].
    + rewrite bind_modify. left. split; [reflexivity|]. split; reflexivity.
Qed.

Lemma next_cases : forall st, wf_iter (ps_iter st) ->
  when (fun r st' => next_case st r st') (next cfg st).
Proof.
  intros st W. destruct (ps_mode st) eqn:M.
  3:{ unfold next. rewrite bind_gets, M. simpl. apply nc_silent; [auto|]. split; reflexivity. }
  3:{ unfold next. rewrite bind_gets, M. exact I. }
  all: assert (Pr : in_progress (ps_mode st)) by (rewrite M; unfold in_progress; auto);
    destruct (reads_some st W Pr) as (t & it & R);
    destruct (reads_wf _ _ _ W R) as (W' & _);
    rewrite (next_eq _ _ _ R); destruct t as [t|].
  2,4: eapply when_seq; [apply check_counts_only; exact W'|]; cbv beta; intros [|] s H; simpl;
    [apply nc_silent; [auto|]; subst s; split; reflexivity|apply nc_error; [reflexivity|exact H]].
  all: unfold process_token; rewrite bind_gets, M.
  1: destruct (is_option t (s_style cfg)) eqn:Io; cbn [andb].
  1:{ apply is_option_iff in Io. unfold reads in R. rewrite M in R.
      destruct (find_option (ps_command st) t (s_abbreviations cfg) (s_case_insensitive cfg)) as [o|] eqn:F.
      - eapply when_mono; [apply process_option_exact; eassumption|]. cbv beta.
        intros r s [(-> & (H1 & H2) & _)|[(-> & H)|H]].
        + apply nc_error; [reflexivity|]. split; [exact H1|eexists; exact H2].
        + eapply nc_last_argument; eauto.
        + eapply nc_option; eauto.
      - eapply when_mono; [apply process_option_unknown; eassumption|]. cbv beta.
        intros r s [(H1 & H2)|(H1 & H2)]; [apply nc_silent; auto|apply nc_error; auto]. }
  all: cbn [andb].
  all: assert (No : ps_mode st = ARGUMENTS_ONLY \/ ~ looks_like_option (s_style cfg) t)
    by (rewrite M; first [left; reflexivity | right; rewrite <- is_option_iff; congruence]).
  all: change (ps_command (set_iter st it)) with (ps_command st).
  all: destruct (c_commands (ps_command st)) as [|d0 ds] eqn:Cm; cbn [is_empty].
  1,3: eapply when_mono; [apply process_argument_exact; exact W'|]; cbv beta;
    intros r s [(a & ac & -> & Sb & N & C)|[(H1 & H2)|[(H1 & H2)|(-> & H2)]]];
    [eapply nc_argument; eauto|apply nc_silent; auto|apply nc_silent; auto|apply nc_error; auto].
  all: destruct (find_command _ _ _) as [d|].
  1,3: eapply when_mono; [apply process_command_silent|]; cbv beta;
    intros r s (H1 & _ & H2); apply nc_silent; auto.
  all: eapply when_seq; [apply error_only; exact W'|]; cbv beta; intros _ s (H & _);
    apply nc_error; [reflexivity|exact H].
Qed.


(** ** Options that end the parsing *)

Definition stop_state (o : opt_data) (s : pstate) (l : list str) (it : opt_iter) : pstate :=
  mk_ps (ps_command s) (add_unprocessed (set_breaking_option o (ps_cur s)) l) (ps_parents s) it
    (ps_counter s) ST_DONE (ps_calls s) (ps_events s ++ help_event o s).

Lemma process_option_stops : forall o flag it st, wf_iter it ->
  find_option (ps_command st) flag (s_abbreviations cfg) (s_case_insensitive cfg) = Some o ->
  o_type o = OT_STOP \/ o_type o = OT_EXIT \/ o_type o = OT_HELP ->
  when (fun r st' =>
      r = mk_ir IC_ERROR (ItOption o) [] \/
      (s_auto_exit cfg = true -> o_type o = OT_STOP) /\
      exists it' s l itr, r = mk_ir IC_OPTION (ItOption o) (ir_value r) /\
        reads_value o it (ir_value r) it' /\ wf_iter it' /\
        called_both (o_callback o) (option_cb cfg o) (own_event o (ir_value r))
          (global_event o (ir_value r)) (ir_value r)
          (started o (set_iter st it) (ir_value r) it') s /\
        it_remaining (ps_iter s) = Ok (l, itr) /\ st' = stop_state o s l itr)
    (process_option cfg flag (set_iter st it)).
Proof.
  intros o flag it st W F T. unfold process_option. rewrite bind_gets.
  change (ps_command (set_iter st it)) with (ps_command st). rewrite F.
  eapply when_seq; [apply process_known_option_exact; exact W|].
  cbv beta. intros (r, v) s1 [(E & H)|(it' & s & Rd & Wi & C & Ap)].
  { injection E as -> ->. left. reflexivity. }
  cbn [fst snd] in *.
  assert (Ws : wf_iter (ps_iter s)) by (apply (cf_wf _ _ (cb2_frame _ _ _ _ _ _ _ C)), Wi).
  assert (G : (s_auto_exit cfg = true -> o_type o = OT_STOP) -> s1 = mk_ps (ps_command s) (set_breaking_option o (ps_cur s))
             (ps_parents s) (ps_iter s) (ps_counter s) ST_DONE (ps_calls s)
             (ps_events s ++ help_event o s) ->
    when (fun r st' =>
      r = mk_ir IC_ERROR (ItOption o) [] \/
      (s_auto_exit cfg = true -> o_type o = OT_STOP) /\
      exists it' s l itr, r = mk_ir IC_OPTION (ItOption o) (ir_value r) /\
        reads_value o it (ir_value r) it' /\ wf_iter it' /\
        called_both (o_callback o) (option_cb cfg o) (own_event o (ir_value r))
          (global_event o (ir_value r)) (ir_value r)
          (started o (set_iter st it) (ir_value r) it') s /\
        it_remaining (ps_iter s) = Ok (l, itr) /\ st' = stop_state o s l itr)
      ((copy_remaining ;;; ret (mk_ir IC_OPTION (ItOption o) v)) s1)).
  { intros Au ->. match goal with |- when _ (_ ?x) => set (s1 := x) end.
    destruct (copy_remaining_eq s1 Ws) as (l & itr & E & _ & _ & Cr).
    unfold bind. rewrite Cr. right. split; [exact Au|]. exists it', s, l, itr.
    cbn [ir_value]. repeat (split; [solve [assumption|reflexivity]|]). reflexivity. }
  unfold apply_type in Ap. destruct T as [T|[T|T]]; rewrite T in Ap; vm_compute in Ap;
    injection Ap as <- <-.
  - apply G; [auto|]. unfold help_event. rewrite T, app_nil_r. reflexivity.
  - destruct (s_auto_exit cfg); [exact I|]. apply G; [discriminate|].
    unfold help_event. rewrite T, app_nil_r. reflexivity.
  - destruct (s_auto_exit cfg); [exact I|]. apply G; [discriminate|].
    unfold help_event. rewrite T. reflexivity.
Qed.

End Cfg.

(* ------------------------------------------------------------------------ *)
(** ** Reached states *)

Lemma folded_norm : forall ci a b, are_equal a b ci = true <-> folded ci a = folded ci b.
Proof.
  intros ci a b. rewrite are_equal_norm. apply str_eqb_eq.
Qed.

Section Reached.
Variables (p q : parser_data).
Hypothesis H : finish_parser p = Val q.
Let cfg := d_settings q.
Let top := d_command q.
Variable args : list str.

Lemma reached_shape : forall st n, reached cfg top args st n -> shape cfg top st.
Proof.
  intros st n R. eapply inv_shape. eapply reached_inv; [|exact R].
  eapply finish_parser_prepared; exact H.
Qed.

Lemma shape_values : forall st, shape cfg top st ->
  exists cs, l_values (ps_cur st) = fold_left apply_change cs [].
Proof.
  intros st S. pose proof (sh_open _ _ _ S) as O. inversion O as [|x l Ox Ol]; subst.
  destruct Ox as ((_ & _ & V) & _). exact V.
Qed.

Lemma shape_in_order : forall st, shape cfg top st -> in_order (l_values (ps_cur st)).
Proof.
  intros st S. destruct (shape_values st S) as (cs & ->). apply changes_in_order. constructor.
Qed.

Lemma shape_lookup : forall st t o, shape cfg top st -> dependable cfg (ps_command st) t ->
  (find_option (ps_command st) t (s_abbreviations cfg) (s_case_insensitive cfg) = Some o <->
   selects (s_case_insensitive cfg) (s_abbreviations cfg) (c_options (ps_command st)) t o).
Proof.
  intros st t o S (D1 & D2). apply lookup_proof; auto.
  eapply finished_index_proof; [exact H|]. rewrite (sh_command _ _ _ S).
  eapply chain_within. apply (sh_chain _ _ _ S).
Qed.
End Reached.

Lemma changed_one : forall c vs, in_order vs ->
  changed c vs (match c with None => vs | Some c => apply_change vs c end).
Proof.
  intros [c|] vs S id; [|reflexivity].
  rewrite !get_values_pick by (try apply apply_change_in_order; exact S).
  apply apply_change_pick. exact S.
Qed.

Lemma changed_op : forall o v vs, in_order vs -> changed (option_change o v) vs (op_values o v vs).
Proof. intros o v vs S. apply changed_one. exact S. Qed.
