(** Lock-step execution of two parsers: options, arguments, next() (C04, C05). *)
From Verif Require Import Base BaseProofs MStrings MOptIter MData MCounter MValues MParser
  STok SIndex SDef SValues SCounter SParser SStep SEquiv
  TokProofs MonadProofs FrameProofs InvProofs NextProofs ParseProofs StepProofs SimProofs SimProofs2.
Open Scope nat_scope.

(** The results may differ in the argument shown for a command or an unknown item. *)
Lemma ir_refl : forall r, ir_alike r r.
Proof. intros r. split; [reflexivity|]. split; reflexivity. Qed.

Section Options.
Context {EvR : ev_rel}.
Variable cfg : settings.
Variable R : opt_iter -> opt_iter -> Prop.
Hypothesis G : good R.

Lemma copy_then : forall A (RA : A -> A -> Prop) Q a b, RA a b ->
  sim (EvR := EvR) (done_with R) (going Q) RA (copy_remaining ;;; ret a) (copy_remaining ;;; ret b).
Proof.
  intros A RA Q a b H s t S0 (HP & M).
  pose proof (copy_remaining_sim R G s t S0 HP) as X.
  assert (Y : when (fun _ s' => ps_mode s' = ps_mode s) (copy_remaining s)).
  { unfold copy_remaining. destruct (it_remaining (ps_iter s)) as [(l, it)|]; [reflexivity|exact I]. }
  unfold bind. destruct (copy_remaining s) as [[] s'|? ?|? ?| |], (copy_remaining t) as [[] t'|? ?|? ?| |];
    simpl in X |- *; try contradiction; auto.
  destruct X as (_ & X & _). split; [exact H|]. split; [exact X|].
  intros Pr. simpl in Y. rewrite Y, M in Pr. destruct Pr as [Z|Z]; discriminate Z.
Qed.

Variable o : opt_data.
Hypothesis V : takes_value o -> forall i j t i', R i j -> it_next_value i = Ok (t, i') ->
  exists j', it_next_value j = Ok (t, j') /\ R i' j'.

Lemma next_value_sim : takes_value o -> sim (EvR := EvR) (iters R) (iters R) eq m_next_value m_next_value.
Proof.
  intros Tv s t S0 HP. pose proof (g_next _ G _ _ HP) as A. pose proof (alike_next_wf _ _ A) as (W1 & W2).
  destruct (next_value_wf _ W1) as (v & it & E & _). destruct (V Tv _ _ _ _ HP E) as (jt & E' & HR).
  unfold m_next_value. rewrite E, E'. forms S0. simpl. split; [reflexivity|]. split; [same|exact HR].
Qed.

Ltac keep := apply (sim_keep R); [reflexivity|let S0 := fresh in intros ? ? S0; forms S0; same].

Lemma operation_then : forall A (RA : A -> A -> Prop) Q flag (k1 k2 : option str -> M A),
  (forall v, sim (EvR := EvR) (iters R) Q RA (k1 (Some v)) (k2 (Some v))) ->
  sim (EvR := EvR) in_error Q RA (k1 None) (k2 None) ->
  sim (EvR := EvR) (iters R) Q RA (bind (apply_operation cfg o flag) k1) (bind (apply_operation cfg o flag) k2).
Proof.
  intros A RA Q flag k1 k2 H1 H2. unfold apply_operation.
  assert (Rd : o_constant o = [] -> o_operation o = OP_ASSIGN \/ o_operation o = OP_APPEND ->
    forall f : str -> pstate -> pstate, (forall v s, ps_iter (f v s) = ps_iter s) ->
    (forall v s t, same_state EvR s t -> same_state EvR (f v s) (f v t)) ->
    let m := v <- m_next_value ;;
             match v with
             | Some value => modify (f value) ;;; ret (Some value)
             | None => error cfg (MsgNoValue flag) ;;; ret None
             end in
    sim (EvR := EvR) (iters R) Q RA (bind m k1) (bind m k2)).
  { intros Ec Eo f F1 F2. apply sim_assoc. eapply sim_bind; [apply next_value_sim; split; assumption|].
    intros [v|] _ <-.
    - apply sim_assoc. eapply sim_bind; [apply (sim_keep R); [apply F1|apply F2]|]. intros _ _ _. apply H1.
    - apply sim_assoc. eapply sim_bind; [apply error_sim; exact G|]. intros _ _ _. exact H2. }
  destruct (o_operation o) eqn:Op.
  - exact (H1 []).
  - destruct (o_constant o) as [|c0 c1] eqn:Ec; cbn [is_empty negb].
    + apply Rd with (f := fun value st => set_values st (assign_value (l_values (ps_cur st)) (o_value_id o) value (o_argument_id o))); auto.
      intros v s t S0. forms S0. same.
    + apply sim_assoc. eapply sim_bind; [keep|]. intros _ _ _. exact (H1 []).
  - destruct (o_constant o) as [|c0 c1] eqn:Ec; cbn [is_empty negb].
    + apply Rd with (f := fun value st => set_values st (append_value (l_values (ps_cur st)) (o_value_id o) value (o_argument_id o))); auto.
      intros v s t S0. forms S0. same.
    + apply sim_assoc. eapply sim_bind; [keep|]. intros _ _ _. exact (H1 []).
  - apply sim_assoc. eapply sim_bind; [keep|]. intros _ _ _. exact (H1 []).
Qed.

(** The result that the type of an option gives. *)
Definition result_of (ty : option_type) : option_result :=
  match ty with
  | OT_NORMAL | OT_LAST_OPTION => OR_NORMAL
  | OT_HELP | OT_EXIT => OR_EXIT
  | OT_STOP => OR_STOP
  | OT_LAST_ARGUMENT => OR_LAST_ARGUMENT
  end.

Lemma type_then : forall A (RA : A -> A -> Prop) Q (k1 k2 : option_result -> M A),
  (o_type o = OT_NORMAL \/ o_type o = OT_LAST_OPTION -> sim (EvR := EvR) (iters R) Q RA (k1 OR_NORMAL) (k2 OR_NORMAL)) ->
  (o_type o <> OT_NORMAL -> o_type o <> OT_LAST_OPTION ->
   sim (EvR := EvR) (done_with R) Q RA (k1 (result_of (o_type o))) (k2 (result_of (o_type o)))) ->
  sim (EvR := EvR) (iters R) Q RA (bind (apply_type o) k1) (bind (apply_type o) k2).
Proof.
  intros A RA Q k1 k2 H1 H2. unfold apply_type.
  assert (Br : sim (EvR := EvR) (iters R) (done_with R) eq (modify (fun st => set_mode st ST_DONE))
                 (modify (fun st => set_mode st ST_DONE))).
  { apply sim_modify. intros s t S0 HP. forms S0. split; [same|]. split; [exact HP|reflexivity]. }
  assert (Bo : sim (EvR := EvR) (done_with R) (done_with R) eq
      (modify (fun st => set_cur st (set_breaking_option o (ps_cur st))))
      (modify (fun st => set_cur st (set_breaking_option o (ps_cur st))))).
  { apply sim_modify. intros s t S0 HP. forms S0. split; [same|]. exact HP. }
  destruct (o_type o) eqn:T; cbn [result_of] in H2.
  1: exact (H1 (or_introl eq_refl)).
  all: try (apply sim_assoc; eapply sim_bind; [exact Br|]; intros _ _ _;
            apply sim_assoc; eapply sim_bind; [exact Bo|]; intros _ _ _; apply H2; discriminate).
  all: try (apply sim_assoc; eapply sim_bind; [exact Br|]; intros _ _ _; apply H2; discriminate).
  all: try (apply sim_assoc; eapply sim_bind; [keep|]; intros _ _ _; exact (H1 (or_intror eq_refl))).
  apply sim_assoc. apply sim_get_then; [intros s t S0; forms S0; reflexivity|]. intros c.
  apply sim_assoc. eapply sim_bind; [apply sim_emit|]. intros _ _ _.
  apply sim_assoc. eapply sim_bind; [exact Br|]. intros _ _ _.
  apply sim_assoc. eapply sim_bind; [exact Bo|]. intros _ _ _. apply H2; discriminate.
Qed.

(** After the value has been read. *)
Definition act (v : str) : M (option_result * str) :=
  run_callback cfg (o_callback o) (EvOptionCallback false (o_argument_id o) v) v ;;;
  run_callback cfg (option_cb cfg o) (EvOptionCallback true (o_argument_id o) v) v ;;;
  r <- apply_type o ;; ret (r, v).

Lemma act_then : forall A (RA : A -> A -> Prop) Q v (k1 k2 : option_result * str -> M A),
  (o_type o = OT_NORMAL \/ o_type o = OT_LAST_OPTION -> sim (EvR := EvR) (iters R) Q RA (k1 (OR_NORMAL, v)) (k2 (OR_NORMAL, v))) ->
  (o_type o <> OT_NORMAL -> o_type o <> OT_LAST_OPTION ->
   sim (EvR := EvR) (done_with R) Q RA (k1 (result_of (o_type o), v)) (k2 (result_of (o_type o), v))) ->
  sim (EvR := EvR) (iters R) Q RA (bind (act v) k1) (bind (act v) k2).
Proof.
  intros A RA Q v k1 k2 H1 H2. unfold act.
  apply sim_assoc. eapply sim_bind; [apply run_callback_sim; exact G|]. intros _ _ _.
  apply sim_assoc. eapply sim_bind; [apply run_callback_sim; exact G|]. intros _ _ _.
  apply sim_assoc. apply type_then; assumption.
Qed.

(** What process_option does with the result. *)
Definition conclude (r : option_result) (arg : str) : M iter_result :=
  match r with
  | OR_EXIT => if s_auto_exit cfg then exit_with (s_normal_exit cfg)
               else copy_remaining ;;; ret (mk_ir IC_OPTION (ItOption o) arg)
  | OR_ERROR => ret (mk_ir IC_ERROR (ItOption o) [])
  | OR_LAST_ARGUMENT =>
      ok <- check_counts cfg ;;
      if negb ok then ret (mk_ir IC_ERROR ItNone [])
      else
        k <- gets find_first_multi_command_parent ;;
        match k with
        | Some k => reactivate k ;;; ret (mk_ir IC_OPTION (ItOption o) arg)
        | None => copy_remaining ;;; ret (mk_ir IC_OPTION (ItOption o) arg)
        end
  | OR_STOP => copy_remaining ;;; ret (mk_ir IC_OPTION (ItOption o) arg)
  | OR_NORMAL => ret (mk_ir IC_OPTION (ItOption o) arg)
  end.

Lemma conclude_sim : forall v, o_type o <> OT_NORMAL -> o_type o <> OT_LAST_OPTION ->
  sim (EvR := EvR) (done_with R) (going R) ir_alike (conclude (result_of (o_type o)) v) (conclude (result_of (o_type o)) v).
Proof.
  intros v N1 N2. destruct (o_type o); try contradiction; cbn [result_of conclude].
  all: try (apply copy_then, ir_refl).
  all: try (destruct (s_auto_exit cfg); [apply sim_exit|apply copy_then, ir_refl]).
  eapply sim_mono with (P := iters R) (Q := going R); [intros s t _ H; apply H|auto|].
  apply check_then; [exact G| |]; cbn [negb].
  - apply sim_get_then; [intros s t S0; forms S0; reflexivity|]. intros [k|].
    + eapply sim_mono with (P := iters R) (Q := iters R);
        [intros s t _ H; apply H|intros s t _ H _; exact H|].
      eapply sim_bind; [apply reactivate_sim|]. intros _ _ _. apply sim_ret, ir_refl.
    + apply copy_then, ir_refl.
  - eapply sim_mono with (P := in_error) (Q := in_error); [auto|intros s t _ H; apply failed_going; exact H|].
    apply sim_ret, ir_refl.
Qed.

Lemma known_sim : forall flag,
  sim (EvR := EvR) (iters R) (going R) ir_alike
    (bind (process_known_option cfg o flag) (fun ra => let (r, arg) := (ra : option_result * str) in conclude r arg))
    (bind (process_known_option cfg o flag) (fun ra => let (r, arg) := (ra : option_result * str) in conclude r arg)).
Proof.
  intros flag. unfold process_known_option. apply sim_assoc. apply operation_then.
  - intros v. apply act_then.
    + intros _. eapply sim_mono with (P := iters R) (Q := iters R); [auto|intros s t _ H _; exact H|].
      apply sim_ret, ir_refl.
    + intros N1 N2. apply conclude_sim; assumption.
  - eapply sim_mono with (P := in_error) (Q := in_error); [auto|intros s t _ H; apply failed_going; exact H|].
    apply sim_ret, ir_refl.
Qed.
End Options.

Section Next.
Variable cfg : settings.
Hypothesis NU : s_ignore_options cfg = false.

Lemma current_any : forall s, m_current s = match it_current (ps_iter s) with
  | Some c => Ret c s | None => Throws ENoCurrent s end.
Proof. reflexivity. Qed.

Definition nonempty (R : opt_iter -> opt_iter -> Prop) : opt_iter -> opt_iter -> Prop :=
  fun i j => R i j /\ it_args i <> [] /\ it_args j <> [].

Lemma insert_nonempty : forall i new i', it_args i <> [] -> it_insert i new = Ok i' -> it_args i' <> [].
Proof.
  intros [k l p] new i' N0 E. cbn [it_args] in N0. destruct l as [|a l]; [contradiction|].
  assert (T : forall it, it_args it <> [] -> insert_tail it new = Ok i' -> it_args i' <> []).
  { intros it Ni Ei. unfold insert_tail in Ei. destruct (it_args it) as [|x y]; [contradiction|].
    destruct (pos_nonzero _); injection Ei as <-; [discriminate|]. simpl. intros X. apply app_eq_nil in X.
    destruct X; discriminate. }
  unfold it_insert in E. cbn [it_kind] in E. destruct k; [|eapply T; [|exact E]; discriminate].
  unfold std_insert in E. destruct (split_concatenated_flags _) as [it|] eqn:Es; [|discriminate].
  eapply T; [|exact E]. clear E. unfold split_concatenated_flags in Es. cbn [it_kind it_args it_pos] in Es.
  destruct (pos_nonzero p); [|injection Es as <-; discriminate].
  destruct p as [k|]; [|injection Es as <-; discriminate].
  destruct (length a <=? k); [injection Es as <-; discriminate|].
  destruct (nth_error a 1); [|discriminate]. destruct (Ascii.eqb _ _); injection Es as <-; discriminate.
Qed.

Lemma good_nonempty : forall R, good R -> good (nonempty R).
Proof.
  intros R G. constructor.
  - intros i j (H & _). apply (g_next _ G). exact H.
  - intros i j new i' (H & N1 & N2) E. destruct (g_insert _ G _ _ _ _ H E) as (j' & E' & H').
    exists j'. split; [exact E'|]. split; [exact H'|]. split; [exact (insert_nonempty _ _ _ N1 E)|exact (insert_nonempty _ _ _ N2 E')].
Qed.

Lemma current_then : forall A R Q (RA : A -> A -> Prop) k1 k2,
  (forall a b, sim (EvR := ev_alike) (iters (nonempty R)) Q RA (k1 a) (k2 b)) ->
  sim (EvR := ev_alike) (iters (nonempty R)) Q RA (bind m_current k1) (bind m_current k2).
Proof.
  intros A R Q RA k1 k2 H. eapply sim_bind with (Q := iters (nonempty R)) (RA := fun _ _ => True).
  - intros s t S0 HP. unfold m_current. destruct HP as (HR & N1 & N2). unfold it_current.
    destruct (it_args (ps_iter s)) eqn:E1; [contradiction|]. destruct (it_args (ps_iter t)) eqn:E2; [contradiction|].
    simpl. split; [exact Logic.I|]. split; [exact S0|]. split; [exact HR|]. rewrite E1, E2. auto.
  - intros a b _. apply H.
Qed.

Lemma unknown_sim : forall R Q, good R ->
  sim (EvR := ev_alike) (iters (nonempty R)) (going Q) ir_alike
    (cur <- m_current ;; error cfg (MsgUnknownOption cur) ;;; ret (mk_ir IC_ERROR ItNone []))
    (cur <- m_current ;; error cfg (MsgUnknownOption cur) ;;; ret (mk_ir IC_ERROR ItNone [])).
Proof.
  intros R Q G. apply current_then. intros a b. apply error_then; [apply good_nonempty, G| |apply ir_refl].
  intros c. right. do 3 eexists. split; reflexivity.
Qed.

Lemma option_sim : forall flag, sim (EvR := ev_alike) (iters (nonempty alike)) (going alike) ir_alike
  (process_option cfg flag) (process_option cfg flag).
Proof.
  intros flag. unfold process_option. apply sim_get_then; [intros s t S0; forms S0; reflexivity|].
  intros c. destruct (find_option c flag _ _) as [o|].
  - eapply sim_mono with (P := iters alike) (Q := going alike); [intros s t _ H; apply H|auto|].
    apply (known_sim cfg alike good_alike o); intros; eapply alike_value; eassumption.
  - rewrite NU. cbn [negb]. apply unknown_sim. exact good_alike.
Qed.

Lemma command_sim : forall d, sim (EvR := ev_alike) (iters (nonempty alike)) (going alike) ir_alike
  (process_command cfg d) (process_command cfg d).
Proof.
  intros d. unfold process_command. pose proof (good_nonempty _ good_alike) as G.
  eapply sim_bind with (Q := iters (nonempty alike)) (RA := eq).
  { apply sim_modify. intros s t S0 HP. forms S0. split; [same|exact HP]. }
  intros _ _ _. eapply sim_bind; [apply start_counter_sim; exact G|]. intros _ _ _.
  eapply sim_bind with (Q := iters (nonempty alike)) (RA := eq).
  { apply sim_modify. intros s t S0 HP. forms S0. split; [same|exact HP]. }
  intros _ _ _. apply current_then. intros a b.
  eapply sim_mono with (P := iters alike) (Q := iters alike);
    [intros s t _ H; apply H|intros s t _ H _; exact H|].
  apply sim_ret. split; [reflexivity|]. split; [reflexivity|]. intros _ N0. contradiction N0. reflexivity.
Qed.

Lemma argument_sim : forall v, sim (EvR := ev_alike) (iters (nonempty alike)) (going alike) ir_alike
  (process_argument cfg v) (process_argument cfg v).
Proof.
  intros v. unfold process_argument. pose proof (good_nonempty _ good_alike) as G.
  apply sim_get_then; [intros s t S0; eapply find_sibling_same; exact S0|]. intros [(d, k)|].
  - eapply sim_bind; [apply reactivate_sim|]. intros _ _ _. apply command_sim.
  - eapply sim_bind with (Q := iters (nonempty alike)) (RA := eq).
    { intros s t S0 HP. forms S0. unfold m_next_argument. cbn [ps_counter].
      destruct (next_argument ac) as (a, ac'). simpl. split; [reflexivity|]. split; [same|exact HP]. }
    intros [a|] _ <-.
    + eapply sim_bind with (Q := iters (nonempty alike)) (RA := eq).
      { apply sim_modify. intros s t S0 HP. forms S0. split; [same|exact HP]. }
      intros _ _ _. eapply sim_bind; [apply run_callback_sim; exact G|]. intros _ _ _.
      eapply sim_bind; [apply run_callback_sim; exact G|]. intros _ _ _.
      eapply sim_mono with (P := iters alike) (Q := iters alike);
        [intros s t _ H; apply H|intros s t _ H _; exact H|].
      apply sim_ret, ir_refl.
    + destruct (s_ignore_arguments cfg).
      * eapply sim_bind with (Q := iters (nonempty alike)) (RA := eq).
        { apply sim_modify. intros s t S0 HP. forms S0. split; [same|exact HP]. }
        intros _ _ _. apply current_then. intros a b.
        eapply sim_mono with (P := iters alike) (Q := iters alike);
          [intros s t _ H; apply H|intros s t _ H _; exact H|].
        apply sim_ret. split; [reflexivity|]. split; [reflexivity|]. intros N0. contradiction N0. reflexivity.
      * apply error_then; [exact G| |apply ir_refl]. intros ?. left. reflexivity.
Qed.

Lemma token_sim : forall mode v, sim (EvR := ev_alike) (iters (nonempty alike)) (going alike) ir_alike
  (process_token cfg mode v) (process_token cfg mode v).
Proof.
  intros mode v. unfold process_token. apply sim_get_then; [intros s t S0; forms S0; reflexivity|].
  intros c. destruct (_ && _); [apply option_sim|]. destruct (is_empty _); [apply argument_sim|].
  destruct (find_command _ _ _); [apply command_sim|].
  apply error_then; [apply good_nonempty, good_alike| |apply ir_refl]. intros ?. left. reflexivity.
Qed.

Lemma finish_sim : sim (EvR := ev_alike) (iters alike) (going alike) ir_alike
  (ok <- check_counts cfg ;; ret (mk_ir (if (ok : bool) then IC_DONE else IC_ERROR) ItNone []))
  (ok <- check_counts cfg ;; ret (mk_ir (if (ok : bool) then IC_DONE else IC_ERROR) ItNone [])).
Proof.
  apply check_then; [exact good_alike| |].
  - intros s t S0 (_ & M). simpl. split; [apply ir_refl|]. split; [exact S0|].
    intros [X|X]; rewrite M in X; discriminate X.
  - intros s t S0 M. simpl. split; [apply ir_refl|]. split; [exact S0|]. apply failed_going. exact M.
Qed.

(** With the token that has been read. *)
Lemma read_token_sim : forall s t mode v i j, same_state ev_alike s t -> alike i j ->
  (v <> None -> it_args i <> [] /\ it_args j <> []) ->
  same_outcome ev_alike ir_alike (going alike)
    (match v with
     | None => (ok <- check_counts cfg ;; ret (mk_ir (if (ok : bool) then IC_DONE else IC_ERROR) ItNone []))
     | Some arg => process_token cfg mode arg
     end (set_iter s i))
    (match v with
     | None => (ok <- check_counts cfg ;; ret (mk_ir (if (ok : bool) then IC_DONE else IC_ERROR) ItNone []))
     | Some arg => process_token cfg mode arg
     end (set_iter t j)).
Proof.
  intros s t mode v i j S0 A N0.
  assert (S1 : same_state ev_alike (set_iter s i) (set_iter t j)) by (forms S0; same).
  destruct v as [v|]; [apply token_sim|apply finish_sim]; auto. split; [exact A|]. apply N0. discriminate.
Qed.

Lemma first_args : forall l v it, std_first l = Ok (Some v, it) -> it_args it <> [].
Proof.
  intros [|a r] v it E; unfold std_first in E; [discriminate|].
  destruct (length a <=? 2); [injection E as _ <-; discriminate|].
  destruct (nth_error a 0), (nth_error a 1); try discriminate.
  destruct (negb _); [injection E as _ <-; discriminate|]. destruct (negb _); [injection E as _ <-; discriminate|].
  destruct (find_char _ _); injection E as _ <-; discriminate.
Qed.

Lemma pre_first_args : forall p l v it, pre_first p l = Ok (Some v, it) -> it_args it <> [].
Proof.
  intros p [|a r] v it E; unfold pre_first in E; [discriminate|].
  destruct (length a <=? 2); [injection E as _ <-; discriminate|].
  destruct (nth_error a 0); try discriminate.
  destruct (negb _); [injection E as _ <-; discriminate|].
  destruct (find_char _ _); injection E as _ <-; discriminate.
Qed.

Lemma next_args : forall i v i', it_next i = Ok (Some v, i') -> it_args i' <> [].
Proof.
  intros i v i' E. unfold it_next in E. destruct (it_kind i).
  - unfold std_next in E. destruct (pos_nonzero _); [|eapply first_args; exact E].
    destruct (it_args i) as [|a l]; [discriminate|]. destruct (it_pos i) as [k|]; [|eapply first_args; exact E].
    destruct (k <? length a); [|eapply first_args; exact E].
    destruct (nth_error a 1), (nth_error a k); try discriminate.
    destruct (negb _); [injection E as _ <-; discriminate|eapply first_args; exact E].
  - unfold pre_next in E. destruct (pos_nonzero _); [|eapply pre_first_args; exact E].
    destruct (it_args i); [discriminate|eapply pre_first_args; exact E].
Qed.

Lemma next_value_args : forall i v i', it_next_value i = Ok (Some v, i') -> it_args i' <> [].
Proof.
  intros i v i' E. unfold it_next_value in E. destruct (it_kind i); unfold std_next_value, pre_next_value in E;
    (destruct (it_args i) as [|a l]; [discriminate|]); (destruct (it_pos i) as [k|];
    [destruct (k <=? length a); [injection E as _ <-; discriminate|discriminate]|]);
    (destruct l; [discriminate|injection E as _ <-; discriminate]).
Qed.

(** In options mode it is enough that the same tokens follow. *)
Lemma next_sim_options : forall s t, same_state ev_alike s t -> ps_mode s = ARGUMENTS_AND_OPTIONS ->
  alike_next (ps_iter s) (ps_iter t) -> same_outcome ev_alike ir_alike (going alike) (next cfg s) (next cfg t).
Proof.
  intros s t S0 M A. pose proof (alike_next_wf _ _ A) as (W1 & W2).
  destruct (next_wf _ W1) as (v & i & E & _). destruct (alike_next_step _ _ _ _ A E) as (j & E' & A').
  assert (R1 : reads s v i) by (unfold reads; rewrite M; exact E).
  assert (R2 : reads t v j) by (unfold reads; rewrite (ss_mode S0), M; exact E').
  rewrite (next_eq cfg _ _ _ R1), (next_eq cfg _ _ _ R2), (ss_mode S0), M.
  pose proof (read_token_sim s t ARGUMENTS_AND_OPTIONS v i j S0 A') as X.
  destruct v as [v|]; apply X.
  - intros _. split; eapply next_args; eassumption.
  - intros N0. contradiction N0. reflexivity.
Qed.

Lemma next_sim : sim (EvR := ev_alike) (going alike) (going alike) ir_alike (next cfg) (next cfg).
Proof.
  intros s t S0 HP. destruct (ps_mode s) eqn:M.
  - apply next_sim_options; auto. apply an_alike, HP. rewrite M. left. reflexivity.
  - assert (A : alike (ps_iter s) (ps_iter t)) by (apply HP; rewrite M; right; reflexivity).
    pose proof (alike_wf _ _ A) as (W1 & W2).
    destruct (next_value_wf _ W1) as (v & i & E & _). destruct (alike_value _ _ _ _ A E) as (j & E' & A').
    assert (R1 : reads s v i) by (unfold reads; rewrite M; exact E).
    assert (R2 : reads t v j) by (unfold reads; rewrite (ss_mode S0), M; exact E').
    rewrite (next_eq cfg _ _ _ R1), (next_eq cfg _ _ _ R2), (ss_mode S0), M.
    pose proof (read_token_sim s t ARGUMENTS_ONLY v i j S0 A') as X.
    destruct v as [v|]; apply X.
    + intros _. split; eapply next_value_args; eassumption.
    + intros N0. contradiction N0. reflexivity.
  - unfold next. rewrite !bind_gets, (ss_mode S0), M. simpl. split; [apply ir_refl|]. auto.
  - unfold next. rewrite !bind_gets, (ss_mode S0), M. simpl. auto.
Qed.

Lemma loop_sim : forall fuel, sim (EvR := ev_alike) (going alike) anyrel eq (parse_loop cfg fuel) (parse_loop cfg fuel).
Proof.
  induction fuel as [|fuel IH]; [intros s t _ _; exact Logic.I|]. cbn [parse_loop].
  eapply sim_bind; [apply next_sim|]. intros r q (E & _). rewrite E.
  destruct (ir_code q); try apply IH;
    (intros s t S0 _; simpl; split; [reflexivity|]; split; [exact S0|exact Logic.I]).
Qed.
End Next.
