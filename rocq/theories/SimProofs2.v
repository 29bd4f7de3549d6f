(** Lock-step execution of two parsers (C04, C05). *)
From Verif Require Import Base BaseProofs MStrings MOptIter MData MCounter MValues MParser
  STok SIndex SDef SValues SCounter SParser SStep SEquiv
  TokProofs MonadProofs FrameProofs InvProofs NextProofs ParseProofs StepProofs SimProofs.
Open Scope nat_scope.

Definition rel := pstate -> pstate -> Prop.
Definition iters (R : opt_iter -> opt_iter -> Prop) : rel := fun s t => R (ps_iter s) (ps_iter t).
Definition anyrel : rel := fun _ _ => True.

Section Any.
Context {EvR : ev_rel}.
Definition sim {A} (P Q : rel) (RA : A -> A -> Prop) (m1 m2 : M A) : Prop :=
  forall s t, same_state EvR s t -> P s t -> same_outcome EvR RA Q (m1 s) (m2 t).

Lemma same_outcome_mono : forall A (RA RA' : A -> A -> Prop) (Q Q' : rel) o1 o2,
  (forall a b, RA a b -> RA' a b) -> (forall s t, same_state EvR s t -> Q s t -> Q' s t) ->
  same_outcome EvR RA Q o1 o2 -> same_outcome EvR RA' Q' o1 o2.
Proof.
  intros A RA RA' Q Q' [a s|c s|e s| |] [b t|d t|f t| |] H1 H2 H; simpl in *; auto.
  destruct H as (A1 & A2 & A3). auto.
Qed.

Lemma sim_bind : forall A B P Q Q' (RA : A -> A -> Prop) (RB : B -> B -> Prop) m1 m2 f g,
  sim P Q RA m1 m2 -> (forall a b, RA a b -> sim Q Q' RB (f a) (g b)) ->
  sim P Q' RB (bind m1 f) (bind m2 g).
Proof.
  intros A B P Q Q' RA RB m1 m2 f g H1 H2 s t S0 HP. specialize (H1 s t S0 HP). unfold bind.
  destruct (m1 s) as [a s'|c s'|e s'| |], (m2 t) as [b t'|d t'|e' t'| |]; simpl in H1 |- *; try contradiction; auto.
  destruct H1 as (A1 & A2 & A3). apply H2; assumption.
Qed.

Lemma sim_ret : forall A P (RA : A -> A -> Prop) a b, RA a b -> sim P P RA (ret a) (ret b).
Proof. intros A P RA a b H s t S0 HP. simpl. auto. Qed.

Lemma sim_gets : forall A P (f : pstate -> A), (forall s t, same_state EvR s t -> f s = f t) ->
  sim P P eq (gets f) (gets f).
Proof. intros A P f H s t S0 HP. simpl. auto. Qed.

Lemma sim_modify : forall (P Q : rel) f,
  (forall s t, same_state EvR s t -> P s t -> same_state EvR (f s) (f t) /\ Q (f s) (f t)) ->
  sim P Q eq (modify f) (modify f).
Proof. intros P Q f H s t S0 HP. simpl. split; [reflexivity|]. apply H; assumption. Qed.

Lemma sim_throw : forall A P Q (RA : A -> A -> Prop) e, sim P Q RA (throw e) (throw e).
Proof. intros A P Q RA e s t S0 HP. simpl. auto. Qed.

Lemma sim_exit : forall A P Q (RA : A -> A -> Prop) c, sim P Q RA (exit_with c) (exit_with c).
Proof. intros A P Q RA c s t S0 HP. simpl. auto. Qed.

Lemma sim_mono : forall A (P P' Q Q' : rel) (RA : A -> A -> Prop) m1 m2,
  (forall s t, same_state EvR s t -> P' s t -> P s t) -> (forall s t, same_state EvR s t -> Q s t -> Q' s t) ->
  sim P Q RA m1 m2 -> sim P' Q' RA m1 m2.
Proof.
  intros A P P' Q Q' RA m1 m2 H1 H2 H s t S0 HP. eapply same_outcome_mono; [| |apply H; auto]; auto.
Qed.

Lemma same_form : forall s t, same_state EvR s t ->
  exists c cur ps i j ac m n e f, s = mk_ps c cur ps i ac m n e /\ t = mk_ps c cur ps j ac m n f /\
    Forall2 EvR e f.
Proof.
  intros [c cur ps i ac m n e] [c' cur' ps' j ac' m' n' f] [E1 E2 E3 E4 E5 E6 E7]. simpl in *. subst.
  do 10 eexists. eauto.
Qed.

Ltac forms H :=
  let c := fresh "c" in let cur := fresh "cur" in let ps := fresh "ps" in
  let i := fresh "i" in let j := fresh "j" in let ac := fresh "ac" in
  let m := fresh "m" in let n := fresh "n" in let e := fresh "e" in let f := fresh "f" in
  let F := fresh "F" in
  destruct (same_form _ _ H) as (c & cur & ps & i & j & ac & m & n & e & f & -> & -> & F); clear H.

Ltac same := constructor; first [reflexivity|assumption|idtac].


Lemma ev_app : forall e f x y, Forall2 EvR e f -> EvR x y ->
  Forall2 EvR (e ++ [x]) (f ++ [y]).
Proof. intros e f x y F H. apply Forall2_app; [exact F|]. constructor; [exact H|constructor]. Qed.

Lemma sim_emit2 : forall R x y, EvR x y -> sim (iters R) (iters R) eq (emit x) (emit y).
Proof.
  intros R x y H s t S0 HP. forms S0. simpl. split; [reflexivity|]. split; [|exact HP].
  same. simpl. apply ev_app; assumption.
Qed.

Lemma sim_emit : forall R x, sim (iters R) (iters R) eq (emit x) (emit x).
Proof. intros R x. apply sim_emit2, ev_refl. Qed.

(** Changes that do not concern the tokenizer. *)
Lemma sim_modify_keep : forall R f, (forall s, ps_iter (f s) = ps_iter s) ->
  (forall s t, same_state EvR s t -> same_state EvR (f s) (f t)) -> sim (iters R) (iters R) eq (modify f) (modify f).
Proof.
  intros R f H1 H2. apply sim_modify. intros s t S0 HP. split; [apply H2; exact S0|].
  unfold iters. rewrite !H1. exact HP.
Qed.

(** ** Looking ahead *)

Section Count.
Variable cfg : settings.

Lemma find_sibling_same : forall s t v, same_state EvR s t ->
  find_sibling_command cfg s v = find_sibling_command cfg t v.
Proof. intros s t v S0. forms S0. reflexivity. Qed.

Lemma count_values_same : forall f1 f2 s t min i j r a b, same_state EvR s t -> alike i j ->
  count_values cfg f1 s min i r = CountOk a -> count_values cfg f2 t min j r = CountOk b -> a = b.
Proof.
  induction f1 as [|f1 IH]; intros f2 s t min i j r a b S0 A E1 E2; [discriminate|].
  destruct f2 as [|f2]; [discriminate|]. cbn [count_values] in *.
  destruct (it_next_value i) as [(v, i')|] eqn:En; [|discriminate].
  destruct (alike_value _ _ _ _ A En) as (j' & En' & A'). rewrite En' in E2.
  destruct v as [v|]; [|congruence]. rewrite (ss_command S0) in E2.
  destruct (find_command _ _ _); [congruence|].
  rewrite <- (find_sibling_same _ _ v S0) in E2. destruct (_ && _); [congruence|].
  eapply IH; eassumption.
Qed.

Lemma count_tokens_same : forall f1 f2 s t min i j r a b, same_state EvR s t -> alike_next i j ->
  count_tokens cfg f1 s min i r = CountOk a -> count_tokens cfg f2 t min j r = CountOk b -> a = b.
Proof.
  induction f1 as [|f1 IH]; intros f2 s t min i j r a b S0 A E1 E2; [discriminate|].
  destruct f2 as [|f2]; [discriminate|]. cbn [count_tokens] in *.
  destruct (it_next i) as [(v, i')|] eqn:En; [|discriminate].
  destruct (alike_next_step _ _ _ _ A En) as (j' & En' & A'). rewrite En' in E2.
  destruct v as [v|]; [|eapply count_values_same; eassumption]. rewrite (ss_command S0) in E2.
  destruct (find_option _ _ _ _) as [o|].
  - destruct (negb (is_empty (o_argument o))).
    + destruct (it_next_value i') as [(w, i2)|] eqn:Ev; [|discriminate].
      destruct (alike_value _ _ _ _ A' Ev) as (j2 & Ev' & A2). rewrite Ev' in E2.
      destruct (o_type o); try congruence; try (eapply count_values_same; eassumption);
        (eapply IH; [exact S0| |exact E1|exact E2]; apply an_alike; assumption).
    + destruct (o_type o); try congruence; try (eapply count_values_same; eassumption);
        (eapply IH; [exact S0| |exact E1|exact E2]; apply an_alike; assumption).
  - destruct (is_option v (s_style cfg));
      [eapply IH; [exact S0| |exact E1|exact E2]; apply an_alike; assumption|].
    destruct (find_command _ _ _); [congruence|].
    rewrite <- (find_sibling_same _ _ v S0) in E2. destruct (_ && _); [congruence|].
    eapply IH; [exact S0| |exact E1|exact E2]; apply an_alike; assumption.
Qed.
End Count.

(** What is needed of a relation between tokenizers. *)
Record good (R : opt_iter -> opt_iter -> Prop) : Prop := {
  g_next : forall i j, R i j -> alike_next i j;
  g_insert : forall i j new i', R i j -> it_insert i new = Ok i' ->
    exists j', it_insert j new = Ok j' /\ R i' j'
}.

Lemma good_alike : good alike.
Proof. constructor; [apply an_alike|apply alike_insert]. Qed.
Lemma good_next : good alike_next.
Proof. constructor; [auto|apply alike_next_insert]. Qed.

Section Sim.
Variable cfg : settings.
Variable R : opt_iter -> opt_iter -> Prop.
Hypothesis G : good R.

Lemma count_arguments_sim : sim (iters R) (iters R) eq (count_arguments cfg) (count_arguments cfg).
Proof.
  intros s t S0 HP. pose proof (g_next _ G _ _ HP) as A. pose proof (alike_next_wf _ _ A) as (W1 & W2).
  destruct (count_arguments_total cfg s W1) as (a & E1). destruct (count_arguments_total cfg t W2) as (b & E2).
  rewrite E1, E2. simpl. split; [|auto]. unfold count_arguments in E1, E2.
  rewrite (ss_command S0) in E2.
  destruct (count_tokens cfg (iter_fuel (ps_iter s)) _ _ _ _) eqn:C1; try discriminate.
  destruct (count_tokens cfg (iter_fuel (ps_iter t)) _ _ _ _) eqn:C2; try discriminate.
  injection E1 as <-. injection E2 as <-. eapply count_tokens_same; eassumption.
Qed.

Lemma copy_remaining_sim : sim (iters R) anyrel eq copy_remaining copy_remaining.
Proof.
  intros s t S0 HP. pose proof (g_next _ G _ _ HP) as A. pose proof (alike_next_wf _ _ A) as (W1 & W2).
  destruct (remaining_wf _ W1) as (l & it & E & _). destruct (alike_next_remaining _ _ _ _ A E) as (jt & E').
  unfold copy_remaining. rewrite E, E'. forms S0. simpl. split; [reflexivity|]. split; [same|exact Logic.I].
Qed.

Lemma set_results_same : forall rc s t, same_state EvR s t -> same_state EvR (set_all_results rc s) (set_all_results rc t).
Proof. intros rc s t S0. forms S0. same. Qed.

Lemma error_sim2 : forall m n, (forall c, EvR (EvError c m) (EvError c n)) ->
  sim (iters R) (fun s _ => ps_mode s = ST_ERROR) eq (error cfg m) (error cfg n).
Proof.
  intros m n H. unfold error. eapply sim_bind; [apply sim_gets; intros s t S0; forms S0; reflexivity|].
  intros c _ <-. eapply sim_bind.
  { apply sim_emit2. apply H. }
  intros _ _ _. destruct (s_auto_exit cfg); [apply sim_exit|].
  eapply sim_bind; [apply copy_remaining_sim|]. intros _ _ _.
  eapply sim_bind; [apply sim_modify with (Q := anyrel); intros s t S0 _; split; [apply set_results_same; exact S0|exact Logic.I]|].
  intros _ _ _. apply sim_modify. intros s t S0 _. forms S0. split; [same|reflexivity].
Qed.

Lemma error_sim : forall m, sim (iters R) (fun s _ => ps_mode s = ST_ERROR) eq (error cfg m) (error cfg m).
Proof. intros m. apply error_sim2. intros c. apply ev_refl. Qed.

(** The tokenizers matter only while parsing goes on. *)
Definition going (Q : opt_iter -> opt_iter -> Prop) : rel :=
  fun s t => in_progress (ps_mode s) -> Q (ps_iter s) (ps_iter t).

Lemma failed_going : forall Q s t, ps_mode s = ST_ERROR -> going Q s t.
Proof. intros Q s t E [X|X]; rewrite E in X; discriminate X. Qed.

Lemma error_then : forall A (RA : A -> A -> Prop) Q m n a b, (forall c, EvR (EvError c m) (EvError c n)) -> RA a b ->
  sim (iters R) (going Q) RA (error cfg m ;;; ret a) (error cfg n ;;; ret b).
Proof.
  intros A RA Q m n a b H HA. eapply sim_bind; [apply error_sim2; exact H|]. intros _ _ _.
  intros s t S0 HP. simpl. split; [exact HA|]. split; [exact S0|]. apply failed_going. exact HP.
Qed.

Definition in_error : rel := fun s _ => ps_mode s = ST_ERROR.

Lemma mandatory_then : forall A (RA : A -> A -> Prop) Q (k1 k2 : bool -> M A) opts,
  sim (iters R) Q RA (k1 true) (k2 true) -> sim in_error Q RA (k1 false) (k2 false) ->
  sim (iters R) Q RA (bind (has_all_mandatory cfg opts) k1) (bind (has_all_mandatory cfg opts) k2).
Proof.
  intros A RA Q k1 k2 opts H1 H2. induction opts as [|o r IH]; cbn [has_all_mandatory].
  - intros s t S0 HP. apply H1; assumption.
  - intros s t S0 HP. rewrite !bind_assoc, !bind_gets. rewrite (ss_cur S0).
    destruct (_ && _); [|apply IH; assumption]. rewrite !bind_assoc.
    revert s t S0 HP. eapply sim_bind; [apply error_sim|]. intros _ _ _. exact H2.
Qed.

Definition done_with (Q : opt_iter -> opt_iter -> Prop) : rel :=
  fun s t => Q (ps_iter s) (ps_iter t) /\ ps_mode s = ST_DONE.

Lemma sim_assoc : forall A B C P Q (RC : C -> C -> Prop) (m1 m2 : M A) (f1 f2 : A -> M B) (g1 g2 : B -> M C),
  sim P Q RC (bind m1 (fun a => bind (f1 a) g1)) (bind m2 (fun a => bind (f2 a) g2)) ->
  sim P Q RC (bind (bind m1 f1) g1) (bind (bind m2 f2) g2).
Proof. intros A B C P Q RC m1 m2 f1 f2 g1 g2 H s t S0 HP. rewrite !bind_assoc. apply H; assumption. Qed.

Lemma sim_get_then : forall A B P Q (RB : B -> B -> Prop) (f : pstate -> A) (k1 k2 : A -> M B),
  (forall s t, same_state EvR s t -> f s = f t) -> (forall a, sim P Q RB (k1 a) (k2 a)) ->
  sim P Q RB (bind (gets f) k1) (bind (gets f) k2).
Proof.
  intros A B P Q RB f k1 k2 H1 H2. eapply sim_bind; [apply sim_gets; exact H1|].
  intros a _ <-. apply H2.
Qed.

Ltac getting := apply sim_get_then; [let S0 := fresh in intros ? ? S0; forms S0; reflexivity|].

Lemma check_then : forall A (RA : A -> A -> Prop) Q (k1 k2 : bool -> M A),
  sim (done_with R) Q RA (k1 true) (k2 true) -> sim in_error Q RA (k1 false) (k2 false) ->
  sim (iters R) Q RA (bind (check_counts cfg) k1) (bind (check_counts cfg) k2).
Proof.
  intros A RA Q k1 k2 H1 H2. unfold check_counts. apply sim_assoc. getting. intros c.
  apply sim_assoc. apply mandatory_then; cbn [negb]; [|exact H2].
  assert (Er : forall m, sim (iters R) Q RA (bind (error cfg m ;;; ret false) k1)
                           (bind (error cfg m ;;; ret false) k2)).
  { intros m. apply sim_assoc. eapply sim_bind; [apply error_sim|]. intros _ _ _. exact H2. }
  destruct (c_require c) as [req|]; [|intros s t _ _; exact Logic.I].
  apply sim_assoc. getting. intros subs. destruct (req && is_empty subs); [apply Er|].
  apply sim_assoc. getting. intros ac. destruct (is_complete ac).
  - apply sim_assoc. eapply sim_bind; [|intros _ _ _; exact H1].
    apply sim_modify. intros s t S0 HP. forms S0. split; [same|]. split; [exact HP|reflexivity].
  - destruct (get_min_max_count (c_arguments c)) as (lo, hi). apply Er.
Qed.

(** ** Callbacks *)

Lemma sim_keep : forall f, (forall s, ps_iter (f s) = ps_iter s) ->
  (forall s t, same_state EvR s t -> same_state EvR (f s) (f t)) -> sim (iters R) (iters R) eq (modify f) (modify f).
Proof. apply sim_modify_keep. Qed.

Ltac keep := apply sim_keep; [reflexivity|let S0 := fresh in intros ? ? S0; forms S0; same].

Lemma start_counter_sim : sim (iters R) (iters R) eq (start_counter cfg) (start_counter cfg).
Proof.
  unfold start_counter. getting. intros c. destruct (negb _); [keep|].
  eapply sim_bind; [apply count_arguments_sim|]. intros n _ <-. keep.
Qed.

Lemma update_arguments_sim : forall new, sim (iters R) (iters R) eq (update_arguments cfg new) (update_arguments cfg new).
Proof.
  intros new. unfold update_arguments. destruct (is_empty new); [apply sim_ret; reflexivity|].
  eapply sim_bind with (Q := iters R) (RA := eq).
  { intros s t S0 HP. pose proof (g_next _ G _ _ HP) as A. pose proof (alike_next_wf _ _ A) as (W1 & W2).
    destruct (insert_wf _ new W1) as (it & E & _). destruct (g_insert _ G _ _ _ _ HP E) as (jt & E' & HR).
    rewrite E, E'. forms S0. simpl. split; [reflexivity|]. split; [same|exact HR]. }
  intros _ _ _. getting. intros c. destruct (negb _); [apply sim_ret; reflexivity|].
  getting. intros cur. eapply sim_bind; [apply count_arguments_sim|]. intros n _ <-. keep.
Qed.

Lemma resolve_key_sim : forall k, sim (iters R) (iters R) eq (resolve_key k) (resolve_key k).
Proof.
  intros k s t S0 HP. forms S0. unfold resolve_key. destruct k; simpl.
  - destruct (get_value_id _ _); simpl; [split; [reflexivity|]; split; [same|exact HP]|split; [reflexivity|same]].
  - split; [reflexivity|]. split; [same|exact HP].
Qed.

Lemma user_error_sim : forall m, sim (iters R) (iters R) eq (user_error cfg m) (user_error cfg m).
Proof.
  intros m. unfold user_error. getting. intros c. eapply sim_bind; [apply sim_emit|]. intros _ _ _.
  destruct (s_auto_exit cfg); [apply sim_exit|apply sim_throw].
Qed.

Lemma value_op_sim : forall op, sim (iters R) (iters R) eq (run_value_op cfg op) (run_value_op cfg op).
Proof.
  intros [k v|k v|k|m|m aid]; cbn [run_value_op].
  1-3: eapply sim_bind; [apply resolve_key_sim|]; intros ids _ <-; keep.
  - apply user_error_sim.
  - getting. intros name. apply user_error_sim.
Qed.

Lemma value_ops_sim : forall ops, sim (iters R) (iters R) eq (run_value_ops cfg ops) (run_value_ops cfg ops).
Proof.
  induction ops as [|op r IH]; cbn [run_value_ops]; [apply sim_ret; reflexivity|].
  eapply sim_bind; [apply value_op_sim|]. intros _ _ _. exact IH.
Qed.

Lemma emit_texts_sim : forall ts, sim (iters R) (iters R) eq (emit_texts ts) (emit_texts ts).
Proof.
  induction ts as [|x r IH]; cbn [emit_texts]; [apply sim_ret; reflexivity|].
  eapply sim_bind; [apply sim_emit|]. intros _ _ _. exact IH.
Qed.

Lemma run_callback_sim : forall cb e v, sim (iters R) (iters R) eq (run_callback cfg cb e v) (run_callback cfg cb e v).
Proof.
  intros [f|] e v; unfold run_callback; [|apply sim_ret; reflexivity].
  eapply sim_bind; [apply sim_emit|]. intros _ _ _. getting. intros eff.
  eapply sim_bind; [keep|]. intros _ _ _.
  eapply sim_bind; [apply emit_texts_sim|]. intros _ _ _.
  eapply sim_bind; [apply value_ops_sim|]. intros _ _ _.
  eapply sim_bind with (Q := iters R) (RA := eq).
  { destruct (eff_throws eff); [apply sim_throw|apply sim_ret; reflexivity]. }
  intros _ _ _. apply update_arguments_sim.
Qed.

Lemma reactivate_sim : forall k, sim (iters R) (iters R) eq (reactivate k) (reactivate k).
Proof.
  intros k. unfold reactivate. apply sim_modify. intros s t S0 HP. forms S0. cbn.
  destruct (pop_levels k cur ps). split; [same|exact HP].
Qed.

Lemma apply_type_sim : forall o, sim (iters R) (iters R) eq (apply_type o) (apply_type o).
Proof.
  intros o. unfold apply_type. destruct (o_type o).
  2:{ getting. intros c. eapply sim_bind; [apply sim_emit|]. intros _ _ _.
      eapply sim_bind; [keep|]. intros _ _ _. eapply sim_bind; [keep|]. intros _ _ _.
      apply sim_ret. reflexivity. }
  all: repeat (eapply sim_bind; [keep|]; intros _ _ _); apply sim_ret; reflexivity.
Qed.
End Sim.

End Any.

Ltac forms H :=
  let c := fresh "c" in let cur := fresh "cur" in let ps := fresh "ps" in
  let i := fresh "i" in let j := fresh "j" in let ac := fresh "ac" in
  let m := fresh "m" in let n := fresh "n" in let e := fresh "e" in let f := fresh "f" in
  let F := fresh "F" in
  destruct (same_form _ _ H) as (c & cur & ps & i & j & ac & m & n & e & f & -> & -> & F); clear H.

Ltac same := constructor; first [reflexivity|assumption|idtac].
Ltac getting := apply sim_get_then; [let S0 := fresh in intros ? ? S0; forms S0; reflexivity|].
Ltac keep := apply sim_keep; [reflexivity|let S0 := fresh in intros ? ? S0; forms S0; same].
