(** The properties of whole executions in the memory model. *)
From Verif Require Import Base BaseProofs MStrings MOptIter MData MCounter MValues MParser MMemory
  STok SIndex SDef SValues SCounter SHelp SParser SStep SCallback SMemory TokProofs ValuesProofs CounterProofs CounterInv
  MonadProofs FrameProofs InvProofs NextProofs ParseProofs StepProofs MemoryProofs MemoryProofs2.
Open Scope nat_scope.

Lemma initial_agree : forall opts m st, agree m st ->
  let m' := fold_left (fun m o => if negb (is_empty (o_initial_value o))
    then snd (mem_append m (o_value_id o) (o_initial_value o) (o_argument_id o)) else m) opts m in
  let vs := fold_left (fun vs o => if negb (is_empty (o_initial_value o))
    then append_value vs (o_value_id o) (o_initial_value o) (o_argument_id o) else vs) opts (l_values (ps_cur st)) in
  agree m' (set_values st vs).
Proof.
  induction opts as [|o r IH]; intros m st A; cbn [fold_left].
  - eapply agree_same; [|exact A]. constructor; reflexivity.
  - destruct (negb (is_empty (o_initial_value o))); [|apply IH; exact A].
    destruct (mem_append m (o_value_id o) (o_initial_value o) (o_argument_id o)) as [b m1] eqn:E.
    destruct (append_step (fun _ => True) _ _ _ _ _ _ _ A E) as (A1 & _). cbn [snd].
    specialize (IH _ _ A1). eapply agree_same; [|exact IH]. constructor; reflexivity.
Qed.

Lemma held_key : forall m id b, held m id b <-> has_key m id b.
Proof.
  intros m id b. unfold held, has_key, all_nodes. split.
  - intros (vs & aid & J1 & J2). exists vs. split; [exact J1|]. eapply in_keys. exact J2.
  - intros (vs & J1 & J2). apply keys_in in J2. destruct J2 as (aid & J2). eauto.
Qed.

Section Reach.
Variable p q : parser_data.
Hypothesis H : finish_parser p = Val q.
Let cfg := d_settings q.
Let top := d_command q.

Lemma memory_reached : forall args m st, in_memory cfg top args m st ->
  agree m st /\ (exists n, reached cfg top args st n).
Proof.
  intros args m st R. induction R as [st E|m st r m' st' R (A & n & IH) E].
  - split; [|exists 0%N; constructor; exact E].
    assert (A0 : agree empty_memory (set_values (initial_state cfg top args) [])).
    { constructor; cbn; try constructor; try (intros ? []); intros; discriminate. }
    pose proof (initial_agree (c_options top) _ _ A0) as A1. cbv zeta in A1.
    pose proof (keeps_start cfg (initial_state cfg top args)) as S. rewrite E in S.
    eapply agree_same; [exact S|]. eapply agree_same; [|exact A1]. constructor; reflexivity.
  - pose proof (reached_shape p q H args st n IH) as Sh.
    pose proof (next_sim cfg (fun _ _ => False) top (ps_command st) (finish_parser_prepared p q H)) as N.
    assert (P : placed top (ps_command st) st).
    { split; [apply (sh_command _ _ _ Sh)|]. split; [split; [|reflexivity]|apply (sh_from _ _ _ Sh)].
      rewrite (sh_command _ _ _ Sh). eapply chain_within. apply (sh_chain _ _ _ Sh). }
    destruct (N ltac:(split; intros ? ? _ []) m st A P) as [(_ & X)|X]; [congruence|].
    destruct (next cfg st) as [r0 s|? ?|? ?| |] eqn:En; try congruence.
    destruct X as (a & m1 & X1 & X2 & X3 & X4 & _). rewrite E in X1. injection X1 as -> -> <-.
    split; [exact X4|]. eexists. eapply reached_next; [exact IH|exact En].
Qed.

Lemma memory_sim : forall K args m st, in_memory cfg top args m st -> respects cfg K (ps_command st) ->
  sim (may_fail K (ps_command st)) (result_ok K m) (mem_next cfg) (next cfg) m st.
Proof.
  intros K args m st R Rs. destruct (memory_reached args m st R) as (A & n & Rn).
  pose proof (reached_shape p q H args st n Rn) as Sh.
  apply (next_sim cfg K top (ps_command st) (finish_parser_prepared p q H) Rs m st A).
  split; [apply (sh_command _ _ _ Sh)|]. split; [split; [|reflexivity]|apply (sh_from _ _ _ Sh)].
  rewrite (sh_command _ _ _ Sh). eapply chain_within. apply (sh_chain _ _ _ Sh).
Qed.

Lemma next_defined : forall args st n, reached cfg top args st n -> next cfg st <> Undefined /\ next cfg st <> NoFuel.
Proof.
  intros args st n R. pose proof (reached_inv cfg top (finish_parser_prepared p q H) args st n R) as V.
  apply (inv_next cfg top (finish_parser_prepared p q H)) in V.
  destruct (next cfg st); cbn [post] in V; (split; [congruence||destruct V|congruence||destruct V]).
Qed.

(** The view that next() returns. *)
Lemma value_proof : forall args m st, in_memory cfg top args m st -> considerate cfg (ps_command st) ->
  match next cfg st with
  | Ret r st' => exists v m', mem_next cfg m st = Ret ((ir_code r, ir_item r, v), m') st' /\
      read_view m' st' v = Some (ir_value r) /\
      (v = Current -> forall id, ~ stores_to (ir_item r) id) /\
      (forall b, v = Buffer b -> exists id, stores_to (ir_item r) id /\ held m' id b)
  | Exits e st' => mem_next cfg m st = Exits e st'
  | Throws e st' => mem_next cfg m st = Throws e st'
  | _ => False
  end.
Proof.
  intros args m st R (Co & Ca).
  set (K := fun i k => match i with ItOption o => k = o_value_id o | ItArgument a => k = a_value_id a | _ => True end).
  assert (Rs : respects cfg K (ps_command st)).
  { split; intros x k J ->; [apply Co|apply Ca]; exact J. }
  destruct (memory_reached args m st R) as (A & n & Rn).
  destruct (next_defined args st n Rn) as (D1 & D2).
  destruct (memory_sim K args m st R Rs) as [(W & _)|X].
  - exfalso. destruct W as [(o & _ & N)|(a & _ & N)]; apply N; reflexivity.
  - destruct (next cfg st) as [r s|? ?|? ?| |]; try congruence.
    destruct X as ([[code i] v] & m1 & E & X1 & X2 & X3 & X4 & _). cbn [fst snd] in *. subst code i.
    exists v, m1. split; [exact E|]. destruct X4 as [(Rd & Hc & Hk)|(N & _)].
    + split; [exact Rd|]. split; [exact Hc|]. intros b Eb. destruct (Hk b Eb) as (Hs & Hh). apply held_key in Hh. eauto.
    + exfalso. apply N. unfold K. destruct (ir_item r); cbn; auto.
Qed.

(** What stays readable. *)
Lemma kept_proof : forall args m st r m' st', in_memory cfg top args m st -> mem_next cfg m st = Ret (r, m') st' ->
  (forall b, belongs_before m b -> mem_text m' b = mem_text m b) /\
  (forall id b, belongs m id b -> code_of r <> IC_ERROR -> harmless id (item_of r) ->
     undisturbed cfg (ps_command st) id -> mem_text m' b = mem_text m b).
Proof.
  intros args m st r m' st' R E.
  assert (G : forall id,
    texts_kept (fun k => code_of r <> IC_ERROR /\ (k = id /\ undisturbed cfg (ps_command st) id) /\ harmless k (item_of r)) m m').
  { intros id.
    destruct (memory_sim (fun _ k => k = id /\ undisturbed cfg (ps_command st) id) args m st R) as [(_ & X)|X].
    - split; intros x k J (-> & U1 & U2); [apply U1; exact J|apply U2; exact J].
    - congruence.
    - destruct (next cfg st) as [r0 s|? ?|? ?| |]; try congruence.
      destruct X as (a & m1 & X1 & X2 & X3 & X4 & _ & X5). rewrite E in X1. injection X1 as -> -> <-.
      unfold code_of, item_of. rewrite X2, X3. exact X5. }
  split.
  - intros b (vs & id & aid & J1 & J2). apply (G 0%N).
    unfold older. apply in_concat. exists (bufs vs). split; [apply in_map; exact J1|]. eapply keys_bufs. eapply in_keys. exact J2.
  - intros id b (aid & J) Nc Hm U. apply (G id) with (k := id); [auto|]. eapply in_keys. exact J.
Qed.

Lemma held_next : forall args m st r m' st' id b s, in_memory cfg top args m st -> mem_next cfg m st = Ret (r, m') st' ->
  held m id b -> mem_text m' b = Some s -> held m' id b.
Proof.
  intros args m st r m' st' id b s R E Hd T.
  destruct (memory_sim (fun _ k => False) args m st R) as [(_ & X)|X]; [split; intros ? ? _ []|congruence|].
  destruct (next cfg st) as [r0 s0|? ?|? ?| |]; try congruence.
  destruct X as (a & m1 & X1 & X2 & X3 & X4 & _ & (_ & _ & X5)). rewrite E in X1. injection X1 as -> -> <-.
  apply held_key. apply X5; [apply held_key; exact Hd|congruence].
Qed.

Lemma kept_long_proof : forall args m st rs m' st' id b s, in_memory cfg top args m st -> goes_on cfg m st rs m' st' ->
  held m id b -> mem_text m b = Some s ->
  (forall c, within top c -> undisturbed cfg c id) ->
  (forall r, In r rs -> code_of r <> IC_ERROR /\ harmless id (item_of r)) ->
  mem_text m' b = Some s /\ held m' id b.
Proof.
  intros args m st rs m' st' id b s R G. induction G as [m st|m st r m1 st1 rs m' st' E G IH]; intros Hd T U F; [auto|].
  pose proof (in_memory_next _ _ _ _ _ _ _ _ R E) as R1.
  assert (T1 : mem_text m1 b = Some s).
  { destruct (kept_proof args m st r m1 st1 R E) as (K1 & K2). rewrite <- T.
    destruct Hd as (vs & aid & [<-|J1] & J2).
    - destruct (F r (or_introl eq_refl)) as (F1 & F2).
      apply (K2 id); [exists aid; exact J2|exact F1|exact F2|]. apply U.
      destruct (memory_reached args m st R) as (_ & n & Rn). pose proof (reached_shape p q H args st n Rn) as Sh.
      rewrite (sh_command _ _ _ Sh). eapply chain_within. apply (sh_chain _ _ _ Sh).
    - apply K1. exists vs, id, aid. auto. }
  apply IH; [exact R1|exact (held_next _ _ _ _ _ _ _ _ _ R E Hd T1)|exact T1|exact U|]. intros r' J. apply F. right. exact J.
Qed.

(** What value() and values() show. *)
Lemma values_proof : forall args m st id, in_memory cfg top args m st ->
  Forall2 (readable m) (mem_get_values (mem_cur m) id) (get_values (l_values (ps_cur st)) id) /\
  Forall2 (fun vs l => Forall2 (readable m) (mem_get_values vs id) (get_values (l_values l) id)) (mem_parents m) (ps_parents st) /\
  (forall b aid, In (b, aid) (mem_get_values (mem_cur m) id) -> belongs m id b).
Proof.
  intros args m st id R. destruct (memory_reached args m st R) as (A & _).
  split; [apply (get_values_contents _ id _ _ (ag_cur _ _ A))|]. split.
  - pose proof (ag_parents _ _ A) as F. clear - F. induction F as [|vs l vss ls E F IH]; constructor; [|exact IH]. apply (get_values_contents _ id _ _ E).
  - intros b aid J. exists aid. clear - J. unfold mem_get_values in J. revert J. generalize (mem_cur m) as vs.
    induction vs as [|(k, x) vs IH]; cbn [node_from]; [intros []|].
    destruct (N.ltb k id); [intros J; right; apply IH; exact J|].
    clear IH. revert k x. assert (G : forall l, In (b, aid) (node_take l id) -> In (id, (b, aid)) l); [|intros k x J; exact (G _ J)].
    induction l as [|(k, x) l IH]; cbn [node_take]; [intros []|].
    destruct (N.eqb k id) eqn:Ek; [|intros []]. apply N.eqb_eq in Ek. subst k. intros [->|J]; [left; reflexivity|right; auto].
Qed.
End Reach.

(* ------------------------------------------------------------------------ *)
(** ** For the examples *)

Fixpoint mem_nexts (cfg : settings) (n : nat) (m : memory) (st : pstate) : memory * pstate :=
  match n with
  | O => (m, st)
  | S k => match mem_next cfg m st with Ret (_, m') st' => mem_nexts cfg k m' st' | _ => (m, st) end
  end.
Fixpoint mem_results (cfg : settings) (n : nat) (m : memory) (st : pstate) : list mresult :=
  match n with
  | O => []
  | S k => match mem_next cfg m st with Ret (r, m') st' => r :: mem_results cfg k m' st' | _ => [] end
  end.
Definition mem_start (d : parser_data) (args : list str) : memory * pstate :=
  match start_counter (d_settings d) (initial_state (d_settings d) (d_command d) args) with
  | Ret _ st => (initial_memory (c_options (d_command d)), st)
  | _ => (empty_memory, initial_state (d_settings d) (d_command d) args)
  end.
Definition mem_after (d : parser_data) (args : list str) (n : nat) : memory * pstate :=
  mem_nexts (d_settings d) n (fst (mem_start d args)) (snd (mem_start d args)).

Lemma nexts_in_memory : forall cfg top args n m st, in_memory cfg top args m st ->
  in_memory cfg top args (fst (mem_nexts cfg n m st)) (snd (mem_nexts cfg n m st)).
Proof.
  intros cfg top args. induction n as [|n IH]; intros m st R; [exact R|]. cbn [mem_nexts].
  destruct (mem_next cfg m st) as [(r, m') st'|? ?|? ?| |] eqn:E; try exact R. apply IH. eapply in_memory_next; eassumption.
Qed.
Lemma after_in_memory : forall d args n st, start_counter (d_settings d) (initial_state (d_settings d) (d_command d) args) = Ret tt st ->
  in_memory (d_settings d) (d_command d) args (fst (mem_after d args n)) (snd (mem_after d args n)).
Proof.
  intros d args n st E. apply nexts_in_memory. unfold mem_start. rewrite E. constructor. exact E.
Qed.
Lemma results_go_on : forall cfg n m st, goes_on cfg m st (mem_results cfg n m st) (fst (mem_nexts cfg n m st)) (snd (mem_nexts cfg n m st)).
Proof.
  intros cfg. induction n as [|n IH]; intros m st; [constructor|]. cbn [mem_results mem_nexts].
  destruct (mem_next cfg m st) as [(r, m') st'|? ?|? ?| |] eqn:E; try constructor. econstructor; [exact E|apply IH].
Qed.
Ltac solve_in_memory := eapply after_in_memory; vm_compute; reflexivity.
