(** The parser in the memory model follows the parser model. *)
From Coq Require Import Permutation.
From Verif Require Import Base BaseProofs MStrings MOptIter MData MCounter MValues MParser MMemory
  STok SIndex SDef SValues SCounter SHelp SParser SStep SCallback SMemory TokProofs ValuesProofs CounterProofs CounterInv
  MonadProofs FrameProofs InvProofs NextProofs ParseProofs MemoryProofs.
Open Scope nat_scope.

(* ------------------------------------------------------------------------ *)
(** ** Parts that do not touch the values *)

Record same_values (st st' : pstate) : Prop := {
  sv_values : l_values (ps_cur st') = l_values (ps_cur st);
  sv_command : l_command (ps_cur st') = l_command (ps_cur st);
  sv_parents : map l_values (ps_parents st') = map l_values (ps_parents st)
}.
Lemma same_values_refl : forall st, same_values st st.
Proof. intros. constructor; reflexivity. Qed.
Lemma same_values_trans : forall a b c, same_values a b -> same_values b c -> same_values a c.
Proof. intros a b c [] []. constructor; congruence. Qed.

Definition keeps {A} (x : M A) : Prop := forall st, match x st with Ret _ st' => same_values st st' | _ => True end.

Lemma keeps_bind : forall {A B} (x : M A) (f : A -> M B), keeps x -> (forall a, keeps (f a)) -> keeps (bind x f).
Proof.
  intros A B x f Hx Hf st. unfold bind. specialize (Hx st). destruct (x st) as [a s| | | |]; auto.
  specialize (Hf a s). destruct (f a s); auto. eapply same_values_trans; eassumption.
Qed.
Lemma keeps_ret : forall {A} (a : A), keeps (ret a).
Proof. intros A a st. apply same_values_refl. Qed.
Lemma keeps_gets : forall {A} (f : pstate -> A), keeps (gets f).
Proof. intros A f st. apply same_values_refl. Qed.
Lemma keeps_modify : forall f, (forall st, same_values st (f st)) -> keeps (modify f).
Proof. intros f H st. apply H. Qed.
Lemma keeps_throw : forall {A} e, keeps (@throw A e).
Proof. intros A e st. exact Logic.I. Qed.
Lemma keeps_exit : forall {A} e, keeps (@exit_with A e).
Proof. intros A e st. exact Logic.I. Qed.
Lemma keeps_emit : forall e, keeps (emit e).
Proof. intros e. apply keeps_modify. intros st. constructor; reflexivity. Qed.
Lemma keeps_texts : forall ts, keeps (emit_texts ts).
Proof. induction ts as [|t r IH]; [apply keeps_ret|]. cbn [emit_texts]. apply keeps_bind; [apply keeps_emit|intros; exact IH]. Qed.
Lemma keeps_next : keeps m_next.
Proof. intros st. unfold m_next. destruct (it_next (ps_iter st)) as [[r it]|]; [constructor; reflexivity|exact Logic.I]. Qed.
Lemma keeps_next_value : keeps m_next_value.
Proof. intros st. unfold m_next_value. destruct (it_next_value (ps_iter st)) as [[r it]|]; [constructor; reflexivity|exact Logic.I]. Qed.
Lemma keeps_current : keeps m_current.
Proof. intros st. unfold m_current. destruct (it_current (ps_iter st)); [apply same_values_refl|exact Logic.I]. Qed.
Lemma keeps_next_argument : keeps m_next_argument.
Proof. intros st. unfold m_next_argument. destruct (next_argument (ps_counter st)). constructor; reflexivity. Qed.
Lemma keeps_resolve : forall k, keeps (resolve_key k).
Proof. intros k st. unfold resolve_key. destruct k; [destruct (get_value_id _ _)|]; auto using same_values_refl. Qed.
Lemma keeps_copy : keeps copy_remaining.
Proof. intros st. unfold copy_remaining. destruct (it_remaining (ps_iter st)) as [[r it]|]; [constructor; reflexivity|exact Logic.I]. Qed.

Section Cfg.
Variable cfg : settings.

Lemma keeps_error : forall msg, keeps (error cfg msg).
Proof.
  intros msg. unfold error. apply keeps_bind; [apply keeps_gets|intros]. apply keeps_bind; [apply keeps_emit|intros].
  destruct (s_auto_exit cfg); [apply keeps_exit|]. apply keeps_bind; [apply keeps_copy|intros].
  apply keeps_bind; [|intros]; apply keeps_modify; intros st; constructor; try reflexivity.
  cbn. rewrite map_map. reflexivity.
Qed.
Lemma keeps_count : keeps (count_arguments cfg).
Proof. intros st. unfold count_arguments. destruct (count_tokens _ _ _ _ _ _); auto using same_values_refl. Qed.
Lemma keeps_start : keeps (start_counter cfg).
Proof.
  unfold start_counter. apply keeps_bind; [apply keeps_gets|intros c]. destruct (negb _).
  - apply keeps_modify. intros. constructor; reflexivity.
  - apply keeps_bind; [apply keeps_count|intros]. apply keeps_modify. intros. constructor; reflexivity.
Qed.
Lemma keeps_update : forall new, keeps (update_arguments cfg new).
Proof.
  intros new. unfold update_arguments. destruct (is_empty new); [apply keeps_ret|].
  apply keeps_bind; [intros st; destruct (it_insert _ _); [constructor; reflexivity|exact Logic.I]|intros].
  apply keeps_bind; [apply keeps_gets|intros c]. destruct (negb _); [apply keeps_ret|].
  apply keeps_bind; [apply keeps_gets|intros]. apply keeps_bind; [apply keeps_count|intros].
  apply keeps_modify. intros. constructor; reflexivity.
Qed.
Lemma keeps_mandatory : forall opts, keeps (has_all_mandatory cfg opts).
Proof.
  induction opts as [|o r IH]; cbn [has_all_mandatory]; [apply keeps_ret|].
  apply keeps_bind; [apply keeps_gets|intros vs]. destruct (_ && _); [|exact IH].
  apply keeps_bind; [apply keeps_error|intros; apply keeps_ret].
Qed.
Lemma keeps_check : keeps (check_counts cfg).
Proof.
  unfold check_counts. apply keeps_bind; [apply keeps_gets|intros c]. apply keeps_bind; [apply keeps_mandatory|intros ok].
  destruct (negb ok); [apply keeps_ret|]. destruct (c_require c) as [req|]; [|intros st; exact Logic.I].
  apply keeps_bind; [apply keeps_gets|intros subs]. destruct (_ && _).
  - apply keeps_bind; [apply keeps_error|intros; apply keeps_ret].
  - apply keeps_bind; [apply keeps_gets|intros ac]. destruct (is_complete ac).
    + apply keeps_bind; [|intros; apply keeps_ret]. apply keeps_modify. intros st. constructor; try reflexivity. cbn. rewrite map_map. reflexivity.
    + destruct (get_min_max_count _). apply keeps_bind; [apply keeps_error|intros; apply keeps_ret].
Qed.
Lemma keeps_type : forall o, keeps (apply_type o).
Proof.
  intros o. unfold apply_type. destruct (o_type o); try apply keeps_ret;
    repeat (apply keeps_bind; [first [apply keeps_gets|apply keeps_emit|apply keeps_modify; intros; constructor; reflexivity]|intros]); apply keeps_ret.
Qed.
Lemma keeps_user_error : forall op, match op with VError _ | VErrorAt _ _ => True | _ => False end -> keeps (run_value_op cfg op).
Proof.
  assert (G : forall msg, keeps (user_error cfg msg)).
  { intros msg. unfold user_error. apply keeps_bind; [apply keeps_gets|intros]. apply keeps_bind; [apply keeps_emit|intros].
    destruct (s_auto_exit cfg); [apply keeps_exit|apply keeps_throw]. }
  intros [k v|k v|k|msg|msg aid] H; try destruct H; cbn [run_value_op]; [apply G|].
  apply keeps_bind; [apply keeps_gets|intros; apply G].
Qed.

(* ------------------------------------------------------------------------ *)
(** ** Following *)

Definition sim {A B} (w : Prop) (Q : A -> B -> memory -> pstate -> Prop) (mm : MM A) (x : M B)
  (m : memory) (st : pstate) : Prop :=
  (w /\ mm m st = Undefined) \/
  match x st with
  | Ret b st' => exists a m', mm m st = Ret (a, m') st' /\ Q a b m' st'
  | Exits e st' => mm m st = Exits e st'
  | Throws e st' => mm m st = Throws e st'
  | Undefined => mm m st = Undefined
  | NoFuel => mm m st = NoFuel
  end.

Lemma sim_bind : forall {A B A' B'} w Q1 Q (mm : MM A) (x : M B) (f : A -> MM A') (g : B -> M B') m st,
  sim w Q1 mm x m st -> (forall a b m' st', Q1 a b m' st' -> sim w Q (f a) (g b) m' st') ->
  sim w Q (mbind mm f) (bind x g) m st.
Proof.
  intros A B A' B' w Q1 Q mm x f g m st H F. destruct H as [(Hw & H)|H].
  - left. split; [exact Hw|]. unfold mbind. rewrite H. reflexivity.
  - unfold sim, mbind, bind. destruct (x st) as [b st'|e st'|e st'| |].
    + destruct H as (a & m' & E & H). rewrite E. apply F in H. exact H.
    + right. rewrite H. reflexivity.
    + right. rewrite H. reflexivity.
    + right. rewrite H. reflexivity.
    + right. rewrite H. reflexivity.
Qed.
Lemma sim_mono : forall {A B} (w w' : Prop) (Q Q' : A -> B -> memory -> pstate -> Prop) mm x m st, (w -> w') ->
  (forall a b m' st', Q a b m' st' -> Q' a b m' st') -> sim w Q mm x m st -> sim w' Q' mm x m st.
Proof.
  intros A B w w' Q Q' mm x m st Hw HQ [(H & E)|H]; [left; auto|right]. destruct (x st); auto.
  destruct H as (a' & m' & E & H). eauto.
Qed.
Lemma sim_ret : forall {A B} w (Q : A -> B -> memory -> pstate -> Prop) a b m st, Q a b m st -> sim w Q (mret a) (ret b) m st.
Proof. intros. right. exists a, m. split; [reflexivity|assumption]. Qed.

Lemma sim_lift : forall {A} w (x : M A) m st, keeps x ->
  sim w (fun a b m' st' => a = b /\ m' = m /\ same_values st st' /\ x st = Ret b st') (lift x) x m st.
Proof.
  intros A w x m st K. right. unfold lift. specialize (K st). destruct (x st) as [a s| | | |]; auto.
  exists a, m. split; [reflexivity|]. auto.
Qed.

Lemma agree_same : forall m st st', same_values st st' -> agree m st -> agree m st'.
Proof.
  intros m st st' [Sv Sc Sp] [Ac Ap Ak An Af Al]. constructor; auto; [congruence|].
  revert Sp. generalize (ps_parents st'). clear - Ap. induction Ap as [|vs l vss ls E F IH]; intros [|l' ls'] Sp; try discriminate; constructor.
  - cbn in Sp. congruence.
  - apply IH. cbn in Sp. congruence.
Qed.

(** In the middle of an item: [m0] is the memory at its beginning. *)
Definition midway (K : N -> Prop) (c : cmd_data) (m0 m : memory) (st : pstate) : Prop :=
  agree m st /\ grows K m0 m /\ l_command (ps_cur st) = c.

Lemma midway_same : forall K c m0 m st st', same_values st st' -> midway K c m0 m st -> midway K c m0 m st'.
Proof.
  intros K c m0 m st st' S (A & G & C). split; [eapply agree_same; eassumption|]. split; [exact G|].
  rewrite (sv_command _ _ S). exact C.
Qed.

(** [m0] is itself the memory of a state of the parser. *)
Definition sound_memory (m : memory) : Prop := forall k b, In (k, b) (keys (mem_cur m)) -> b < mem_fresh m.

Lemma midway_grows : forall K c m0 m m' st', sound_memory m0 -> grows K m0 m -> agree m' st' -> grows K m m' ->
  l_command (ps_cur st') = c -> midway K c m0 m' st'.
Proof.
  intros K c m0 m m' st' S G A G' C. split; [exact A|]. split; [|exact C].
  apply (grows_trans K m0 m m'); [|exact G|exact G']. intros k b J. pose proof (S k b J). pose proof (g_fresh _ _ _ G). lia.
Qed.

Lemma resolve_means : forall k st vid aid st', resolve_key k st = Ret (vid, aid) st' ->
  st' = st /\ means (l_command (ps_cur st)) k vid aid.
Proof.
  intros [name|v a] st vid aid st' H; unfold resolve_key in H.
  - destruct (get_value_id _ name) as [w|] eqn:E; [|discriminate]. injection H as <- <- <-.
    apply get_value_id_least in E. destruct E as (E1 & E2). split; [reflexivity|]. split; [exact E1|]. split; [exact E2|reflexivity].
  - injection H as <- <- <-. split; [reflexivity|]. split; reflexivity.
Qed.

Lemma sim_assign : forall w K c m0 m st vid v aid, sound_memory m0 -> midway K c m0 m st -> ~ K vid ->
  sim w (fun b (_ : unit) m' st' => midway K c m0 m' st' /\ b < mem_fresh m' /\ In (vid, b) (keys (mem_cur m')) /\ mem_text m' b = Some v)
    (store_assign vid v aid) (modify (fun st => set_values st (assign_value (l_values (ps_cur st)) vid v aid))) m st.
Proof.
  intros w K c m0 m st vid v aid S (A & G & C) NK. right. unfold store_assign, modify.
  destruct (mem_assign m vid v aid) as [b m'] eqn:E.
  destruct (assign_step K m st vid v aid b m' A NK E) as (A' & G' & L & J & T).
  exists b, m'. split; [reflexivity|]. split; [eapply midway_grows; eauto|]. auto.
Qed.
Lemma sim_append : forall w K c m0 m st vid v aid, sound_memory m0 -> midway K c m0 m st ->
  sim w (fun b (_ : unit) m' st' => midway K c m0 m' st' /\ b < mem_fresh m' /\ In (vid, b) (keys (mem_cur m')) /\ mem_text m' b = Some v)
    (store_append vid v aid) (modify (fun st => set_values st (append_value (l_values (ps_cur st)) vid v aid))) m st.
Proof.
  intros w K c m0 m st vid v aid S (A & G & C). right. unfold store_append, modify.
  destruct (mem_append m vid v aid) as [b m'] eqn:E.
  destruct (append_step K m st vid v aid b m' A E) as (A' & G' & L & J & T).
  exists b, m'. split; [reflexivity|]. split; [eapply midway_grows; eauto|]. auto.
Qed.
Lemma sim_clear : forall w K c m0 m st vid, sound_memory m0 -> midway K c m0 m st -> ~ K vid ->
  sim w (fun (_ : unit) (_ : unit) m' st' => midway K c m0 m' st')
    (store_clear vid) (modify (fun st => set_values st (clear_value (l_values (ps_cur st)) vid))) m st.
Proof.
  intros w K c m0 m st vid S (A & G & C) NK. right. unfold store_clear, modify.
  destruct (clear_step K m st vid A NK) as (A' & G').
  exists tt, (mem_clear m vid). split; [reflexivity|]. eapply midway_grows; eauto.
Qed.

(** [store_x ;;;; mret tt] against the plain modification. *)
Lemma sim_then : forall {A B A'} w (Q : A' -> B -> memory -> pstate -> Prop) Q1 (mm : MM A) (x : M B) (a' : A') m st, sim w Q1 mm x m st ->
  (forall a b m' st', Q1 a b m' st' -> Q a' b m' st') -> sim w Q (mbind mm (fun _ => mret a')) x m st.
Proof.
  intros A B A' w Q Q1 mm x a' m st [(Hw & H)|H] F.
  - left. split; [exact Hw|]. unfold mbind. rewrite H. reflexivity.
  - right. unfold mbind. destruct (x st) as [b st'|e st'|e st'| |]; try (rewrite H; reflexivity).
    destruct H as (a & m' & E & H). exists a', m'. rewrite E. split; [reflexivity|]. eapply F. exact H.
Qed.

Lemma value_op_sim : forall w (K : N -> Prop) c m0 op m st, sound_memory m0 -> midway K c m0 m st ->
  (forall k, K k -> ~ takes_away c k op) ->
  sim w (fun _ _ m' st' => midway K c m0 m' st') (mem_value_op cfg op) (run_value_op cfg op) m st.
Proof.
  intros w K c m0 op m st S Md NT.
  assert (R : forall k, sim w (fun a b m' st' => a = b /\ m' = m /\ st' = st /\ means c k (fst b) (snd b)) (lift (resolve_key k)) (resolve_key k) m st).
  { intros k. eapply sim_mono; [exact (fun x => x)| |apply (sim_lift w (resolve_key k) m st (keeps_resolve k))].
    intros a [vid aid] m' st' (-> & -> & _ & E). apply resolve_means in E. destruct E as (-> & E).
    destruct Md as (_ & _ & C). rewrite C in E. auto. }
  destruct op as [k v|k v|k|msg|msg aid]; cbn [mem_value_op].
  - change (run_value_op cfg (VAssign k v)) with (bind (resolve_key k) (fun ids => modify (fun st => set_values st
                (assign_value (l_values (ps_cur st)) (fst ids) v (snd ids))))).
    eapply sim_bind; [apply R|]. intros a b m' st' (-> & -> & -> & Mn).
    eapply sim_then; [apply (sim_assign w K c m0); [exact S|exact Md|]|intros ? ? ? ? (H & _); exact H].
    intros Kk. apply (NT _ Kk). eapply by_assigning. exact Mn.
  - change (run_value_op cfg (VAppend k v)) with (bind (resolve_key k) (fun ids => modify (fun st => set_values st
                (append_value (l_values (ps_cur st)) (fst ids) v (snd ids))))).
    eapply sim_bind; [apply R|]. intros a b m' st' (-> & -> & -> & Mn).
    eapply sim_then; [apply (sim_append w K c m0); [exact S|exact Md]|intros ? ? ? ? (H & _); exact H].
  - change (run_value_op cfg (VClear k)) with (bind (resolve_key k) (fun ids => modify (fun st => set_values st
                (clear_value (l_values (ps_cur st)) (fst ids))))).
    eapply sim_bind; [apply R|]. intros a b m' st' (-> & -> & -> & Mn).
    apply (sim_clear w K c m0); [exact S|exact Md|]. intros Kk. apply (NT _ Kk). eapply by_clearing. exact Mn.
  - eapply sim_mono; [exact (fun x => x)| |apply sim_lift; apply keeps_user_error; exact Logic.I].
    intros a b m' st' (_ & -> & Sv & _). eapply midway_same; eassumption.
  - eapply sim_mono; [exact (fun x => x)| |apply sim_lift; apply keeps_user_error; exact Logic.I].
    intros a b m' st' (_ & -> & Sv & _). eapply midway_same; eassumption.
Qed.

Lemma value_ops_sim : forall w (K : N -> Prop) c m0 ops m st, sound_memory m0 -> midway K c m0 m st ->
  (forall k op, K k -> In op ops -> ~ takes_away c k op) ->
  sim w (fun _ _ m' st' => midway K c m0 m' st') (mem_value_ops cfg ops) (run_value_ops cfg ops) m st.
Proof.
  intros w K c m0. induction ops as [|op r IH]; intros m st S Md NT; [apply sim_ret; exact Md|].
  cbn [mem_value_ops run_value_ops]. eapply sim_bind.
  - apply (value_op_sim w K c m0); [exact S|exact Md|]. intros k Kk. apply NT; [exact Kk|left; reflexivity].
  - intros a b m' st' Md'. apply IH; [exact S|exact Md'|]. intros k o Kk J. apply NT; [exact Kk|right; exact J].
Qed.

(** The view of the item's value: it can be read, or the value has been taken away. *)
Definition view_of (K : N -> Prop) (vid : N) (m : memory) (v : mview) (value : str) : Prop :=
  match v with
  | NoText => value = []
  | Buffer b => b < mem_fresh m /\
      ((In (vid, b) (keys (mem_cur m)) /\ mem_text m b = Some value) \/ (~ K vid /\ mem_text m b = None))
  | Current => False
  end.
Lemma view_of_grows : forall K vid m m' v value, grows K m m' -> view_of K vid m v value -> view_of K vid m' v value.
Proof.
  intros K vid m m' [|b|] value G; cbn [view_of]; [auto| |auto].
  intros (L & [(J & T)|(NK & T)]); (split; [pose proof (g_fresh _ _ _ G); lia|]).
  - destruct (g_cur _ _ _ G _ _ J) as [(J' & T')|(NK & T')]; [left; split; [exact J'|congruence]|right; auto].
  - right. split; [exact NK|]. apply (g_dead _ _ _ G); assumption.
Qed.

Lemma callback_sim : forall (K : N -> Prop) c cb ev vid v value m st, agree m st -> l_command (ps_cur st) = c ->
  view_of K vid m v value -> (forall k, K k -> leaves c k cb) ->
  sim (~ K vid) (fun _ _ m' st' => midway K c m m' st' /\ view_of K vid m' v value)
    (mem_callback cfg cb ev v) (run_callback cfg cb (ev value) value) m st.
Proof.
  intros K c cb ev vid v value m st A C V Lv.
  destruct cb as [f|]; cbn [mem_callback run_callback];
    [|apply sim_ret; split; [split; [exact A|split; [apply grows_refl|exact C]]|exact V]].
  assert (Rd : read_view m st v = Some value \/ (~ K vid /\ read_view m st v = None)).
  { destruct v as [|b|]; cbn [view_of read_view] in *; [left; rewrite V; reflexivity| |destruct V].
    destruct V as (_ & [(_ & T)|T]); auto. }
  destruct Rd as [Rd|(NK & Rd)].
  2:{ left. split; [exact NK|]. unfold mbind, read_value. rewrite Rd. reflexivity. }
  assert (S : sound_memory m) by (intros k b J; apply (cur_fresh m st A k b J)).
  set (eff := f (ps_calls st) value (l_values (ps_cur st))).
  set (st1 := add_event st (ev value)).
  set (X := mbind (lift (modify count_call)) (fun _ => mbind (lift (emit_texts (eff_out eff))) (fun _ => mbind (mem_value_ops cfg (eff_ops eff)) (fun _ =>
       mbind (lift (if eff_throws eff then throw ECallback else ret tt)) (fun _ => lift (update_arguments cfg (eff_new eff))))))).
  set (Y := bind (modify count_call) (fun _ => bind (emit_texts (eff_out eff)) (fun _ => bind (run_value_ops cfg (eff_ops eff)) (fun _ =>
       bind (if eff_throws eff then throw ECallback else ret tt) (fun _ => update_arguments cfg (eff_new eff)))))).
  assert (EX : mem_callback cfg (Some f) ev v m st = X m st1).
  { unfold mem_callback. unfold mbind at 1. unfold read_value. rewrite Rd. unfold mbind at 1. cbn [lift emit modify].
    unfold mbind at 1. unfold read_map. rewrite (ag_cur m st A). reflexivity. }
  assert (EY : run_callback cfg (Some f) (ev value) value st = Y st1) by reflexivity.
  cbn [mem_callback run_callback] in EX, EY.
  assert (M1 : midway K c m m st1) by (split; [eapply agree_same; [|exact A]; constructor; reflexivity|split; [apply grows_refl|exact C]]).
  cut (sim (~ K vid) (fun _ _ m' st' => midway K c m m' st' /\ view_of K vid m' v value) X Y m st1).
  { unfold sim. rewrite EX, EY. exact (fun h => h). }
  unfold X, Y. clear EX EY. clearbody st1.
  eapply sim_bind; [apply sim_lift; apply keeps_modify; intros; constructor; reflexivity|]. intros ? ? ? st2 (_ & -> & S2 & _).
  eapply sim_bind; [apply sim_lift; apply keeps_texts|]. intros ? ? ? st3 (_ & -> & S3 & _).
  eapply sim_bind; [apply (value_ops_sim (~ K vid) K c m (eff_ops eff) m st3 S)|].
  { apply (midway_same K c m m st2 st3 S3). apply (midway_same K c m m st1 st2 S2). exact M1. }
  { intros k op Kk J. apply (Lv k Kk f _ _ _ op eq_refl J). }
  intros ? ? m4 st4 M4.
  eapply sim_bind; [apply sim_lift; destruct (eff_throws eff); [apply keeps_throw|apply keeps_ret]|]. intros ? ? ? st5 (_ & -> & S5 & _).
  eapply sim_mono; [exact (fun x => x)| |apply sim_lift; apply keeps_update].
  intros ? ? m6 st6 (_ & -> & S6 & _). split.
  - apply (midway_same K c m m4 st5 st6 S6). apply (midway_same K c m m4 st4 st5 S5). exact M4.
  - apply (view_of_grows K vid m m4); [apply M4|exact V].
Qed.

Lemma grows_mono : forall (K K' : N -> Prop) m m', (forall k, K' k -> K k) -> grows K m m' -> grows K' m m'.
Proof.
  intros K K' m m' H [P C O U D F]. constructor; auto. intros k b J. destruct (U k b J) as [Q|(Q & T)]; [left; exact Q|right].
  split; [|exact T]. intros Kk. apply Q. apply H. exact Kk.
Qed.
Lemma midway_trans : forall K c m0 m m' st', sound_memory m0 -> grows K m0 m -> midway K c m m' st' -> midway K c m0 m' st'.
Proof. intros K c m0 m m' st' S G (A & G' & C). eapply midway_grows; eauto. Qed.

(* ------------------------------------------------------------------------ *)
(** ** Options *)

Lemma operation_sim : forall (K : N -> Prop) o flag m st, agree m st ->
  let K' := fun k => K k /\ harmless k (ItOption o) in
  sim False (fun a b m' st' => midway K' (l_command (ps_cur st)) m m' st' /\
      match a, b with
      | Some v, Some value => view_of K (o_value_id o) m' v value
      | None, None => True
      | _, _ => False
      end)
    (mem_operation cfg o flag) (apply_operation cfg o flag) m st.
Proof.
  intros K o flag m st A K'. set (c := l_command (ps_cur st)).
  assert (S : sound_memory m) by (intros k b J; apply (cur_fresh m st A k b J)).
  assert (M0 : midway K' c m m st) by (split; [exact A|split; [apply grows_refl|reflexivity]]).
  assert (NA : o_operation o = OP_ASSIGN -> ~ K' (o_value_id o)).
  { intros E (_ & H). cbn in H. destruct (H eq_refl) as (H1 & _). contradiction. }
  assert (NC : o_operation o = OP_CLEAR -> ~ K' (o_value_id o)).
  { intros E (_ & H). cbn in H. destruct (H eq_refl) as (_ & H1). contradiction. }
  unfold mem_operation, apply_operation. destruct (o_operation o) eqn:Eo.
  - apply sim_ret. split; [exact M0|reflexivity].
  - destruct (negb (is_empty (o_constant o))).
    + eapply sim_bind; [apply (sim_assign False K' c m); auto|]. intros b u m' st' (Md & _). apply sim_ret. split; [exact Md|reflexivity].
    + eapply sim_bind; [apply sim_lift; apply keeps_next_value|]. intros v b m' st' (-> & -> & Sv & _).
      pose proof (midway_same _ _ _ _ _ _ Sv M0) as M1. destruct b as [value|].
      * eapply sim_bind; [apply (sim_assign False K' c m); auto|]. intros b u m' st2 (Md & L & J & T). apply sim_ret. split; [exact Md|].
        split; [exact L|left; auto].
      * eapply sim_bind; [apply sim_lift; apply keeps_error|]. intros ? ? m' st2 (_ & -> & Sv2 & _). apply sim_ret.
        split; [eapply midway_same; eassumption|exact Logic.I].
  - destruct (negb (is_empty (o_constant o))).
    + eapply sim_bind; [apply (sim_append False K' c m); auto|]. intros b u m' st' (Md & _). apply sim_ret. split; [exact Md|reflexivity].
    + eapply sim_bind; [apply sim_lift; apply keeps_next_value|]. intros v b m' st' (-> & -> & Sv & _).
      pose proof (midway_same _ _ _ _ _ _ Sv M0) as M1. destruct b as [value|].
      * eapply sim_bind; [apply (sim_append False K' c m); auto|]. intros b u m' st2 (Md & L & J & T). apply sim_ret. split; [exact Md|].
        split; [exact L|left; auto].
      * eapply sim_bind; [apply sim_lift; apply keeps_error|]. intros ? ? m' st2 (_ & -> & Sv2 & _). apply sim_ret.
        split; [eapply midway_same; eassumption|exact Logic.I].
  - eapply sim_bind; [apply (sim_clear False K' c m); auto|]. intros b u m' st' Md. apply sim_ret. split; [exact Md|reflexivity].
Qed.

Lemma known_option_sim : forall (K : N -> Prop) o flag m st, agree m st ->
  let c := l_command (ps_cur st) in
  (forall k, K k -> leaves c k (o_callback o) /\ leaves c k (option_cb cfg o)) ->
  let K' := fun k => K k /\ harmless k (ItOption o) in
  sim (~ K (o_value_id o)) (fun a b m' st' => midway K' c m m' st' /\ fst a = fst b /\
      view_of K (o_value_id o) m' (snd a) (snd b))
    (mem_known_option cfg o flag) (process_known_option cfg o flag) m st.
Proof.
  intros K o flag m st A c Lv K'. unfold mem_known_option, process_known_option.
  assert (S : sound_memory m) by (intros k b J; apply (cur_fresh m st A k b J)).
  eapply sim_bind; [eapply sim_mono; [|intros ? ? ? ? H; exact H|apply (operation_sim K o flag m st A)]; intros []|].
  intros v b m1 st1 (M1 & V1). fold c in M1. destruct v as [v|], b as [value|]; try destruct V1.
  2:{ apply sim_ret. split; [exact M1|]. split; reflexivity. }
  destruct M1 as (A1 & G1 & C1).
  eapply sim_bind; [apply (callback_sim K c (o_callback o) _ (o_value_id o) v value m1 st1 A1 C1 V1)|].
  { intros k Kk. apply Lv. exact Kk. }
  intros ? ? m2 st2 ((A2 & G2 & C2) & V2).
  eapply sim_bind; [apply (callback_sim K c (option_cb cfg o) _ (o_value_id o) v value m2 st2 A2 C2 V2)|].
  { intros k Kk. apply Lv. exact Kk. }
  intros ? ? m3 st3 ((A3 & G3 & C3) & V3).
  assert (M3 : midway K' c m m3 st3).
  { apply (midway_trans K' c m m2); [exact S| |split; [exact A3|split; [apply (grows_mono K); [intros k (H & _); exact H|exact G3]|exact C3]]].
    apply (grows_trans K' m m1 m2); [|exact G1|apply (grows_mono K); [intros k (H & _); exact H|exact G2]].
    intros k bb J. pose proof (S k bb J). pose proof (g_fresh _ _ _ G1). lia. }
  eapply sim_bind; [apply sim_lift; apply keeps_type|]. intros r rb m4 st4 (-> & -> & S4 & _). apply sim_ret.
  split; [eapply midway_same; eassumption|]. split; [reflexivity|exact V3].
Qed.

(* ------------------------------------------------------------------------ *)
(** ** Leaving sub-commands *)

Lemma concat_bufs_app : forall a b, concat (map bufs (a ++ b)) = concat (map bufs a) ++ concat (map bufs b).
Proof. intros. rewrite map_app, concat_app. reflexivity. Qed.

Lemma pop_one : forall t n cur p r closed st l ls, ps_parents st = l :: ls ->
  agree (mk_mem t n cur (p :: r) closed) st ->
  agree (mk_mem t n p r (cur :: closed)) (set_parents (set_cur st (add_sub l (ps_cur st))) ls).
Proof.
  intros t n cur p r closed st l ls Ep [Ac Ap Ak An Af Al]. cbn [mem_text mem_cur mem_parents mem_closed mem_fresh] in *.
  rewrite Ep in Ap. inversion Ap as [|? ? ? ? E F]; subst.
  assert (Pm : Permutation (bufs cur ++ concat (map bufs ((p :: r) ++ closed)))
                           (bufs p ++ concat (map bufs (r ++ cur :: closed)))).
  { rewrite !concat_bufs_app. cbn [map concat]. rewrite <- !app_assoc.
    eapply Permutation_trans; [apply Permutation_app_comm|]. rewrite <- !app_assoc.
    apply Permutation_app_head. apply Permutation_app_head. apply Permutation_app_comm. }
  constructor; unfold older in *; cbn [mem_text mem_cur mem_parents mem_closed mem_fresh] in *.
  - exact E.
  - exact F.
  - constructor; [rewrite Ac; discriminate|exact Ak].
  - apply (Permutation_NoDup Pm). exact An.
  - intros b J. apply Af. apply (Permutation_in _ (Permutation_sym Pm)). exact J.
  - exact Al.
Qed.

Lemma pop_agree : forall k t n cur parents closed st, agree (mk_mem t n cur parents closed) st ->
  let '(cur', parents', closed') := pop_nodes k cur parents closed in
  let (lc, lp) := pop_levels k (ps_cur st) (ps_parents st) in
  agree (mk_mem t n cur' parents' closed') (set_parents (set_cur st lc) lp).
Proof.
  induction k as [|k IH]; intros t n cur parents closed st A.
  - cbn [pop_nodes pop_levels]. eapply agree_same; [|exact A]. constructor; reflexivity.
  - destruct parents as [|p r]; pose proof (ag_parents _ _ A) as F; cbn [mem_parents] in F.
    + inversion F as [E|]; subst. cbn [pop_nodes pop_levels]. eapply agree_same; [|exact A]. constructor; try reflexivity. cbn. rewrite <- H. reflexivity.
    + inversion F as [|? l ? ls E F' Ex Ey]; subst. cbn [pop_nodes pop_levels].
      specialize (IH t n p r (cur :: closed) (set_parents (set_cur st (add_sub l (ps_cur st))) ls) (pop_one _ _ _ _ _ _ _ _ _ (eq_sym Ey) A)).
      cbn [ps_cur ps_parents set_parents set_cur] in IH. exact IH.
Qed.

Lemma pop_all : forall k cur parents closed cur' parents' closed', pop_nodes k cur parents closed = (cur', parents', closed') ->
  forall vs, In vs (cur :: parents ++ closed) -> In vs (cur' :: parents' ++ closed').
Proof.
  induction k as [|k IH]; intros cur parents closed cur' parents' closed' E vs J; cbn [pop_nodes] in E.
  - injection E as <- <- <-. exact J.
  - destruct parents as [|p r]; [injection E as <- <- <-; exact J|]. apply (IH _ _ _ _ _ _ E).
    cbn [In app] in J |- *. rewrite in_app_iff in *. cbn [In]. tauto.
Qed.

Lemma reactivate_sim : forall w k m st, agree m st ->
  sim w (fun _ _ m' st' => agree m' st' /\ mem_text m' = mem_text m /\
    forall vs, In vs (mem_cur m :: mem_parents m ++ mem_closed m) -> In vs (mem_cur m' :: mem_parents m' ++ mem_closed m')) (mem_reactivate k) (reactivate k) m st.
Proof.
  intros w k m st A. right. unfold mem_reactivate, reactivate, modify.
  destruct m as [t n cur parents closed]. pose proof (pop_agree k t n cur parents closed st A) as P.
  cbn [mem_cur mem_parents mem_closed mem_text mem_fresh].
  pose proof (pop_all k cur parents closed) as Pa.
  destruct (pop_nodes k cur parents closed) as [[cur' parents'] closed'].
  destruct (pop_levels k (ps_cur st) (ps_parents st)) as [lc lp].
  eexists tt, _. split; [reflexivity|]. split; [|split; [reflexivity|apply Pa; reflexivity]].
  eapply agree_same; [|exact P]. constructor; reflexivity.
Qed.

(* ------------------------------------------------------------------------ *)
(** ** One call of next() *)

(** Which values the callbacks of an item leave alone. *)
Variable K : iter_item -> N -> Prop.
Variable top cmd : cmd_data.

Definition item_value (i : iter_item) : N :=
  match i with ItOption o => o_value_id o | ItArgument a => a_value_id a | _ => 0%N end.

Definition all_nodes (m : memory) : list nodes := mem_cur m :: mem_parents m ++ mem_closed m.
Definition has_key (m : memory) (k : N) (b : nat) : Prop := exists vs, In vs (all_nodes m) /\ In (k, b) (keys vs).
Definition texts_kept (Kp : N -> Prop) (m m' : memory) : Prop :=
  (forall b, In b (older m) -> mem_text m' b = mem_text m b) /\
  (forall k b, Kp k -> In (k, b) (keys (mem_cur m)) -> mem_text m' b = mem_text m b) /\
  (forall k b, has_key m k b -> mem_text m' b <> None -> has_key m' k b).
Lemma has_key_nodes : forall m m' k b, (forall vs, In vs (all_nodes m) -> In vs (all_nodes m')) -> has_key m k b -> has_key m' k b.
Proof. intros m m' k b H (vs & J1 & J2). exists vs. auto. Qed.

Definition view_right (i : iter_item) (m : memory) (st : pstate) (v : mview) (value : str) : Prop :=
  (read_view m st v = Some value /\ (v = Current -> forall k, ~ stores_to i k) /\
   forall b, v = Buffer b -> stores_to i (item_value i) /\ has_key m (item_value i) b) \/
  (~ K i (item_value i) /\ read_view m st v = None).

Definition result_ok (m : memory) (a : mresult) (r : iter_result) (m' : memory) (st' : pstate) : Prop :=
  fst (fst a) = ir_code r /\ snd (fst a) = ir_item r /\ agree m' st' /\
  view_right (ir_item r) m' st' (snd a) (ir_value r) /\
  texts_kept (fun k => ir_code r <> IC_ERROR /\ K (ir_item r) k /\ harmless k (ir_item r)) m m'.

Lemma kept_grows : forall (Kp Kq : N -> Prop) m m', (forall k, Kq k -> Kp k) -> grows Kp m m' -> texts_kept Kq m m'.
Proof.
  intros Kp Kq m m' H G. split; [apply G|]. split; [intros k b Kk J|intros k b (vs & J1 & J2) T].
  - destruct (g_cur _ _ _ G _ _ J) as [(_ & T)|(NK & _)]; [exact T|]. exfalso. apply NK. apply H. exact Kk.
  - destruct J1 as [<-|J1].
    + destruct (g_cur _ _ _ G _ _ J2) as [(Q & _)|(_ & Q)]; [|contradiction]. exists (mem_cur m'). split; [left; reflexivity|exact Q].
    + exists vs. split; [|exact J2]. right. rewrite (g_parents _ _ _ G), (g_closed _ _ _ G). exact J1.
Qed.
Lemma kept_text : forall Kp m m' m'', texts_kept Kp m m' -> mem_text m'' = mem_text m' ->
  (forall vs, In vs (all_nodes m') -> In vs (all_nodes m'')) -> texts_kept Kp m m''.
Proof.
  intros Kp m m' m'' (H1 & H2 & H3) E Hn. split; [intros; rewrite E; eauto|]. split; [intros; rewrite E; eauto|].
  intros k b J T. apply (has_key_nodes m'); [exact Hn|]. apply H3; [exact J|]. rewrite <- E. exact T.
Qed.
Lemma kept_refl : forall Kp m, texts_kept Kp m m.
Proof. intros. split; [reflexivity|]. split; [reflexivity|]. auto. Qed.

Definition respects : Prop :=
  (forall o k, In o (c_options cmd) -> K (ItOption o) k ->
     leaves cmd k (o_callback o) /\ leaves cmd k (option_cb cfg o)) /\
  (forall a k, In a (c_arguments cmd) -> K (ItArgument a) k ->
     leaves cmd k (a_callback a) /\ leaves cmd k (argument_cb cfg a)).

(** An item whose value may be taken away by its own callbacks. *)
Definition may_fail : Prop :=
  (exists o, In o (c_options cmd) /\ ~ K (ItOption o) (o_value_id o)) \/
  (exists a, In a (c_arguments cmd) /\ ~ K (ItArgument a) (a_value_id a)).

Lemma view_of_right : forall i m st v value, stores_to i (item_value i) -> view_of (K i) (item_value i) m v value -> view_right i m st v value.
Proof.
  intros i m st [|b|] value Si V; cbn [view_of] in V; unfold view_right; cbn [read_view];
    [left; split; [rewrite V; reflexivity|split; [intros E; discriminate E|intros ? E; discriminate E]]| |destruct V].
  destruct V as (_ & [(J & T)|T]); [left; split; [exact T|split; [intros E; discriminate E|]]|right; exact T].
  intros b' E. injection E as <-. split; [exact Si|]. exists (mem_cur m). split; [left; reflexivity|exact J].
Qed.


Definition placed (st : pstate) : Prop :=
  ps_command st = l_command (ps_cur st) /\ (within top (ps_command st) /\ ps_command st = cmd) /\
  counter_from (c_arguments (ps_command st)) (ps_counter st).

Hypothesis prep : prepared top.
Hypothesis resp : respects.

Lemma plain_ok : forall m code i v m' st st' value, agree m' st' -> m' = m -> read_view m' st' v = Some value ->
  same_values st st' -> (forall b, v <> Buffer b) -> (forall k, ~ stores_to i k) -> result_ok m (code, i, v) (mk_ir code i value) m' st'.
Proof.
  intros m code i v m' st st' value A -> R S NB NI. split; [reflexivity|]. split; [reflexivity|]. split; [exact A|].
  split; [left; split; [exact R|split; [intros _; exact NI|intros b E; destruct (NB b E)]]|apply kept_refl].
Qed.

Lemma error_then_sim : forall w msg m st, agree m st ->
  sim w (result_ok m) (mbind (lift (error cfg msg)) (fun _ => mret (IC_ERROR, ItNone, NoText)))
    (bind (error cfg msg) (fun _ => ret (mk_ir IC_ERROR ItNone []))) m st.
Proof.
  intros w msg m st A. eapply sim_bind; [apply sim_lift; apply keeps_error|]. intros ? ? m' st' (_ & -> & S & _).
  apply sim_ret. eapply plain_ok; [eapply agree_same; eassumption|reflexivity|reflexivity|exact S|discriminate|intros ? []].
Qed.

Lemma command_sim : forall w d m0 m st, agree m st -> mem_text m = mem_text m0 ->
  (forall vs, In vs (all_nodes m0) -> In vs (all_nodes m)) ->
  sim w (result_ok m0) (mem_command cfg d) (process_command cfg d) m st.
Proof.
  intros w d m0 m st A Et Hn. unfold mem_command, process_command.
  set (m1 := mk_mem (mem_text m) (mem_fresh m) [] (mem_cur m :: mem_parents m) (mem_closed m)).
  set (st1 := mk_ps d (new_level d) (ps_cur st :: ps_parents st) (ps_iter st) (ps_counter st) (ps_mode st) (ps_calls st) (ps_events st)).
  assert (A1 : agree m1 st1).
  { destruct A as [Ac Ap Ak An Af Al]. constructor; unfold m1, st1, older in *; cbn [mem_text mem_cur mem_parents mem_closed mem_fresh ps_cur ps_parents] in *; auto. }
  eapply (sim_bind w (fun _ _ m' st' => m' = m1 /\ st' = st1)).
  { right. exists tt, m1. split; [reflexivity|split; reflexivity]. }
  intros ? ? ? ? (-> & ->).
  eapply sim_bind; [apply sim_lift; apply keeps_start|]. intros ? ? ? st2 (_ & -> & S2 & _).
  eapply sim_bind; [apply sim_lift; apply keeps_modify; intros; constructor; reflexivity|]. intros ? ? ? st3 (_ & -> & S3 & _).
  eapply sim_bind; [apply sim_lift; apply keeps_current|]. intros ? cur ? st4 (_ & -> & S4 & E4).
  assert (Ec : st4 = st3 /\ it_current (ps_iter st3) = Some cur).
  { unfold m_current in E4. destruct (it_current (ps_iter st3)); [|discriminate]. injection E4 as <- <-. auto. }
  destruct Ec as (-> & Ec). apply sim_ret. split; [reflexivity|]. split; [reflexivity|].
  split; [eapply agree_same; [exact S3|]; eapply agree_same; [exact S2|]; exact A1|].
  split; [left; split; [exact Ec|split; [intros _ k []|discriminate]]|]. split; [intros; unfold m1; cbn [mem_text]; rewrite Et; reflexivity|].
  split; [intros; unfold m1; cbn [mem_text]; rewrite Et; reflexivity|].
  intros kk bb J _. apply (has_key_nodes m0); [|exact J]. intros vs Jv. right. apply Hn in Jv. exact Jv.
Qed.

Lemma option_sim : forall flag m st, agree m st -> placed st ->
  sim may_fail (result_ok m) (mem_option cfg flag) (process_option cfg flag) m st.
Proof.
  intros flag m st A (Pc & (Pw & Em) & Pf). unfold mem_option, process_option.
  eapply (sim_bind may_fail (fun a b m' st' => a = b /\ m' = m /\ st' = st /\ b = ps_command st)).
  { right. exists (ps_command st), m. auto. }
  intros ? c ? ? (-> & -> & -> & ->).
  destruct (find_option (ps_command st) flag (s_abbreviations cfg) (s_case_insensitive cfg)) as [o|] eqn:Fo.
  - pose proof (find_option_in_options top _ _ _ _ _ prep Pw Fo) as Io.
    set (Ko := K (ItOption o)).
    assert (Lv : forall k, Ko k -> leaves (l_command (ps_cur st)) k (o_callback o) /\ leaves (l_command (ps_cur st)) k (option_cb cfg o)).
    { intros k Kk. rewrite <- Pc, Em. apply (proj1 resp); [rewrite <- Em; exact Io|exact Kk]. }
    eapply sim_bind.
    { eapply sim_mono; [|intros ? ? ? ? H; exact H|apply (known_option_sim Ko o flag m st A Lv)].
      intros H. left. exists o. split; [rewrite <- Em; exact Io|exact H]. }
    intros [r arg] [r' value] m1 st1 ((A1 & G1 & C1) & Er & V1). cbn [fst snd] in Er, V1. subst r'.
    assert (Fin : forall m2 st2, same_values st1 st2 -> m2 = m1 -> result_ok m (IC_OPTION, ItOption o, arg) (mk_ir IC_OPTION (ItOption o) value) m2 st2).
    { intros m2 st2 S ->. split; [reflexivity|]. split; [reflexivity|]. split; [eapply agree_same; eassumption|].
      split; [apply view_of_right; [reflexivity|exact V1]|]. apply (kept_grows (fun k => Ko k /\ harmless k (ItOption o))); [|exact G1].
      intros k (_ & H1 & H2). split; assumption. }
    assert (Bad : forall i m2 st2, same_values st1 st2 -> m2 = m1 -> result_ok m (IC_ERROR, i, NoText) (mk_ir IC_ERROR i []) m2 st2).
    { intros i m2 st2 S ->. split; [reflexivity|]. split; [reflexivity|]. split; [eapply agree_same; eassumption|].
      split; [left; split; [reflexivity|split; discriminate]|]. apply (kept_grows (fun k => Ko k /\ harmless k (ItOption o))); [|exact G1].
      intros k (H & _). exfalso. apply H. reflexivity. }
    assert (Cp : sim may_fail (result_ok m) (mbind (lift copy_remaining) (fun _ => mret (IC_OPTION, ItOption o, arg)))
                   (bind copy_remaining (fun _ => ret (mk_ir IC_OPTION (ItOption o) value))) m1 st1).
    { eapply sim_bind; [apply sim_lift; apply keeps_copy|]. intros ? ? m2 st2 (_ & -> & S2 & _). apply sim_ret. apply Fin; [exact S2|reflexivity]. }
    destruct r.
    + apply sim_ret. apply Fin; [apply same_values_refl|reflexivity].
    + eapply sim_bind; [apply sim_lift; apply keeps_check|]. intros ? ok m2 st2 (-> & -> & S2 & _).
      destruct (negb ok); [apply sim_ret; apply Bad; [exact S2|reflexivity]|].
      eapply sim_bind; [apply sim_lift; apply keeps_gets|]. intros ? k m3 st3 (-> & -> & S3 & _).
      pose proof (same_values_trans _ _ _ S2 S3) as S13.
      destruct k as [k|].
      * eapply sim_bind; [apply (reactivate_sim may_fail k m1 st3); eapply agree_same; eassumption|].
        intros ? ? m4 st4 (A4 & E4 & N4). apply sim_ret.
        destruct (Fin m1 st3 S13 eq_refl) as (F1 & F2 & F3 & F4 & F5).
        split; [exact F1|]. split; [exact F2|]. split; [exact A4|]. split.
        -- cbn [snd ir_item ir_value] in *. revert F4. unfold view_right. destruct arg as [|bb|]; [| |destruct V1]; cbn [read_view]; rewrite ?E4; intros [(F & H)|F];
             [left|right; exact F|left|right; exact F]; (split; [exact F|]); destruct H as (Hc & H); [split; discriminate|split; [discriminate|]].
           intros b' E. destruct (H b' E) as (H1 & H2). split; [exact H1|]. eapply has_key_nodes; [exact N4|exact H2].
        -- eapply kept_text; [exact F5|exact E4|exact N4].
      * eapply sim_bind; [apply sim_lift; apply keeps_copy|]. intros ? ? m4 st4 (_ & -> & S4 & _). apply sim_ret.
        apply Fin; [eapply same_values_trans; eassumption|reflexivity].
    + exact Cp.
    + destruct (s_auto_exit cfg); [right; reflexivity|exact Cp].
    + apply sim_ret. apply Bad; [apply same_values_refl|reflexivity].
  - assert (Cu : sim may_fail (fun a b m' st' => a = b /\ m' = m /\ st' = st /\ it_current (ps_iter st) = Some b) (lift m_current) m_current m st).
    { right. unfold lift, m_current. destruct (it_current (ps_iter st)) as [cur|]; [|reflexivity]. exists cur, m. auto. }
    destruct (negb (s_ignore_options cfg)).
    + eapply sim_bind; [exact Cu|]. intros ? cur ? ? (-> & -> & -> & _). apply error_then_sim. exact A.
    + eapply sim_bind; [exact Cu|]. intros ? cur ? ? (-> & -> & -> & Ec).
      destruct (negb (starts_with_cs cur flag)); [apply error_then_sim; exact A|].
      eapply sim_bind; [apply sim_lift; apply keeps_modify; intros; constructor; reflexivity|]. intros ? ? ? st2 (_ & -> & S2 & E2).
      apply sim_ret. eapply plain_ok; [eapply agree_same; eassumption|reflexivity| |exact S2|discriminate|intros ? []].
      unfold modify in E2. inversion E2; subst. exact Ec.
Qed.

Lemma argument_sim : forall value m st, agree m st -> placed st ->
  sim may_fail (result_ok m) (mem_argument cfg value) (process_argument cfg value) m st.
Proof.
  intros value m st A (Pc & (Pw & Em) & Pf). unfold mem_argument, process_argument.
  eapply (sim_bind may_fail (fun a b m' st' => a = b /\ m' = m /\ st' = st)).
  { right. exists (find_sibling_command cfg st value), m. auto. }
  intros ? sib ? ? (-> & -> & ->). destruct sib as [(d, k)|].
  - eapply sim_bind; [apply (reactivate_sim may_fail k m st A)|]. intros ? ? m1 st1 (A1 & E1 & N1).
    apply command_sim; [exact A1|exact E1|exact N1].
  - eapply (sim_bind may_fail (fun a b m' st' => a = b /\ m' = m /\ same_values st st' /\
      ps_iter st' = ps_iter st /\ (forall x, b = Some x -> In x (c_arguments (ps_command st))))).
    { right. unfold lift, m_next_argument. pose proof (counter_from_next _ _ Pf) as (_ & Ca).
      destruct (next_argument (ps_counter st)) as [a ac]. cbn [fst] in Ca. exists a, m. split; [reflexivity|].
      split; [reflexivity|]. split; [reflexivity|]. split; [constructor; reflexivity|]. split; [reflexivity|exact Ca]. }
    intros ? a ? st1 (-> & -> & S1 & _ & Ia). pose proof (agree_same _ _ _ S1 A) as A1.
    destruct a as [a|].
    + specialize (Ia a eq_refl). set (c := l_command (ps_cur st)). set (Ka := K (ItArgument a)).
      assert (S : sound_memory m) by (intros k b J; apply (cur_fresh m st A k b J)).
      assert (Lv : forall k, Ka k -> leaves c k (a_callback a) /\ leaves c k (argument_cb cfg a)).
      { intros k Kk. unfold c. rewrite <- Pc, Em. apply (proj2 resp); [rewrite <- Em; exact Ia|exact Kk]. }
      eapply sim_bind; [apply (sim_append may_fail Ka c m m st1); [exact S|]|].
      { split; [exact A1|]. split; [apply grows_refl|]. apply (sv_command _ _ S1). }
      intros b ? m2 st2 ((A2 & G2 & C2) & L2 & J2 & T2).
      assert (V2 : view_of Ka (a_value_id a) m2 (Buffer b) value) by (split; [exact L2|left; auto]).
      assert (W : ~ Ka (a_value_id a) -> may_fail) by (intros H; right; exists a; split; [rewrite <- Em; exact Ia|exact H]).
      eapply sim_bind; [eapply sim_mono; [exact W|intros ? ? ? ? H; exact H|apply (callback_sim Ka c (a_callback a) _ (a_value_id a) (Buffer b) value m2 st2 A2 C2 V2)]|].
      { intros k Kk. apply Lv. exact Kk. }
      intros ? ? m3 st3 ((A3 & G3 & C3) & V3).
      eapply sim_bind; [eapply sim_mono; [exact W|intros ? ? ? ? H; exact H|apply (callback_sim Ka c (argument_cb cfg a) _ (a_value_id a) (Buffer b) value m3 st3 A3 C3 V3)]|].
      { intros k Kk. apply Lv. exact Kk. }
      intros ? ? m4 st4 ((A4 & G4 & C4) & V4). apply sim_ret.
      split; [reflexivity|]. split; [reflexivity|]. split; [exact A4|]. split; [apply view_of_right; [reflexivity|exact V4]|].
      apply (kept_grows Ka); [intros k (_ & H & _); exact H|].
      apply (grows_trans Ka m m3); [|apply (grows_trans Ka m m2); [|exact G2|exact G3]|exact G4];
        intros k b' J; pose proof (S k b' J); pose proof (g_fresh _ _ _ G2); pose proof (g_fresh _ _ _ G3); lia.
    + destruct (s_ignore_arguments cfg); [|apply error_then_sim; exact A1].
      eapply sim_bind; [apply sim_lift; apply keeps_modify; intros; constructor; reflexivity|]. intros ? ? ? st2 (_ & -> & S2 & E2).
      eapply sim_bind; [apply sim_lift; apply keeps_current|]. intros ? cur ? st3 (_ & -> & S3 & E3).
      assert (Ec : st3 = st2 /\ it_current (ps_iter st2) = Some cur).
      { unfold m_current in E3. destruct (it_current (ps_iter st2)); [|discriminate]. injection E3 as <- <-. auto. }
      destruct Ec as (-> & Ec). apply sim_ret. eapply plain_ok; [exact (agree_same _ _ _ S2 A1)|reflexivity|exact Ec|exact S2|discriminate|intros ? []].
Qed.

Lemma token_sim : forall mode arg m st, agree m st -> placed st ->
  sim may_fail (result_ok m) (mem_token cfg mode arg) (process_token cfg mode arg) m st.
Proof.
  intros mode arg m st A P. unfold mem_token, process_token.
  eapply (sim_bind may_fail (fun a b m' st' => a = b /\ m' = m /\ st' = st)).
  { right. exists (ps_command st), m. auto. }
  intros ? c ? ? (-> & -> & ->).
  destruct (_ && _); [apply option_sim; assumption|].
  destruct (is_empty (c_commands c)); [apply argument_sim; assumption|].
  destruct (find_command c arg (s_case_insensitive cfg)) as [d|]; [apply command_sim; [exact A|reflexivity|auto]|].
  apply error_then_sim. exact A.
Qed.

Lemma placed_iter : forall st it, placed st -> placed (set_iter st it).
Proof. intros st it P. exact P. Qed.

Lemma next_sim : forall m st, agree m st -> placed st ->
  sim may_fail (result_ok m) (mem_next cfg) (next cfg) m st.
Proof.
  intros m st A P. unfold mem_next, next.
  eapply (sim_bind may_fail (fun a b m' st' => a = b /\ m' = m /\ st' = st)).
  { right. exists (ps_mode st), m. auto. }
  intros ? mode ? ? (-> & -> & ->).
  assert (G : forall x, keeps x -> (forall t st', x st = Ret t st' -> placed st') ->
    sim may_fail (result_ok m)
      (mbind (lift x) (fun t => match t with
         | None => mbind (lift (check_counts cfg)) (fun ok => mret (if (ok : bool) then IC_DONE else IC_ERROR, ItNone, NoText))
         | Some arg => mem_token cfg mode arg end))
      (bind x (fun t => match t with
         | None => bind (check_counts cfg) (fun ok => ret (mk_ir (if (ok : bool) then IC_DONE else IC_ERROR) ItNone []))
         | Some arg => process_token cfg mode arg end)) m st).
  { intros x Kx Px. eapply sim_bind; [apply sim_lift; exact Kx|]. intros ? t ? st1 (-> & -> & S1 & E1).
    pose proof (agree_same _ _ _ S1 A) as A1. destruct t as [arg|].
    - apply token_sim; [exact A1|]. apply (Px _ _ E1).
    - eapply sim_bind; [apply sim_lift; apply keeps_check|]. intros ? ok ? st2 (-> & -> & S2 & _). apply sim_ret.
      eapply plain_ok; [eapply agree_same; eassumption|reflexivity|reflexivity|exact S2|discriminate|intros ? []]. }
  destruct mode.
  - apply G; [apply keeps_next|]. intros t st' E. unfold m_next in E. destruct (it_next (ps_iter st)) as [[r it]|]; [|discriminate].
    injection E as <- <-. apply placed_iter. exact P.
  - apply G; [apply keeps_next_value|]. intros t st' E. unfold m_next_value in E. destruct (it_next_value (ps_iter st)) as [[r it]|]; [|discriminate].
    injection E as <- <-. apply placed_iter. exact P.
  - apply sim_ret. eapply plain_ok; [exact A|reflexivity|reflexivity|apply same_values_refl|discriminate|intros ? []].
  - right. reflexivity.
Qed.

End Cfg.
