(** Proofs about the memory model. *)
From Coq Require Import Permutation.
From Verif Require Import Base BaseProofs MStrings MOptIter MData MCounter MValues MParser MMemory
  SIndex SDef SValues SHelp SParser SStep SCallback SMemory ValuesProofs.
Open Scope nat_scope.

Definition bufs (vs : nodes) : list nat := map (fun p => fst (snd p)) vs.
Definition keys (vs : nodes) : list (N * nat) := map (fun p => (fst p, fst (snd p))) vs.

Lemma keys_bufs : forall vs k b, In (k, b) (keys vs) -> In b (bufs vs).
Proof.
  intros vs k b H. unfold keys in H. apply in_map_iff in H. destruct H as ((k', (b', a)) & E & H).
  injection E as <- <-. unfold bufs. apply in_map_iff. exists (k', (b', a)). split; [reflexivity|exact H].
Qed.
Lemma in_keys : forall vs k b aid, In (k, (b, aid)) vs -> In (k, b) (keys vs).
Proof. intros. unfold keys. apply in_map_iff. exists (k, (b, aid)). split; [reflexivity|exact H]. Qed.
Lemma keys_in : forall vs k b, In (k, b) (keys vs) -> exists aid, In (k, (b, aid)) vs.
Proof.
  intros vs k b H. unfold keys in H. apply in_map_iff in H. destruct H as ((k', (b', a)) & E & H).
  injection E as <- <-. exists a. exact H.
Qed.

(* ------------------------------------------------------------------------ *)
(** ** Texts *)

Lemma free_all_out : forall bs t b, ~ In b bs -> free_all t bs b = t b.
Proof.
  induction bs as [|x r IH]; intros t b H; [reflexivity|]. cbn [free_all]. rewrite IH; [|intros J; apply H; right; exact J].
  unfold set_text_of. destruct (Nat.eqb_spec b x) as [->|]; [exfalso; apply H; left; reflexivity|reflexivity].
Qed.
Lemma free_all_none : forall bs t b, t b = None -> free_all t bs b = None.
Proof.
  induction bs as [|x r IH]; intros t b H; [exact H|]. cbn [free_all]. apply IH.
  unfold set_text_of. destruct (b =? x); [reflexivity|exact H].
Qed.
Lemma free_all_in : forall bs t b, In b bs -> free_all t bs b = None.
Proof.
  induction bs as [|x r IH]; intros t b H; [destruct H|]. destruct H as [->|H]; cbn [free_all].
  - apply free_all_none. unfold set_text_of. rewrite Nat.eqb_refl. reflexivity.
  - apply IH. exact H.
Qed.

Lemma contents_frame : forall t t' vs, (forall b, In b (bufs vs) -> t' b = t b) -> contents t' vs = contents t vs.
Proof.
  induction vs as [|(k, (b, a)) r IH]; intros H; [reflexivity|]. cbn [contents].
  rewrite (H b) by (left; reflexivity). rewrite IH by (intros; apply H; right; assumption). reflexivity.
Qed.
Lemma contents_live : forall t vs s, contents t vs = Some s -> forall b, In b (bufs vs) -> exists x, t b = Some x.
Proof.
  induction vs as [|(k, (b, a)) r IH]; intros s H b0 J; [destruct J|]. destruct J as [E|J]; cbn [contents] in H.
  - cbn in E. subst b0. destruct (t b) as [x|]; [exists x; reflexivity|discriminate].
  - destruct (t b); [|discriminate]. destruct (contents t r) eqn:C; [|discriminate]. apply (IH _ eq_refl _ J).
Qed.

Lemma contents_append : forall t vid b v aid vs s, t b = Some v -> contents t vs = Some s ->
  contents t (node_append vs vid b aid) = Some (append_value s vid v aid).
Proof.
  intros t vid b v aid. induction vs as [|(k, (b', a')) r IH]; intros s Tb C; cbn [contents] in C.
  - injection C as <-. cbn. rewrite Tb. reflexivity.
  - destruct (t b') as [x|] eqn:Tx; [|discriminate]. destruct (contents t r) as [s'|] eqn:Cr; [|discriminate].
    injection C as <-. cbn [node_append append_value]. destruct (vid <? k)%N.
    + cbn [contents]. rewrite Tb, Tx, Cr. reflexivity.
    + cbn [contents]. rewrite Tx, (IH _ Tb eq_refl). reflexivity.
Qed.
Lemma append_perm : forall vs vid b aid, Permutation (b :: bufs vs) (bufs (node_append vs vid b aid)).
Proof.
  induction vs as [|(k, (b', a')) r IH]; intros; cbn [node_append]; [apply Permutation_refl|].
  destruct (vid <? k)%N; [apply Permutation_refl|].
  cbn [bufs map fst snd] in *. eapply Permutation_trans; [apply perm_swap|]. apply perm_skip. apply IH.
Qed.
Lemma append_keys : forall vs vid b aid k b', In (k, b') (keys (node_append vs vid b aid)) <-> (k, b') = (vid, b) \/ In (k, b') (keys vs).
Proof.
  induction vs as [|(k0, (b0, a0)) r IH]; intros; cbn [node_append].
  - cbn. split; [intros [E|[]]; left; symmetry; exact E|intros [E|[]]; left; symmetry; exact E].
  - destruct (vid <? k0)%N.
    + cbn [keys map fst snd In]. split; intros H; intuition.
    + change (keys ((k0, (b0, a0)) :: node_append r vid b aid)) with ((k0, b0) :: keys (node_append r vid b aid)).
      change (keys ((k0, (b0, a0)) :: r)) with ((k0, b0) :: keys r). cbn [In]. rewrite IH. tauto.
Qed.

Lemma erase_spec : forall t vid vs s vs' f, contents t vs = Some s -> node_erase vs vid = (vs', f) ->
  contents t vs' = Some (erase_leading s vid) /\ Permutation (bufs vs) (bufs vs' ++ f) /\
  (forall k b, In (k, b) (keys vs) -> In (k, b) (keys vs') \/ (k = vid /\ In b f)) /\
  (forall k b, In (k, b) (keys vs') -> In (k, b) (keys vs)).
Proof.
  intros t vid. induction vs as [|(k0, (b0, a0)) r IH]; intros s vs' f C E; cbn [contents node_erase] in *.
  - injection C as <-. injection E as <- <-. repeat split; try apply Permutation_refl; auto.
  - destruct (t b0) as [x|] eqn:Tx; [|discriminate]. destruct (contents t r) as [s'|] eqn:Cr; [|discriminate].
    injection C as <-. cbn [erase_leading]. destruct (N.eqb_spec k0 vid) as [->|Ne].
    + destruct (node_erase r vid) as [r' f'] eqn:Er. injection E as <- <-.
      destruct (IH _ _ _ eq_refl eq_refl) as (C1 & P1 & K1 & K2). split; [exact C1|]. split; [|split].
      * cbn [bufs map fst snd]. apply Permutation_cons_app. exact P1.
      * intros k b [J|J]; [injection J as <- <-; right; split; [reflexivity|left; reflexivity]|].
        destruct (K1 _ _ J) as [Q|(Q1 & Q2)]; [left; exact Q|right; split; [exact Q1|right; exact Q2]].
      * intros k b J. right. apply K2. exact J.
    + injection E as <- <-. split; [cbn [contents]; rewrite Tx, Cr; reflexivity|]. split; [rewrite app_nil_r; apply Permutation_refl|]. auto.
Qed.

Lemma assign_spec : forall t vid b v aid vs s vs' f, t b = Some v -> contents t vs = Some s ->
  node_assign vs vid b aid = (vs', f) ->
  contents t vs' = Some (assign_value s vid v aid) /\ Permutation (b :: bufs vs) (bufs vs' ++ f) /\
  (forall k b', In (k, b') (keys vs) -> In (k, b') (keys vs') \/ (k = vid /\ In b' f)) /\
  In (vid, b) (keys vs').
Proof.
  intros t vid b v aid. induction vs as [|(k0, (b0, a0)) r IH]; intros s vs' f Tb C E; cbn [contents node_assign] in *.
  - injection C as <-. injection E as <- <-. cbn. rewrite Tb. repeat split; try apply Permutation_refl; auto.
  - destruct (t b0) as [x|] eqn:Tx; [|discriminate]. destruct (contents t r) as [s'|] eqn:Cr; [|discriminate].
    injection C as <-. cbn [assign_value]. destruct (k0 <? vid)%N eqn:L.
    + destruct (node_assign r vid b aid) as [r' f'] eqn:Er. injection E as <- <-.
      destruct (IH _ _ _ Tb eq_refl eq_refl) as (C1 & P1 & K1 & K2). split; [cbn [contents]; rewrite Tx, C1; reflexivity|].
      split; [|split].
      * cbn [bufs map fst snd]. change (map (fun p => fst (snd p)) r') with (bufs r'). change (map (fun p => fst (snd p)) r) with (bufs r).
        eapply Permutation_trans; [apply perm_swap|]. cbn [app]. apply perm_skip. exact P1.
      * intros k b' [J|J]; [left; left; exact J|]. destruct (K1 _ _ J) as [Q|Q]; [left; right; exact Q|right; exact Q].
      * right. exact K2.
    + destruct (N.eqb_spec k0 vid) as [->|Ne].
      * destruct (node_erase r vid) as [r' f'] eqn:Er. injection E as <- <-.
        destruct (erase_spec _ _ _ _ _ _ Cr Er) as (C1 & P1 & K1 & _). split; [cbn [contents]; rewrite Tb, C1; reflexivity|].
        split; [|split].
        -- cbn [bufs map fst snd app]. apply perm_skip. apply Permutation_cons_app. exact P1.
        -- intros k b' [J|J]; [injection J as <- <-; right; split; [reflexivity|left; reflexivity]|].
           destruct (K1 _ _ J) as [Q|(Q1 & Q2)]; [left; right; exact Q|right; split; [exact Q1|right; exact Q2]].
        -- left. reflexivity.
      * injection E as <- <-. split; [|split; [|split]].
        -- apply (contents_append t vid b v aid ((k0, (b0, a0)) :: r) ((k0, (x, a0)) :: s') Tb). cbn [contents]. rewrite Tx, Cr. reflexivity.
        -- rewrite app_nil_r. apply (append_perm ((k0, (b0, a0)) :: r)).
        -- intros k b' J. left. apply (append_keys ((k0, (b0, a0)) :: r)). right. exact J.
        -- apply (append_keys ((k0, (b0, a0)) :: r)). left. reflexivity.
Qed.

Lemma clear_spec : forall t vid vs s vs' f, contents t vs = Some s -> node_clear vs vid = (vs', f) ->
  contents t vs' = Some (clear_value s vid) /\ Permutation (bufs vs) (bufs vs' ++ f) /\
  (forall k b', In (k, b') (keys vs) -> In (k, b') (keys vs') \/ (k = vid /\ In b' f)).
Proof.
  intros t vid. induction vs as [|(k0, (b0, a0)) r IH]; intros s vs' f C E; cbn [contents node_clear] in *.
  - injection C as <-. injection E as <- <-. repeat split; try apply Permutation_refl; auto.
  - destruct (t b0) as [x|] eqn:Tx; [|discriminate]. destruct (contents t r) as [s'|] eqn:Cr; [|discriminate].
    injection C as <-. destruct (node_clear r vid) as [r' f'] eqn:Er.
    destruct (IH _ _ _ eq_refl eq_refl) as (C1 & P1 & K1). unfold clear_value in *. cbn [filter fst].
    destruct (N.eqb_spec k0 vid) as [->|Ne]; injection E as <- <-; cbn [negb].
    + split; [exact C1|]. split; [cbn [bufs map fst snd]; apply Permutation_cons_app; exact P1|].
      intros k b' [J|J]; [injection J as <- <-; right; split; [reflexivity|left; reflexivity]|].
      destruct (K1 _ _ J) as [Q|(Q1 & Q2)]; [left; exact Q|right; split; [exact Q1|right; exact Q2]].
    + split; [cbn [contents]; rewrite Tx, C1; reflexivity|]. split; [cbn [bufs map fst snd app]; apply perm_skip; exact P1|].
      intros k b' [J|J]; [left; left; exact J|]. destruct (K1 _ _ J) as [Q|Q]; [left; right; exact Q|right; exact Q].
Qed.

(** Reading values by name reads the same texts. *)
Lemma from_contents : forall t vid vs s, contents t vs = Some s ->
  contents t (node_from vs vid) = Some (from_lower_bound s vid).
Proof.
  intros t vid. induction vs as [|(k0, (b0, a0)) r IH]; intros s C; cbn [contents node_from] in *; [injection C as <-; reflexivity|].
  destruct (t b0) as [x|] eqn:Tx; [|discriminate]. destruct (contents t r) as [s'|] eqn:Cr; [|discriminate].
  injection C as <-. cbn [from_lower_bound]. destruct (k0 <? vid)%N; [apply IH; reflexivity|].
  cbn [contents]. rewrite Tx, Cr. reflexivity.
Qed.
Lemma take_contents : forall t vid vs s, contents t vs = Some s ->
  Forall2 (fun p q => t (fst p) = Some (fst q) /\ snd p = snd q) (node_take vs vid) (take_key s vid).
Proof.
  intros t vid. induction vs as [|(k0, (b0, a0)) r IH]; intros s C; cbn [contents node_take] in *; [injection C as <-; constructor|].
  destruct (t b0) as [x|] eqn:Tx; [|discriminate]. destruct (contents t r) as [s'|] eqn:Cr; [|discriminate].
  injection C as <-. cbn [take_key]. destruct (k0 =? vid)%N; [|constructor]. constructor; [split; [exact Tx|reflexivity]|apply IH; reflexivity].
Qed.
Lemma get_values_contents : forall t vid vs s, contents t vs = Some s ->
  Forall2 (fun p q => t (fst p) = Some (fst q) /\ snd p = snd q) (mem_get_values vs vid) (get_values s vid).
Proof. intros. unfold mem_get_values, get_values. apply take_contents. apply from_contents. assumption. Qed.

(* ------------------------------------------------------------------------ *)
(** ** Memory and parser agree *)

Definition older (m : memory) : list nat := concat (map bufs (mem_parents m ++ mem_closed m)).

Record agree (m : memory) (st : pstate) : Prop := {
  ag_cur : contents (mem_text m) (mem_cur m) = Some (l_values (ps_cur st));
  ag_parents : Forall2 (fun vs l => contents (mem_text m) vs = Some (l_values l)) (mem_parents m) (ps_parents st);
  ag_closed : Forall (fun vs => contents (mem_text m) vs <> None) (mem_closed m);
  ag_nodup : NoDup (bufs (mem_cur m) ++ older m);
  ag_fresh : forall b, In b (bufs (mem_cur m) ++ older m) -> b < mem_fresh m;
  ag_live : forall b x, mem_text m b = Some x -> b < mem_fresh m
}.

Record grows (K : N -> Prop) (m m' : memory) : Prop := {
  g_parents : mem_parents m' = mem_parents m;
  g_closed : mem_closed m' = mem_closed m;
  g_older : forall b, In b (older m) -> mem_text m' b = mem_text m b;
  g_cur : forall k b, In (k, b) (keys (mem_cur m)) ->
    (In (k, b) (keys (mem_cur m')) /\ mem_text m' b = mem_text m b) \/ (~ K k /\ mem_text m' b = None);
  g_dead : forall b, b < mem_fresh m -> mem_text m b = None -> mem_text m' b = None;
  g_fresh : mem_fresh m <= mem_fresh m'
}.
Lemma grows_refl : forall K m, grows K m m.
Proof. intros. constructor; auto. Qed.
Lemma grows_trans : forall K m m1 m2, (forall k b, In (k, b) (keys (mem_cur m)) -> b < mem_fresh m1) ->
  grows K m m1 -> grows K m1 m2 -> grows K m m2.
Proof.
  intros K m m1 m2 Fr [P1 C1 O1 U1 D1 F1] [P2 C2 O2 U2 D2 F2].
  assert (Eo : older m1 = older m) by (unfold older; rewrite P1, C1; reflexivity).
  constructor; [congruence|congruence| | | |lia].
  - intros b H. rewrite O2 by (rewrite Eo; exact H). apply O1. exact H.
  - intros k b H. destruct (U1 k b H) as [(H1 & T1)|(H1 & T1)].
    + destruct (U2 k b H1) as [(H2 & T2)|(H2 & T2)]; [left; split; [exact H2|congruence]|right; split; assumption].
    + right. split; [exact H1|]. apply D2; [|exact T1]. apply (Fr k b H).
  - intros b L N0. apply D2; [lia|]. apply D1; assumption.
Qed.

Lemma forall2_frame : forall t t' vss ls, (forall b, In b (concat (map bufs vss)) -> t' b = t b) ->
  Forall2 (fun vs l => contents t vs = Some (l_values l)) vss ls ->
  Forall2 (fun vs l => contents t' vs = Some (l_values l)) vss ls.
Proof.
  intros t t' vss ls H F. induction F as [|vs l vss ls E F IH]; constructor.
  - rewrite <- E. apply contents_frame. intros b J. apply H. cbn [map concat]. apply in_or_app. left. exact J.
  - apply IH. intros b J. apply H. cbn [map concat]. apply in_or_app. right. exact J.
Qed.
Lemma forall_frame : forall t t' vss, (forall b, In b (concat (map bufs vss)) -> t' b = t b) ->
  Forall (fun vs => contents t vs <> None) vss -> Forall (fun vs => contents t' vs <> None) vss.
Proof.
  intros t t' vss H F. induction F as [|vs vss E F IH]; constructor.
  - rewrite (contents_frame t t' vs); [exact E|]. intros b J. apply H. cbn [map concat]. apply in_or_app. left. exact J.
  - apply IH. intros b J. apply H. cbn [map concat]. apply in_or_app. right. exact J.
Qed.

(** A change of the current values in general. *)
Lemma change_agrees : forall m st t vs f s,
  agree m st -> contents t vs = Some s ->
  (forall b, b <> mem_fresh m -> t b = mem_text m b) ->
  t (mem_fresh m) <> None \/ ~ In (mem_fresh m) (bufs vs) ->
  NoDup (bufs vs ++ f) -> (forall b, In b (bufs vs ++ f) -> b = mem_fresh m \/ In b (bufs (mem_cur m))) ->
  forall st' n, l_values (ps_cur st') = s -> ps_parents st' = ps_parents st ->
  (forall b x, free_all t f b = Some x -> b < n) -> mem_fresh m <= n -> (In (mem_fresh m) (bufs vs) -> mem_fresh m < n) ->
  agree (mk_mem (free_all t f) n vs (mem_parents m) (mem_closed m)) st' /\
  (forall b, In b (older m) -> free_all t f b = mem_text m b).
Proof.
  intros m st t vs f s [Ac Ap Ak An Af Al] C Ht _ Nd Sub st' n Es Ep Lv Le Lf.
  assert (Ho : forall b, In b (older m) -> free_all t f b = mem_text m b).
  { intros b J. rewrite free_all_out.
    - apply Ht. intros ->. pose proof (Af (mem_fresh m)) as Q. specialize (Q ltac:(apply in_or_app; right; exact J)). lia.
    - intros Jf. destruct (Sub b) as [E|E]; [apply in_or_app; right; exact Jf| |].
      + subst b. pose proof (Af (mem_fresh m)) as Q. specialize (Q ltac:(apply in_or_app; right; exact J)). lia.
      + revert E J. clear - An. intros E J. induction (bufs (mem_cur m)) as [|x r IH]; [destruct E|].
        cbn [app] in An. inversion An as [|? ? Nx Nr]; subst. destruct E as [->|E]; [|apply IH; assumption].
        apply Nx. apply in_or_app. right. exact J. }
  split; [|exact Ho]. constructor; cbn [mem_text mem_cur mem_parents mem_closed mem_fresh].
  - rewrite Es. rewrite <- C. apply contents_frame. intros b J. apply free_all_out.
    intros Jf. revert Nd J Jf. clear. intros Nd J Jf. induction (bufs vs) as [|x r IH]; [destruct J|].
    cbn [app] in Nd. inversion Nd as [|? ? Nx Nr]; subst. destruct J as [->|J]; [|apply IH; assumption].
    apply Nx. apply in_or_app. right. exact Jf.
  - rewrite Ep. apply (forall2_frame (mem_text m)); [|exact Ap]. intros b J. apply Ho. unfold older.
    rewrite map_app, concat_app. apply in_or_app. left. exact J.
  - apply (forall_frame (mem_text m)); [|exact Ak]. intros b J. apply Ho. unfold older.
    rewrite map_app, concat_app. apply in_or_app. right. exact J.
  - unfold older; cbn [mem_parents mem_closed]; fold (older m).
    assert (Nv : NoDup (bufs vs)) by (clear - Nd; induction (bufs vs) as [|x r IH]; [constructor|]; cbn [app] in Nd; inversion Nd; subst; constructor; [intros J; apply H1; apply in_or_app; left; exact J|apply IH; assumption]).
    assert (No : NoDup (older m)) by (clear - An; induction (bufs (mem_cur m)) as [|x r IH]; [exact An|]; cbn [app] in An; inversion An; subst; apply IH; assumption).
    assert (Dj : forall b, In b (bufs vs) -> ~ In b (older m)).
    { intros b J Jo. destruct (Sub b) as [E|E]; [apply in_or_app; left; exact J| |].
      - subst b. pose proof (Af (mem_fresh m)) as Q. specialize (Q ltac:(apply in_or_app; right; exact Jo)). lia.
      - revert E Jo. clear - An. intros E Jo. induction (bufs (mem_cur m)) as [|x r IH]; [destruct E|].
        cbn [app] in An. inversion An as [|? ? Nx Nr]; subst. destruct E as [->|E]; [|apply IH; assumption].
        apply Nx. apply in_or_app. right. exact Jo. }
    clear - Nv No Dj. induction (bufs vs) as [|x r IH]; [exact No|]. cbn [app]. inversion Nv; subst. constructor.
    + intros J. apply in_app_or in J. destruct J as [J|J]; [contradiction|]. apply (Dj x (or_introl eq_refl)). exact J.
    + apply IH; [assumption|]. intros b J. apply Dj. right. exact J.
  - unfold older; cbn [mem_parents mem_closed]; fold (older m). intros b J. apply in_app_or in J. destruct J as [J|J].
    + destruct (Sub b) as [E|E]; [apply in_or_app; left; exact J|subst b; apply Lf; exact J|].
      pose proof (Af b ltac:(apply in_or_app; left; exact E)). lia.
    + pose proof (Af b ltac:(apply in_or_app; right; exact J)). lia.
  - exact Lv.
Qed.

Lemma nodup_fresh : forall m st, agree m st -> NoDup (mem_fresh m :: bufs (mem_cur m)).
Proof.
  intros m st [Ac Ap Ak An Af Al]. constructor.
  - intros J. pose proof (Af _ ltac:(apply in_or_app; left; exact J)). lia.
  - clear - An. induction (bufs (mem_cur m)) as [|x r IH]; [constructor|]. cbn [app] in An. inversion An; subst.
    constructor; [intros J; apply H1; apply in_or_app; left; exact J|apply IH; assumption].
Qed.

Lemma set_text_other : forall t b s x, x <> b -> set_text_of t b s x = t x.
Proof. intros. unfold set_text_of. destruct (Nat.eqb_spec x b); [contradiction|reflexivity]. Qed.
Lemma set_text_same : forall t b s, set_text_of t b s b = s.
Proof. intros. unfold set_text_of. rewrite Nat.eqb_refl. reflexivity. Qed.

Lemma cur_fresh : forall m st, agree m st -> forall k b, In (k, b) (keys (mem_cur m)) -> b < mem_fresh m.
Proof. intros m st A k b H. apply (ag_fresh m st A). apply in_or_app. left. apply (keys_bufs _ k). exact H. Qed.

Lemma append_step : forall K m st vid v aid b m', agree m st -> mem_append m vid v aid = (b, m') ->
  agree m' (set_values st (append_value (l_values (ps_cur st)) vid v aid)) /\ grows K m m' /\
  b < mem_fresh m' /\ In (vid, b) (keys (mem_cur m')) /\ mem_text m' b = Some v.
Proof.
  intros K m st vid v aid b m' A E. unfold mem_append in E. injection E as <- <-.
  set (b := mem_fresh m). set (t := set_text_of (mem_text m) b (Some v)).
  assert (Ht : forall x, x <> b -> t x = mem_text m x) by (intros; apply set_text_other; assumption).
  assert (Cb : contents t (mem_cur m) = Some (l_values (ps_cur st))).
  { rewrite <- (ag_cur m st A). apply contents_frame. intros x J. apply Ht. intros ->.
    pose proof (ag_fresh m st A b ltac:(apply in_or_app; left; exact J)). unfold b in *. lia. }
  pose proof (append_perm (mem_cur m) vid b aid) as Pm.
  assert (Lv : forall x y, t x = Some y -> x < S b).
  { intros x y T. destruct (Nat.eq_dec x b) as [->|Nx]; [lia|]. rewrite Ht in T by exact Nx.
    pose proof (ag_live m st A _ _ T). unfold b. lia. }
  destruct (change_agrees m st t (node_append (mem_cur m) vid b aid) [] _ A
    (contents_append t vid b v aid _ _ (set_text_same _ _ _) Cb) Ht) with (n := S b)
    (st' := set_values st (append_value (l_values (ps_cur st)) vid v aid)) as (A' & Ho); try reflexivity.
  - left. unfold t. fold b. rewrite set_text_same. discriminate.
  - rewrite app_nil_r. apply (Permutation_NoDup Pm). apply (nodup_fresh m st A).
  - rewrite app_nil_r. intros x J. apply (Permutation_in _ (Permutation_sym Pm)) in J. destruct J as [E|J]; [left; symmetry; exact E|right; exact J].
  - exact Lv.
  - unfold b. lia.
  - unfold b. lia.
  - split; [exact A'|]. split; [|split; [cbn; lia|split; [apply append_keys; left; reflexivity|apply set_text_same]]].
    constructor; cbn [mem_text mem_cur mem_parents mem_closed mem_fresh]; try reflexivity.
    + exact Ho.
    + intros k x J. left. split; [apply append_keys; right; exact J|]. apply Ht.
      pose proof (cur_fresh m st A _ _ J). unfold b. lia.
    + intros x L T. fold b t. rewrite Ht; [exact T|unfold b; lia].
    + lia.
Qed.

Lemma assign_step : forall (K : N -> Prop) m st vid v aid b m', agree m st -> ~ K vid -> mem_assign m vid v aid = (b, m') ->
  agree m' (set_values st (assign_value (l_values (ps_cur st)) vid v aid)) /\ grows K m m' /\
  b < mem_fresh m' /\ In (vid, b) (keys (mem_cur m')) /\ mem_text m' b = Some v.
Proof.
  intros K m st vid v aid b m' A NK E. unfold mem_assign in E.
  set (b0 := mem_fresh m) in *. set (t := set_text_of (mem_text m) b0 (Some v)) in *.
  destruct (node_assign (mem_cur m) vid b0 aid) as [vs f] eqn:En. injection E as <- <-.
  assert (Ht : forall x, x <> b0 -> t x = mem_text m x) by (intros; apply set_text_other; assumption).
  assert (Cb : contents t (mem_cur m) = Some (l_values (ps_cur st))).
  { rewrite <- (ag_cur m st A). apply contents_frame. intros x J. apply Ht. intros ->.
    pose proof (ag_fresh m st A b0 ltac:(apply in_or_app; left; exact J)). unfold b0 in *. lia. }
  destruct (assign_spec t vid b0 v aid _ _ _ _ (set_text_same _ _ _) Cb En) as (C1 & Pm & K1 & K2).
  assert (Nd : NoDup (bufs vs ++ f)) by (apply (Permutation_NoDup Pm); apply (nodup_fresh m st A)).
  assert (Nf : ~ In b0 f).
  { intros J. revert Nd J. pose proof (keys_bufs _ _ _ K2) as J2. revert J2. clear. intros J2 Nd J.
    induction (bufs vs) as [|x r IH]; [destruct J2|]. cbn [app] in Nd. inversion Nd; subst. destruct J2 as [->|J2]; [|apply IH; assumption].
    apply H1. apply in_or_app. right. exact J. }
  assert (Lv : forall x y, free_all t f x = Some y -> x < S b0).
  { intros x y T. destruct (Nat.eq_dec x b0) as [->|Nx]; [lia|].
    destruct (in_dec Nat.eq_dec x f) as [J|J]; [rewrite free_all_in in T by exact J; discriminate|].
    rewrite free_all_out, Ht in T by assumption. pose proof (ag_live m st A _ _ T). unfold b0. lia. }
  destruct (change_agrees m st t vs f _ A C1 Ht) with (n := S b0)
    (st' := set_values st (assign_value (l_values (ps_cur st)) vid v aid)) as (A' & Ho); try reflexivity.
  - left. unfold t. fold b0. rewrite set_text_same. discriminate.
  - exact Nd.
  - intros x J. apply (Permutation_in _ (Permutation_sym Pm)) in J. destruct J as [E|J]; [left; symmetry; exact E|right; exact J].
  - exact Lv.
  - unfold b0. lia.
  - unfold b0. lia.
  - split; [exact A'|]. split; [|split; [cbn; lia|split; [exact K2|]]].
    + constructor; cbn [mem_text mem_cur mem_parents mem_closed mem_fresh]; try reflexivity.
      * exact Ho.
      * intros k x J. destruct (K1 k x J) as [Q|(-> & Q)].
        -- left. split; [exact Q|]. rewrite free_all_out.
           ++ apply Ht. pose proof (cur_fresh m st A _ _ J). unfold b0. lia.
           ++ intros Jf. pose proof (keys_bufs _ _ _ Q) as J2. revert J2 Nd Jf. clear. intros J2 Nd J.
              induction (bufs vs) as [|y r IH]; [destruct J2|]. cbn [app] in Nd. inversion Nd; subst.
              destruct J2 as [->|J2]; [|apply IH; assumption]. apply H1. apply in_or_app. right. exact J.
        -- right. split; [exact NK|]. apply free_all_in. exact Q.
      * intros x L T. apply free_all_none. rewrite Ht; [exact T|unfold b0; lia].
      * fold b0. lia.
    + cbn [mem_text]. rewrite free_all_out by exact Nf. apply set_text_same.
Qed.

Lemma clear_step : forall (K : N -> Prop) m st vid, agree m st -> ~ K vid ->
  agree (mem_clear m vid) (set_values st (clear_value (l_values (ps_cur st)) vid)) /\ grows K m (mem_clear m vid).
Proof.
  intros K m st vid A NK. unfold mem_clear.
  destruct (node_clear (mem_cur m) vid) as [vs f] eqn:En.
  destruct (clear_spec (mem_text m) vid _ _ _ _ (ag_cur m st A) En) as (C1 & Pm & K1).
  assert (Nd : NoDup (bufs vs ++ f)).
  { apply (Permutation_NoDup Pm). pose proof (nodup_fresh m st A) as Q. inversion Q; assumption. }
  destruct (change_agrees m st (mem_text m) vs f _ A C1 (fun _ _ => eq_refl)) with (n := mem_fresh m)
    (st' := set_values st (clear_value (l_values (ps_cur st)) vid)) as (A' & Ho); try reflexivity.
  - right. intros J. pose proof (ag_fresh m st A (mem_fresh m)) as Q. specialize (Q ltac:(apply in_or_app; left; apply (Permutation_in _ (Permutation_sym Pm)); apply in_or_app; left; exact J)). lia.
  - exact Nd.
  - intros x J. right. apply (Permutation_in _ (Permutation_sym Pm)). exact J.
  - intros x y T. destruct (in_dec Nat.eq_dec x f) as [J|J]; [rewrite free_all_in in T by exact J; discriminate|].
    rewrite free_all_out in T by assumption. exact (ag_live m st A _ _ T).
  - intros J. pose proof (ag_fresh m st A (mem_fresh m)) as Q. specialize (Q ltac:(apply in_or_app; left; apply (Permutation_in _ (Permutation_sym Pm)); apply in_or_app; left; exact J)). lia.
  - split; [exact A'|]. constructor; cbn [mem_text mem_cur mem_parents mem_closed mem_fresh]; try reflexivity.
    + exact Ho.
    + intros k x J. destruct (K1 k x J) as [Q|(-> & Q)].
      * left. split; [exact Q|]. apply free_all_out.
        intros Jf. pose proof (keys_bufs _ _ _ Q) as J2. revert J2 Nd Jf. clear. intros J2 Nd J.
        induction (bufs vs) as [|y r IH]; [destruct J2|]. cbn [app] in Nd. inversion Nd; subst.
        destruct J2 as [->|J2]; [|apply IH; assumption]. apply H1. apply in_or_app. right. exact J.
      * right. split; [exact NK|]. apply free_all_in. exact Q.
    + intros x L T. apply free_all_none. exact T.
Qed.
