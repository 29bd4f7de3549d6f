(** Proofs for C66: what print() writes. *)
From Coq Require Import Permutation Sorted.
From Verif Require Import Base BaseProofs MStrings MData MValues MText MHelp MResults
  SStrings SIndex SDef SValues SHelp SStep SParser SApi SResults IndexProofs FinishProofs DefProofs MApi MParser InvProofs NextProofs ParseProofs ApiErase ApiProofs.
Open Scope nat_scope.

(** ** Stable sorting *)

Section Stable.
  Context {A : Type} (k : A -> N).
  Let lt (a b : A) : bool := (k a <? k b)%N.
  Let at_key (n : N) (a : A) : bool := (k a =? n)%N.

  Lemma insert_back_filter : forall n x racc,
    filter (at_key n) (rev (insert_back lt x racc)) = filter (at_key n) (rev racc ++ [x]).
  Proof.
    intros n x racc. induction racc as [|y racc IH]; [reflexivity|].
    cbn [insert_back]. destruct (lt x y) eqn:E; [|reflexivity].
    cbn [rev]. rewrite filter_app, IH, !filter_app, <- !app_assoc. f_equal.
    unfold lt in E. apply N.ltb_lt in E. cbn [filter]. unfold at_key.
    destruct (k x =? n)%N eqn:Ex, (k y =? n)%N eqn:Ey; try reflexivity.
    apply N.eqb_eq in Ex, Ey. lia.
  Qed.

  Lemma sort_by_filter : forall n l, filter (at_key n) (sort_by lt l) = filter (at_key n) l.
  Proof.
    intros n l. unfold sort_by.
    assert (G : forall acc, filter (at_key n) (rev (fold_left (fun r x => insert_back lt x r) l acc)) =
                            filter (at_key n) (rev acc ++ l)).
    { induction l as [|x l IH]; intros acc; cbn [fold_left]; [rewrite app_nil_r; reflexivity|].
      rewrite IH, filter_app, insert_back_filter, <- filter_app, <- app_assoc. reflexivity. }
    rewrite G. reflexivity.
  Qed.

  Definition ordered (l : list A) : Prop := StronglySorted (fun a b => (k a <= k b)%N) l.

  Lemma sort_by_ordered : forall l, ordered (sort_by lt l).
  Proof.
    intros l. pose proof (sort_by_sorted lt (fun _ => True)) as H.
    assert (S0 : StronglySorted (fun a b => lt b a = false) (sort_by lt l)).
    { apply H.
      - intros x y z _ _ _ H1 H2. unfold lt in *. apply N.ltb_ge in H1, H2. apply N.ltb_ge. lia.
      - intros x y _ _ H1. unfold lt in *. apply N.ltb_lt in H1. apply N.ltb_ge. lia.
      - apply Forall_forall. auto. }
    clear H. unfold ordered. induction S0 as [|a r S0 IH F]; constructor; [exact IH|].
    eapply Forall_impl; [|exact F]. intros b Hb. unfold lt in Hb. apply N.ltb_ge in Hb. exact Hb.
  Qed.

  Lemma ordered_min : forall a l b, ordered (a :: l) -> In b (a :: l) -> (k a <= k b)%N.
  Proof.
    intros a l b H [<-|Hb]; [lia|]. inversion H; subst. rewrite Forall_forall in H3. auto.
  Qed.

  (** Two sorted lists that agree for each key are equal. *)
  Lemma ordered_unique : forall l1 l2, ordered l1 -> ordered l2 ->
    (forall n, filter (at_key n) l1 = filter (at_key n) l2) -> l1 = l2.
  Proof.
    induction l1 as [|a l1 IH]; intros l2 S1 S2 H.
    - destruct l2 as [|b l2]; [reflexivity|]. specialize (H (k b)). cbn [filter] in H.
      unfold at_key at 1 in H. rewrite N.eqb_refl in H. discriminate.
    - destruct l2 as [|b l2].
      { specialize (H (k a)). cbn [filter] in H. unfold at_key at 1 in H. rewrite N.eqb_refl in H. discriminate. }
      assert (E : k a = k b).
      { assert (I1 : In a (b :: l2)).
        { assert (I : In a (filter (at_key (k a)) (b :: l2))).
          { rewrite <- H. apply filter_In. split; [left; reflexivity|apply N.eqb_refl]. }
          apply filter_In in I. apply I. }
        assert (I2 : In b (a :: l1)).
        { assert (I : In b (filter (at_key (k b)) (a :: l1))).
          { rewrite H. apply filter_In. split; [left; reflexivity|apply N.eqb_refl]. }
          apply filter_In in I. apply I. }
        pose proof (ordered_min _ _ _ S1 I2). pose proof (ordered_min _ _ _ S2 I1). lia. }
      assert (Eab : a = b).
      { pose proof (H (k a)) as Ha. cbn [filter] in Ha. unfold at_key in Ha.
        rewrite <- E, N.eqb_refl in Ha. congruence. }
      subst b. f_equal. apply IH.
      + inversion S1; assumption.
      + inversion S2; assumption.
      + intros n. pose proof (H n) as Hn. cbn [filter] in Hn.
        destruct (at_key n a); [congruence|exact Hn].
  Qed.
End Stable.

(** ** Value ids are given out in the order of definition *)

(** Each id is at most [t], the last one given out, or the next one. *)
Fixpoint orderly (t : N) (l : list N) : Prop :=
  match l with
  | [] => True
  | v :: r => ((v <= t)%N /\ orderly t r) \/ (v = (t + 1)%N /\ orderly v r)
  end.

Lemma alloc_next : forall start m done names v m', id_inv start m done -> alloc m names v m' ->
  ((v <= im_id m)%N /\ im_id m' = im_id m) \/ (v = (im_id m + 1)%N /\ im_id m' = v).
Proof.
  intros start m done names v m' I (_ & _ & C).
  destruct C as [(-> & E)|(E & x & Hx & Hf)].
  - right. split; [reflexivity|]. rewrite E. reflexivity.
  - left. split; [|exact E]. apply (ii_map _ _ _ I) in Hf. destruct Hf as (n & Hn & _).
    apply (ii_range _ _ _ I) in Hn. lia.
Qed.

Lemma orderly_app : forall l1 l2 t t', orderly t l1 ->
  (forall s, fold_left N.max l1 t = s -> s = t') -> orderly t' l2 -> orderly t (l1 ++ l2).
Proof.
  induction l1 as [|v l1 IH]; intros l2 t t' H1 Ht H2.
  - cbn in Ht. rewrite (Ht t eq_refl). exact H2.
  - cbn [fold_left] in Ht. cbn [orderly app] in *. destruct H1 as [(L & H1)|(E & H1)].
    + left. split; [exact L|]. apply (IH l2 t t' H1); [|exact H2].
      intros s Hs. apply Ht. rewrite N.max_l; assumption.
    + right. split; [exact E|]. apply (IH l2 v t' H1); [|exact H2].
      intros s Hs. apply Ht. rewrite N.max_r; [exact Hs|lia].
Qed.

Definition arg_vids (args : list arg_data) : list N := map a_value_id args.
Definition opt_vids (opts : list opt_data) : list N :=
  map o_value_id (filter (fun o => match o_operation o with OP_NONE => false | _ => true end) opts).

Lemma set_argument_ids_orderly : forall start args m aid done args' m' aid',
  id_inv start m done -> set_argument_ids m aid args = (args', m', aid') ->
  orderly (im_id m) (arg_vids args') /\ fold_left N.max (arg_vids args') (im_id m) = im_id m'.
Proof.
  intros start. induction args as [|a args IH]; intros m aid done args' m' aid' I H.
  - injection H as <- <- <-. split; [exact Logic.I|reflexivity].
  - rewrite set_argument_ids_cons in H. destruct (arg_alloc m a) as (v & m1) eqn:E.
    destruct (set_argument_ids m1 (aid + 1) args) as ((r' & m2) & aid2) eqn:R.
    injection H as <- <- <-. apply arg_alloc_spec in E. destruct E as (A & _ & _).
    pose proof (alloc_next _ _ _ _ _ _ I A) as X.
    destruct (id_inv_step _ _ _ _ _ _ I A) as (I1 & L1).
    destruct (IH _ _ _ _ _ _ I1 R) as (O & M).
    unfold arg_vids in *. cbn [map orderly fold_left]. change (a_value_id (set_a_ids a (aid + 1) v)) with v.
    destruct X as [(L & E)|(E & E')].
    + rewrite E in *. split; [left; auto|]. rewrite N.max_l; assumption.
    + rewrite E' in *. split; [right; auto|]. rewrite N.max_r; [exact M|lia].
Qed.

Lemma set_option_ids_orderly : forall start opts m aid done opts' m' aid',
  id_inv start m done -> set_option_ids m aid opts = (opts', m', aid') ->
  orderly (im_id m) (opt_vids opts').
Proof.
  intros start. induction opts as [|o opts IH]; intros m aid done opts' m' aid' I H.
  - injection H as <- <- <-. exact Logic.I.
  - rewrite set_option_ids_cons in H.
    destruct (match o_operation o with OP_NONE => (o_value_id o, m) | _ => opt_alloc m o end)
      as (v & m1) eqn:E.
    destruct (set_option_ids m1 (aid + 1) opts) as ((r' & m2) & aid2) eqn:R.
    injection H as <- <- <-. apply FinishProofs.option_step in E.
    unfold opt_vids in *. cbn [filter]. change (o_operation (set_o_ids o (aid + 1) v)) with (o_operation o).
    destruct E as [(En & _ & ->)|(Hv & E)].
    + rewrite En. eapply IH; eassumption.
    + apply opt_alloc_spec in E. destruct E as (A & _ & _).
      pose proof (alloc_next _ _ _ _ _ _ I A) as X.
      destruct (id_inv_step _ _ _ _ _ _ I A) as (I1 & L1).
      pose proof (IH _ _ _ _ _ _ I1 R) as O.
      assert (G : orderly (im_id m) (v :: map o_value_id (filter (fun o => match o_operation o with OP_NONE => false | _ => true end) r'))).
      { cbn [orderly]. destruct X as [(L & E)|(E & E')].
        - rewrite E in *. left. auto.
        - rewrite E' in *. right. auto. }
      destruct (o_operation o) eqn:Eo; try exact G. unfold has_value_op in Hv. congruence.
Qed.

Lemma set_internal_ids_orderly : forall args opts vid aid args' opts' vid' aid',
  set_internal_ids args opts vid aid = (args', opts', vid', aid') ->
  orderly vid (arg_vids args' ++ opt_vids opts').
Proof.
  intros args opts vid aid args' opts' vid' aid' H. unfold set_internal_ids in H.
  destruct (set_argument_ids (mk_ids [] vid) aid args) as ((a1 & m1) & aid1) eqn:E1.
  destruct (set_option_ids m1 aid1 opts) as ((o2 & m2) & aid2) eqn:E2.
  injection H as <- <- <- <-.
  destruct (set_argument_ids_spec _ _ _ _ _ _ _ _ (id_inv_empty vid) E1) as (I1 & _).
  destruct (set_argument_ids_orderly _ _ _ _ _ _ _ _ (id_inv_empty vid) E1) as (O1 & M1).
  pose proof (set_option_ids_orderly _ _ _ _ _ _ _ _ I1 E2) as O2.
  eapply orderly_app; [exact O1| |exact O2]. intros s <-. exact M1.
Qed.

(** ** Lines *)

Section Lines.
  Context {A : Type} (k : A -> N).
  Let eqk (i j : A) : bool := (k i =? k j)%N.

  Fixpoint firsts_by (before l : list A) : list A :=
    match l with
    | [] => []
    | i :: r => if existsb (eqk i) before then firsts_by (i :: before) r
                else i :: firsts_by (i :: before) r
    end.

  (** All keys from [s + 1] to [t] have been seen. *)
  Definition seen (s t : N) (before : list A) : Prop :=
    (forall i, In i before -> (k i <= t)%N) /\
    (forall n, (s < n <= t)%N -> exists i, In i before /\ k i = n).

  Lemma existsb_seen : forall s t before i, seen s t before -> (s < k i)%N ->
    existsb (eqk i) before = (k i <=? t)%N.
  Proof.
    intros s t before i (H1 & H2) L. apply eq_true_iff_eq. rewrite existsb_exists, N.leb_le. split.
    - intros (j & Hj & E). unfold eqk in E. apply N.eqb_eq in E. rewrite E. auto.
    - intros L2. destruct (H2 (k i)) as (j & Hj & E); [lia|]. exists j. split; [exact Hj|].
      unfold eqk. apply N.eqb_eq. congruence.
  Qed.

  Lemma seen_old : forall s t before i, seen s t before -> (k i <= t)%N -> seen s t (i :: before).
  Proof.
    intros s t before i (H1 & H2) L. split.
    - intros j [<-|Hj]; auto.
    - intros n Hn. destruct (H2 n Hn) as (j & Hj & E). exists j. split; [right; exact Hj|exact E].
  Qed.
  Lemma seen_new : forall s t before i, seen s t before -> k i = (t + 1)%N -> seen s (t + 1) (i :: before).
  Proof.
    intros s t before i (H1 & H2) E. split.
    - intros j [<-|Hj]; [lia|]. apply H1 in Hj. lia.
    - intros n Hn. destruct (N.eq_dec n (t + 1)) as [->|Ne].
      + exists i. split; [left; reflexivity|exact E].
      + destruct (H2 n) as (j & Hj & Ej); [lia|]. exists j. split; [right; exact Hj|exact Ej].
  Qed.

  (** The first items have ascending keys. *)
  Lemma firsts_ascending : forall l s t before, seen s t before -> (s <= t)%N -> orderly t (map k l) ->
    (forall i, In i l -> (s < k i)%N) ->
    StronglySorted (fun a b => (k a < k b)%N) (firsts_by before l) /\
    (forall i, In i (firsts_by before l) -> (t < k i)%N) /\
    (forall i, In i l -> (k i <= t)%N \/ exists j, In j (firsts_by before l) /\ k j = k i).
  Proof.
    induction l as [|i l IH]; intros s t before Hs Hst H Hl.
    - split; [constructor|]. split; [intros i []|intros i []].
    - cbn [firsts_by]. rewrite (existsb_seen _ _ _ _ Hs (Hl i (or_introl eq_refl))).
      cbn [map orderly] in H. destruct H as [(L & H)|(E & H)].
      + rewrite (proj2 (N.leb_le _ _) L).
        destruct (IH s t (i :: before)) as (A1 & A2 & A3); auto.
        { apply seen_old; assumption. } { intros j Hj. apply Hl. right. exact Hj. }
        split; [exact A1|]. split; [exact A2|]. intros j [<-|Hj]; [left; exact L|auto].
      + rewrite (proj2 (N.leb_gt _ _)) by lia. rewrite E in H.
        destruct (IH s (t + 1)%N (i :: before)) as (A1 & A2 & A3); auto.
        { apply seen_new; assumption. } { lia. } { intros j Hj. apply Hl. right. exact Hj. }
        split; [|split].
        * constructor; [exact A1|]. apply Forall_forall. intros j Hj. apply A2 in Hj. lia.
        * intros j [<-|Hj]; [lia|]. apply A2 in Hj. lia.
        * intros j [<-|Hj]; [right; exists i; split; [left; reflexivity|reflexivity]|].
          destruct (A3 j Hj) as [L|(x & Hx & Ex)].
          -- destruct (N.eq_dec (k j) (t + 1)) as [Ej|Ej]; [right; exists i; split; [left; reflexivity|congruence]|left; lia].
          -- right. exists x. split; [right; exact Hx|exact Ex].
  Qed.

  Lemma filter_filter_key : forall l n m,
    filter (fun a => (k a =? n)%N) (filter (fun a => (m =? k a)%N) l) =
    if (m =? n)%N then filter (fun a => (k a =? n)%N) l else [].
  Proof.
    intros l n m. induction l as [|a l IH]; cbn [filter]; [destruct (m =? n)%N; reflexivity|].
    destruct (m =? k a)%N eqn:E; cbn [filter]; rewrite IH.
    - apply N.eqb_eq in E. subst m. destruct (k a =? n)%N; reflexivity.
    - destruct (m =? n)%N eqn:En; [|reflexivity]. apply N.eqb_eq in En. subst n.
      rewrite N.eqb_sym, E. reflexivity.
  Qed.

  (** The items in groups of ascending key, one group after the other. *)
  Lemma grouped_filter : forall heads l n, StronglySorted (fun a b => (k a < k b)%N) heads ->
    filter (fun a => (k a =? n)%N) (flat_map (fun i => filter (eqk i) l) heads) =
    if existsb (fun i => (k i =? n)%N) heads then filter (fun a => (k a =? n)%N) l else [].
  Proof.
    intros heads l n H. induction H as [|i r H IH F]; [reflexivity|].
    cbn [flat_map existsb]. rewrite filter_app, IH. unfold eqk. rewrite filter_filter_key.
    destruct (k i =? n)%N eqn:E; cbn [orb]; [|reflexivity].
    replace (existsb (fun j => (k j =? n)%N) r) with false; [apply app_nil_r|].
    symmetry. apply not_true_is_false. intros X. apply existsb_exists in X.
    destruct X as (j & Hj & Ej). rewrite Forall_forall in F. apply F in Hj.
    apply N.eqb_eq in E, Ej. lia.
  Qed.

  Lemma grouped_ordered : forall heads l, StronglySorted (fun a b => (k a < k b)%N) heads ->
    ordered k (flat_map (fun i => filter (eqk i) l) heads).
  Proof.
    intros heads l H. induction H as [|i r H IH F]; [constructor|].
    cbn [flat_map]. apply strongly_sorted_app; [|exact IH|].
    - clear. induction l as [|a l IH]; cbn [filter]; [constructor|].
      destruct (eqk i a) eqn:E; [|exact IH]. constructor; [exact IH|].
      apply Forall_forall. intros b Hb. apply filter_In in Hb. destruct Hb as (_ & Hb).
      unfold eqk in *. apply N.eqb_eq in E, Hb. lia.
    - intros a b Ha Hb. apply filter_In in Ha. apply in_flat_map in Hb.
      destruct Ha as (_ & Ha), Hb as (j & Hj & Hb). apply filter_In in Hb. destruct Hb as (_ & Hb).
      rewrite Forall_forall in F. apply F in Hj. unfold eqk in *. apply N.eqb_eq in Ha, Hb. lia.
  Qed.
End Lines.

Lemma firsts_eq : forall l before, firsts before l = firsts_by view_value_id before l.
Proof. induction l as [|i l IH]; intros before; [reflexivity|]. cbn [firsts firsts_by]. rewrite IH. reflexivity. Qed.

(** Sorting the views of a command. *)
Lemma sorted_views : forall l t,
  (forall i, In i l -> valueless i = true -> view_value_id i = 0%N) ->
  (forall i, In i l -> valueless i = false -> (t < view_value_id i)%N) ->
  orderly t (map view_value_id (filter (fun i => negb (valueless i)) l)) ->
  let valued := filter (fun i => negb (valueless i)) l in
  sort_by (fun a b => (view_value_id a <? view_value_id b)%N) l =
  filter valueless l ++ flat_map (fun i => filter (same_value i) valued) (firsts [] valued).
Proof.
  intros l t H0 H1 H2 valued.
  assert (V : forall i, In i valued -> (t < view_value_id i)%N).
  { intros i Hi. apply filter_In in Hi. destruct Hi as (Hi & Hv). apply H1; [exact Hi|].
    destruct (valueless i); [discriminate|reflexivity]. }
  destruct (firsts_ascending view_value_id valued t t [] ) as (A1 & A2 & A3).
  { split; [intros i []|intros n Hn; lia]. } { lia. } { exact H2. } { exact V. }
  rewrite <- firsts_eq in A1, A2, A3.
  apply (ordered_unique view_value_id).
  - apply sort_by_ordered.
  - apply strongly_sorted_app.
    + assert (G : forall m, (forall i, In i m -> In i l) -> ordered view_value_id (filter valueless m)).
      { induction m as [|i m IH]; intros Hm; cbn [filter]; [constructor|].
        destruct (valueless i) eqn:E; [|apply IH; intros; apply Hm; right; assumption].
        constructor; [apply IH; intros; apply Hm; right; assumption|].
        apply Forall_forall. intros j Hj. apply filter_In in Hj. destruct Hj as (Hj & _).
        rewrite (H0 i (Hm i (or_introl eq_refl)) E). lia. }
      apply G. auto.
    + apply (grouped_ordered view_value_id). exact A1.
    + intros a b Ha Hb. apply filter_In in Ha. destruct Ha as (Ha & Ea). rewrite (H0 a Ha Ea). lia.
  - intros n. rewrite (sort_by_filter view_value_id), filter_app.
    change (fun i => filter (same_value i) valued) with
      (fun i => filter (fun j => (view_value_id i =? view_value_id j)%N) valued).
    rewrite (grouped_filter view_value_id _ _ _ A1).
    destruct (N.eq_dec n 0) as [->|Nz].
    + replace (existsb (fun i => (view_value_id i =? 0)%N) (firsts [] valued)) with false.
      2:{ symmetry. apply not_true_is_false. intros X. apply existsb_exists in X.
          destruct X as (j & Hj & Ej). apply A2 in Hj. apply N.eqb_eq in Ej. lia. }
      rewrite app_nil_r. clear - H0 H1. induction l as [|i l IH]; [reflexivity|].
      assert (IH' : filter (fun a => (view_value_id a =? 0)%N) l = filter (fun a => (view_value_id a =? 0)%N) (filter valueless l)).
      { apply IH; intros; [apply H0|apply H1]; try right; assumption. }
      cbn [filter]. destruct (valueless i) eqn:E.
      * cbn [filter]. rewrite IH'. reflexivity.
      * specialize (H1 i (or_introl eq_refl) E). rewrite (proj2 (N.eqb_neq _ _)) by lia. exact IH'.
    + replace (filter (fun a => (view_value_id a =? n)%N) (filter valueless l)) with (@nil iview).
      2:{ symmetry. clear - H0 Nz. induction l as [|i l IH]; [reflexivity|].
          assert (IH' : filter (fun a => (view_value_id a =? n)%N) (filter valueless l) = []).
          { apply IH. intros. apply H0; [right|]; assumption. }
          cbn [filter]. destruct (valueless i) eqn:E; [|exact IH']. cbn [filter].
          rewrite (H0 i (or_introl eq_refl) E). rewrite (proj2 (N.eqb_neq _ _)) by lia. exact IH'. }
      assert (Ev : filter (fun a => (view_value_id a =? n)%N) l = filter (fun a => (view_value_id a =? n)%N) valued).
      { unfold valued. clear - H0 Nz. induction l as [|i l IH]; [reflexivity|].
        assert (IH' : filter (fun a => (view_value_id a =? n)%N) l =
                      filter (fun a => (view_value_id a =? n)%N) (filter (fun i => negb (valueless i)) l)).
        { apply IH. intros. apply H0; [right|]; assumption. }
        cbn [filter]. destruct (valueless i) eqn:E; cbn [negb filter].
        - rewrite (H0 i (or_introl eq_refl) E). rewrite (proj2 (N.eqb_neq _ _)) by lia. exact IH'.
        - rewrite IH'. reflexivity. }
      rewrite Ev. cbn [app].
      destruct (existsb (fun i => (view_value_id i =? n)%N) (firsts [] valued)) eqn:Ex; [reflexivity|].
      destruct (filter (fun a => (view_value_id a =? n)%N) valued) as [|i r] eqn:Ef; [reflexivity|].
      exfalso. assert (Hi : In i (filter (fun a => (view_value_id a =? n)%N) valued)) by (rewrite Ef; left; reflexivity).
      apply filter_In in Hi. destruct Hi as (Hi & En). pose proof (V i Hi).
      destruct (A3 i Hi) as [L|(j & Hj & Ej)]; [lia|].
      apply not_true_iff_false in Ex. apply Ex. apply existsb_exists. exists j. split; [exact Hj|].
      apply N.eqb_eq in En. apply N.eqb_eq. congruence.
Qed.

(** ** Definitions that have not been finished *)

(** No option has been given a value id. *)
Definition fresh (c : cmd_data) : Prop :=
  forall d, within c d -> forall o, In o (c_options d) -> o_value_id o = 0%N.

Lemma fresh_parts : forall c, fresh c <->
  (forall o, In o (c_options c) -> o_value_id o = 0%N) /\ forall d, In d (c_commands c) -> fresh d.
Proof.
  intros c. split.
  - intros H. split; [apply H; constructor|]. intros d Hd e He. apply H.
    eapply within_trans; [eapply within_sub; [constructor|exact Hd]|exact He].
  - intros (A & B) d Hd. apply within_inv in Hd. destruct Hd as [->|(e & He & We)]; [exact A|]. apply (B e He d We).
Qed.

Lemma fresh_like : forall c c', c_options c' = c_options c -> c_commands c' = c_commands c -> fresh c -> fresh c'.
Proof. intros c c' Ea Ec H. apply fresh_parts. rewrite Ea, Ec. apply fresh_parts, H. Qed.

Lemma fresh_copy : forall c, fresh c -> fresh (copy_command c).
Proof.
  induction c as [c IH] using cmd_nested_ind. intros H. apply fresh_parts. destruct (copy_fields c) as (_ & -> & -> & _).
  apply fresh_parts in H. destruct H as (A & B). split; [exact A|]. intros d Hd. apply in_map_iff in Hd. destruct Hd as (e & <- & He).
  rewrite Forall_forall in IH. apply (IH e He), B, He.
Qed.

Lemma fresh_copy_into : forall c s r c', fresh c -> fresh s -> copy_into c s = (r, c') -> fresh c'.
Proof.
  intros c s r c' Hc Hs E. unfold copy_into in E. destruct (copy_texts _ _). injection E as _ <-. apply fresh_parts. cbn [c_options c_commands].
  apply fresh_parts in Hc, Hs. destruct Hc as (A & B), Hs as (C & D). split.
  - intros o Ho. apply in_app_iff in Ho. destruct Ho; auto.
  - intros d Hd. apply in_app_iff in Hd. destruct Hd as [Hd|Hd]; [apply B, Hd|]. apply in_map_iff in Hd. destruct Hd as (e & <- & He). apply fresh_copy, D, He.
Qed.

Lemma fresh_add : forall A checked add (x : option A) c r y c', fresh c ->
  (forall z d', x = Some z -> add c x = Val d' -> fresh d') -> (forall d', add c None <> Val d') ->
  add_to checked add x (Some c) = (r, y, Some c') -> fresh c'.
Proof.
  intros A checked add x c r y c' Hc Ha Hn E. unfold add_to in E. destruct x as [z|].
  - destruct (add c (Some z)) as [d'|] eqn:Ed; injection E as _ _ <-; [apply (Ha z d' eq_refl eq_refl)|exact Hc].
  - destruct checked; [injection E as _ _ <-; exact Hc|]. destruct (add c None) as [d'|] eqn:Ed; [destruct (Hn d' eq_refl)|].
    injection E as _ _ <-. exact Hc.
Qed.

Lemma fresh_add_argument : forall c x r y c', fresh c ->
  add_to true add_argument x (Some c) = (r, y, Some c') -> fresh c'.
Proof.
  intros c x r y c' Hc E. apply (fresh_add _ _ _ _ _ _ _ _ Hc) in E; [exact E| |discriminate].
  intros z d' -> Ed. unfold add_argument in Ed. destruct (negb _); [discriminate|]. destruct (is_empty (a_name z)); [discriminate|].
  injection Ed as <-. apply (fresh_like c); try reflexivity. exact Hc.
Qed.
Lemma fresh_add_option : forall c x r y c', fresh c -> (forall o, x = Some o -> o_value_id o = 0%N) ->
  add_to true add_option x (Some c) = (r, y, Some c') -> fresh c'.
Proof.
  intros c x r y c' Hc Hx E. apply (fresh_add _ _ _ _ _ _ _ _ Hc) in E; [exact E| |discriminate].
  intros z d' -> Ed. unfold add_option in Ed. destruct (is_empty (o_flags z)); [discriminate|]. injection Ed as <-.
  apply fresh_parts. cbn [c_options c_commands set_c_items]. apply fresh_parts in Hc. destruct Hc as (A & B). split; [|exact B].
  intros o Ho. apply in_app_iff in Ho. destruct Ho as [Ho|[<-|[]]]; [apply A, Ho|]. specialize (Hx z eq_refl). destruct (is_empty (o_section z)); exact Hx.
Qed.
Lemma fresh_add_command : forall c x r y c', fresh c -> (forall d, x = Some d -> fresh d) ->
  add_to false add_command x (Some c) = (r, y, Some c') -> fresh c'.
Proof.
  intros c x r y c' Hc Hx E. apply (fresh_add _ _ _ _ _ _ _ _ Hc) in E; [exact E| |discriminate].
  intros z d' -> Ed. unfold add_command in Ed. destruct (negb _); [discriminate|]. destruct (is_empty (c_name z)); [discriminate|].
  injection Ed as <-. apply fresh_parts. cbn [c_options c_commands set_c_items]. apply fresh_parts in Hc. destruct Hc as (A & B). split; [exact A|].
  intros d Hd. apply in_app_iff in Hd. destruct Hd as [Hd|[<-|[]]]; [apply B, Hd|]. specialize (Hx z eq_refl).
  destruct (is_empty (c_section z)); [|exact Hx]. apply (fresh_like z); try reflexivity. exact Hx.
Qed.

Lemma made_option_fresh : forall o, made_option o -> o_value_id o = 0%N.
Proof.
  intros o (flags & cs & E).
  assert (G : forall b, Some (new_option flags) = Some b -> o_value_id b = 0%N) by (intros b Eb; injection Eb as <-; reflexivity).
  revert E G. generalize (Some (new_option flags)). induction cs as [|c cs IH]; intros x E G; cbn [call_options] in E; [apply G, E|].
  apply (IH _ E). intros b Hb. destruct x as [y|]; [|discriminate]. cbn [call_option snd] in Hb. injection Hb as <-.
  specialize (G y eq_refl). destruct c, y; exact G.
Qed.

Lemma fresh_new : forall name, fresh (new_command name).
Proof. intros name. apply fresh_parts. split; intros d []. Qed.
Lemma fresh_set : forall u c, fresh c -> fresh (cmd_update u c).
Proof. intros u c. apply fresh_like; destruct u, c; reflexivity. Qed.

Lemma made_fresh : forall c, made_command c -> fresh c.
Proof.
  induction 1.
  - apply fresh_new.
  - apply fresh_set. assumption.
  - apply fresh_copy. assumption.
  - eapply fresh_add_argument; eassumption.
  - eapply fresh_add_option; [eassumption| |eassumption]. intros b Eb. injection Eb as <-. apply made_option_fresh. assumption.
  - eapply fresh_add_command; [eassumption| |eassumption]. intros b Eb. injection Eb as <-. assumption.
  - unfold command_copy_from in H1. destruct (copy_into c s) as (r' & d') eqn:E. injection H1 as _ <-.
    apply (fresh_copy_into c s r' d'); assumption.
Qed.

Lemma call_fresh : forall fuel c d d', made_call c -> fresh (d_command d) -> snd (call_parser fuel c (Some d)) = Some d' ->
  fresh (d_command d').
Proof.
  intros fuel c d d' Hm Hg E. destruct c; cbn [call_parser] in E; try discriminate; try (injection E as <-; exact Hg).
  - unfold add_data in E. destruct (add_to _ _ _ _) as ((r & y) & [o|]) eqn:Ea; injection E as <-; [|exact Hg].
    eapply fresh_add_argument; [exact Hg|exact Ea].
  - unfold add_data in E. destruct (add_to _ _ _ _) as ((r & y) & [c|]) eqn:Ea; injection E as <-; [|exact Hg].
    eapply fresh_add_option; [exact Hg| |exact Ea]. intros b ->. apply made_option_fresh. exact Hm.
  - unfold add_data in E. destruct (add_to _ _ _ _) as ((r & y) & [o|]) eqn:Ea; injection E as <-; [|exact Hg].
    eapply fresh_add_command; [exact Hg| |exact Ea]. intros b ->. apply made_fresh. exact Hm.
  - destruct c as [s|]; [|injection E as <-; exact Hg]. destruct (copy_into (d_command d) s) as (r & c') eqn:Ec. injection E as <-.
    eapply fresh_copy_into; [exact Hg|apply made_fresh, Hm|exact Ec].
  - injection E as <-. apply fresh_set, Hg.
  - unfold set_option_style in E. destruct (style_eqb _ _); [injection E as <-; exact Hg|].
    destruct (negb _); injection E as <-; exact Hg.
  - destruct argv; discriminate.
  - destruct argv; [injection E as <-; exact Hg|discriminate].
Qed.

Lemma made_parser_fresh : forall d, made_parser d -> fresh (d_command d).
Proof.
  intros d (fuel & name & file & cs & rs & E & Hm).
  assert (G : fresh (d_command (new_parser name file))) by apply fresh_new.
  revert rs E G. generalize (new_parser name file). induction Hm as [|c cs Hc Hm IH]; intros p rs E G; [injection E as _ <-; exact G|].
  rewrite calls_cons in E. injection E as _ E. destruct (snd (call_parser fuel c (Some p))) as [x|] eqn:Ex; [|rewrite calls_none in E; discriminate].
  apply (IH x (fst (call_parsers fuel cs (Some x)))); [rewrite <- E; apply surjective_pairing|]. apply (call_fresh fuel c p x Hc G Ex).
Qed.

(** ** Finished commands *)

Lemma set_option_ids_none : forall opts m aid opts' m' aid', set_option_ids m aid opts = (opts', m', aid') ->
  (forall o, In o opts -> o_value_id o = 0%N) ->
  forall o, In o opts' -> o_operation o = OP_NONE -> o_value_id o = 0%N.
Proof.
  induction opts as [|o opts IH]; intros m aid opts' m' aid' H F x Hx Ex.
  - injection H as <- <- <-. destruct Hx.
  - rewrite set_option_ids_cons in H.
    destruct (match o_operation o with OP_NONE => (o_value_id o, m) | _ => opt_alloc m o end)
      as (v & m1) eqn:E.
    destruct (set_option_ids m1 (aid + 1) opts) as ((r' & m2) & aid2) eqn:R.
    injection H as <- <- <-. destruct Hx as [<-|Hx].
    + change (o_operation o = OP_NONE) in Ex. rewrite Ex in E. injection E as <- <-.
      apply (F o). left. reflexivity.
    + eapply (IH _ _ _ _ _ R); [|exact Hx|exact Ex]. intros y Hy. apply F. right. exact Hy.
Qed.

Lemma map_opt_filter : forall (f : iview -> bool) opts,
  filter f (map OptionView opts) = map OptionView (filter (fun o => f (OptionView o)) opts).
Proof.
  intros f opts. induction opts as [|o opts IH]; [reflexivity|]. cbn [map filter]. rewrite IH.
  destruct (f (OptionView o)); reflexivity.
Qed.
Lemma map_arg_filter : forall (f : iview -> bool) args,
  filter f (map ArgumentView args) = map ArgumentView (filter (fun o => f (ArgumentView o)) args).
Proof.
  intros f opts. induction opts as [|o opts IH]; [reflexivity|]. cbn [map filter]. rewrite IH.
  destruct (f (ArgumentView o)); reflexivity.
Qed.

Lemma finished_views : forall p q c, fresh (d_command p) -> finish_parser p = Val q -> within (d_command q) c ->
  exists t,
  (forall i, In i (listed c) -> valueless i = true -> view_value_id i = 0%N) /\
  (forall i, In i (listed c) -> valueless i = false -> (t < view_value_id i)%N) /\
  orderly t (map view_value_id (filter (fun i => negb (valueless i)) (listed c))) /\
  (forall o, In o (c_options c) -> o_flags o <> [] /\ forall f, In f (o_flags o) -> f <> []).
Proof.
  intros p q c Fr H W. apply finish_parser_inv in H. destruct H as (_ & F).
  destruct (finished_within _ _ _ _ _ _ F c W) as (d0 & f & s & a & W0 & E).
  apply finish_finished in E. destruct E as (opts1 & vid' & aid' & V & _ & I0 & _).
  assert (F0 : forall o, In o (c_options d0) -> o_value_id o = 0%N).
  { apply within_inv in W0. destruct W0 as [->|(e & He & We)].
    - intros o Ho. cbn [c_options set_c_items] in Ho. unfold add_version_option in Ho.
      destruct (is_empty (d_version p)); [apply (Fr _ (within_top _) o Ho)|].
      cbv zeta in Ho. destruct (has_flag _ _ _); [apply (Fr _ (within_top _) o Ho)|].
      apply in_app_iff in Ho. destruct Ho as [Ho|[<-|[]]]; [apply (Fr _ (within_top _) o Ho)|reflexivity].
    - apply (Fr d0). eapply within_trans; [|exact We]. eapply within_sub; [constructor|exact He]. }
  assert (F1 : forall o, In o opts1 -> o_value_id o = 0%N).
  { intros o Ho. apply validate_all_forall2 in V. destruct (forall2_in_right _ _ _ V o Ho) as (o0 & Ho0 & E0).
    apply validate_result_proof in E0. destruct E0 as (S0 & _). rewrite <- (F0 o0 Ho0). destruct S0. intuition congruence. }
  assert (F2 : forall o, In o (add_help_option opts1 (c_current_section d0) (d_settings p)) -> o_value_id o = 0%N).
  { intros o Ho. unfold add_help_option in Ho. destruct (negb _); [auto|]. destruct (has_help_option _); [auto|].
    cbv zeta in Ho. destruct (is_empty (help_flags _ _)); [auto|]. apply in_app_iff in Ho. destruct Ho as [Ho|[<-|[]]]; [auto|reflexivity]. }
  exists s. split; [|split; [|split]].
  - intros i Hi Ei. unfold listed in Hi. apply in_app_iff in Hi. destruct Hi as [Hi|Hi].
    + apply in_map_iff in Hi. destruct Hi as (x & <- & _). discriminate.
    + apply in_map_iff in Hi. destruct Hi as (o & <- & Ho). cbn in *.
      unfold set_internal_ids in I0.
      destruct (set_argument_ids (mk_ids [] s) (a + 1) (c_arguments d0)) as ((a1 & m1) & aid1) eqn:E1.
      destruct (set_option_ids m1 aid1 _) as ((o2 & m2) & aid2) eqn:E2. injection I0 as _ E0 _ _. subst o2.
      eapply (set_option_ids_none _ _ _ _ _ _ E2 F2); [exact Ho|]. destruct (o_operation o); congruence.
  - intros i Hi Ei. apply set_internal_ids_spec in I0. destruct I0 as ((m & I0 & _) & _).
    unfold listed in Hi. apply in_app_iff in Hi. destruct Hi as [Hi|Hi]; apply in_map_iff in Hi; destruct Hi as (x & <- & Hx).
    + apply (ii_range _ _ _ I0 (arg_names x)). unfold named_values. apply in_app_iff. left.
      apply in_map_iff. exists x. split; [reflexivity|exact Hx].
    + apply (ii_range _ _ _ I0 (opt_names x)). unfold named_values. apply in_app_iff. right.
      apply in_map_iff. exists x. split; [reflexivity|]. apply filter_In. split; [exact Hx|].
      cbn in Ei. unfold has_value_op. destruct (o_operation x); try reflexivity; discriminate.
  - apply set_internal_ids_orderly in I0. unfold listed. rewrite filter_app, map_app, map_opt_filter, map_arg_filter, !map_map.
    match goal with |- orderly s (?A ++ ?B) => replace A with (arg_vids (c_arguments c)); [replace B with (opt_vids (c_options c)); [exact I0|]|] end.
    + unfold opt_vids. f_equal. apply filter_ext. intros o. cbn. destruct (o_operation o); reflexivity.
    + unfold arg_vids. clear. induction (c_arguments c) as [|o l IH]; [reflexivity|].
      cbn [filter negb map] in *. cbn [valueless negb map] in *. rewrite <- IH. reflexivity.
  - intros o Ho. pose proof (set_internal_ids_spec _ _ _ _ _ _ _ _ I0) as (_ & _ & _ & _ & S2).
    destruct (forall2_in_right _ _ _ S2 o Ho) as (o1 & Ho1 & (i & j & ->)). cbn [o_flags set_o_ids].
    assert (Va : exists x, o_flags o1 = o_flags x /\ valid_option (s_style (d_settings p)) x).
    { assert (Vo : In o1 opts1 -> exists x, o_flags o1 = o_flags x /\ valid_option (s_style (d_settings p)) x).
      { intros Hi. apply validate_all_forall2 in V. destruct (forall2_in_right _ _ _ V o1 Hi) as (o0 & _ & E0).
        exists o0. split; [apply validate_result_proof in E0; apply E0|]. apply validate_iff_proof. exists o1. exact E0. }
      destruct (help_not_added_proof opts1 (c_current_section d0) (d_settings p)) as [E|(h & E & _)].
      - rewrite E in Ho1. auto.
      - pose proof E as E'. rewrite E in Ho1. apply in_app_iff in Ho1. destruct Ho1 as [Hi|[<-|[]]]; [auto|].
        exists h. split; [reflexivity|]. apply (help_valid_proof _ _ _ _ E'). }
    destruct Va as (x & -> & Va). destruct Va as (V1 & V2 & _). split; [exact V1|].
    intros g Hg ->. apply V2 in Hg. destruct Hg as (_ & c0 & r0 & E0 & _). discriminate.
Qed.

(** ** Labels *)

Lemma add_names_from : forall flags s, s <> [] ->
  add_names s flags = s ++ flat_map (fun f => $", " ++ f) flags.
Proof.
  induction flags as [|f flags IH]; intros s Hs; [symmetry; apply app_nil_r|].
  cbn [add_names flat_map]. destruct s as [|a s]; [congruence|].
  change (is_empty (a :: s)) with false. cbv iota. rewrite IH.
  - rewrite <- !app_assoc. reflexivity.
  - intros E. apply app_eq_nil in E. destruct E as (E & _). apply app_eq_nil in E. destruct E. congruence.
Qed.

Lemma join_flat : forall (sep : str) l x, SHelp.join sep (x :: l) = x ++ flat_map (fun f => sep ++ f) l.
Proof.
  intros sep l x. cbn [SHelp.join]. rewrite flat_map_concat_map. reflexivity.
Qed.

(** Options have flags. *)
Definition named (i : iview) : Prop :=
  match i with
  | ArgumentView _ => True
  | OptionView o => o_flags o <> [] /\ forall f, In f (o_flags o) -> f <> []
  end.
Lemma named_names : forall i, named i -> view_names i <> [].
Proof. intros [a|o] H; [discriminate|apply H]. Qed.

Lemma view_name_eq : forall i, named i -> view_name i = SHelp.join ($", ") (view_names i).
Proof.
  intros [a|o] H; [symmetry; apply app_nil_r|]. cbn [view_name view_names named] in *. destruct H as (_ & H).
  destruct (o_flags o) as [|f r]; [reflexivity|]. rewrite join_flat.
  cbn [add_names]. change (is_empty (@nil ascii)) with true. cbv iota. apply add_names_from.
  apply H. left. reflexivity.
Qed.

Lemma join_names_app : forall (sep : str) l1 l2, l1 <> [] -> l2 <> [] ->
  SHelp.join sep (l1 ++ l2) = SHelp.join sep l1 ++ sep ++ SHelp.join sep l2.
Proof.
  intros sep [|x l1] [|y l2] H1 H2; try congruence. cbn [app]. rewrite !join_flat, flat_map_app.
  cbn [flat_map]. rewrite <- !app_assoc. reflexivity.
Qed.

Definition group_name (g : list iview) : str := SHelp.join ($", ") (flat_map view_names g).

(** A group of items with the same value extends the last label. *)
Lemma make_labels_group : forall g racc rest j done,
  (forall i, In i g -> view_value_id i = view_value_id j) ->
  (forall i, In i g -> named i) ->
  done <> [] -> flat_map view_names done <> [] ->
  make_labels ((j, group_name done) :: racc) (g ++ rest) =
  make_labels ((j, group_name (done ++ g)) :: racc) rest.
Proof.
  induction g as [|i g IH]; intros racc rest j done Hv Hn Hd Hf.
  - rewrite app_nil_r. reflexivity.
  - cbn [app make_labels]. rewrite (Hv i (or_introl eq_refl)), N.eqb_refl.
    pose proof (Hn i (or_introl eq_refl)) as Hi2. pose proof (named_names i Hi2) as Hi1. rewrite (view_name_eq i Hi2).
    replace (group_name done ++ $", " ++ SHelp.join ($", ") (view_names i)) with (group_name (done ++ [i])).
    2:{ unfold group_name. rewrite flat_map_app. cbn [flat_map]. rewrite app_nil_r. apply join_names_app; assumption. }
    rewrite IH.
    + rewrite <- app_assoc. reflexivity.
    + intros; apply Hv; right; assumption.
    + intros; apply Hn; right; assumption.
    + destruct done; discriminate.
    + rewrite flat_map_app. intros E. apply app_eq_nil in E. destruct E. congruence.
Qed.

Lemma make_labels_groups : forall (gs : list (list iview)) racc,
  (forall g, In g gs -> g <> [] /\ (forall i j, In i g -> In j g -> view_value_id i = view_value_id j) /\
    (forall i, In i g -> named i)) ->
  (forall l g1 g2 r i j, gs = l ++ g1 :: g2 :: r -> In i g1 -> In j g2 -> view_value_id i <> view_value_id j) ->
  (forall j s r g gs' i, racc = (j, s) :: r -> gs = g :: gs' -> In i g -> view_value_id j <> view_value_id i) ->
  make_labels racc (concat gs) =
  rev racc ++ flat_map (fun g => match g with i :: _ => [(i, group_name g)] | [] => [] end) gs.
Proof.
  induction gs as [|g gs IH]; intros racc H1 H2 H3.
  - cbn [concat make_labels flat_map]. symmetry. apply app_nil_r.
  - destruct (H1 g (or_introl eq_refl)) as (Hg & Hs & Hn). destruct g as [|i g]; [congruence|].
    cbn [concat app make_labels].
    pose proof (Hn i (or_introl eq_refl)) as Hi2. pose proof (named_names i Hi2) as Hi1. rewrite (view_name_eq i Hi2).
    replace (SHelp.join ($", ") (view_names i)) with (group_name [i])
      by (unfold group_name; cbn [flat_map]; rewrite app_nil_r; reflexivity).
    replace (match racc with
             | [] => [(i, group_name [i])]
             | (j, s) :: t => if (view_value_id j =? view_value_id i)%N then (j, s ++ $", " ++ group_name [i]) :: t
                              else (i, group_name [i]) :: racc
             end) with ((i, group_name [i]) :: racc).
    2:{ destruct racc as [|(j & s) t]; [reflexivity|].
        rewrite (proj2 (N.eqb_neq _ _)); [reflexivity|]. eapply H3; [reflexivity|reflexivity|left; reflexivity]. }
    rewrite make_labels_group.
    2:{ intros x Hx. apply Hs; [right; exact Hx|left; reflexivity]. }
    2:{ intros x Hx. apply Hn. right. exact Hx. }
    2:{ discriminate. } 2:{ cbn [flat_map]. rewrite app_nil_r. exact Hi1. }
    rewrite IH.
    + cbn [rev flat_map app]. rewrite <- app_assoc. reflexivity.
    + intros x Hx. apply H1. right. exact Hx.
    + intros l g1 g2 r x y E. apply (H2 ((i :: g) :: l) g1 g2 r). rewrite E. reflexivity.
    + intros j s r g' gs' x E E' Hx. injection E as <- <- <-. subst gs.
      apply (H2 [] (i :: g) g' gs' i x eq_refl); [left; reflexivity|exact Hx].
Qed.

Lemma sorted_neighbours : forall {A} (R : A -> A -> Prop) gs, StronglySorted R gs ->
  forall l g1 g2 r, gs = l ++ g1 :: g2 :: r -> R g1 g2.
Proof.
  intros A R gs H. induction H as [|g gs H IH F]; intros l g1 g2 r E; [destruct l; discriminate|].
  destruct l as [|x l]; cbn [app] in E; injection E as -> ->.
  - inversion F; assumption.
  - eapply IH. reflexivity.
Qed.

Lemma firsts_in : forall l before i, In i (firsts before l) -> In i l.
Proof.
  induction l as [|x l IH]; intros before i H; [exact H|]. cbn [firsts] in H.
  destruct (existsb (same_value x) before); [right; eapply IH; exact H|].
  destruct H as [<-|H]; [left; reflexivity|right; eapply IH; exact H].
Qed.

Lemma print_command : forall c vs t,
  (forall i, In i (listed c) -> valueless i = true -> view_value_id i = 0%N) ->
  (forall i, In i (listed c) -> valueless i = false -> (t < view_value_id i)%N) ->
  orderly t (map view_value_id (filter (fun i => negb (valueless i)) (listed c))) ->
  (forall o, In o (c_options c) -> o_flags o <> [] /\ forall f, In f (o_flags o) -> f <> []) ->
  concat (map (fun p => print_argument (snd p) (get_values vs (view_value_id (fst p))))
    (make_labels [] (sort_by (fun a b => (view_value_id a <? view_value_id b)%N) (all_views c)))) =
  flat_map (print_line vs) (print_groups c).
Proof.
  intros c vs t H0 H1 H2 H3. change (all_views c) with (listed c).
  pose proof (sorted_views (listed c) t H0 H1 H2) as Hsort. cbv zeta in Hsort. rewrite Hsort. clear Hsort.
  set (valued := filter (fun i => negb (valueless i)) (listed c)) in *.
  assert (V : forall i, In i valued -> (t < view_value_id i)%N).
  { intros i Hi. apply filter_In in Hi. destruct Hi as (Hi & Hv). apply H1; [exact Hi|].
    destruct (valueless i); [discriminate|reflexivity]. }
  destruct (firsts_ascending view_value_id valued t t []) as (A1 & A2 & A3).
  { split; [intros i []|intros n Hn; lia]. } { lia. } { exact H2. } { exact V. }
  rewrite <- firsts_eq in A1, A2, A3.
  assert (Names : forall i, In i (listed c) -> named i).
  { intros i Hi. unfold listed in Hi. apply in_app_iff in Hi. destruct Hi as [Hi|Hi]; apply in_map_iff in Hi; destruct Hi as (x & <- & Hx).
    - exact Logic.I.
    - apply H3. exact Hx. }
  assert (E : filter valueless (listed c) ++ flat_map (fun i => filter (same_value i) valued) (firsts [] valued) =
              concat (print_groups c)).
  { unfold print_groups. fold valued. rewrite flat_map_concat_map.
    destruct (filter valueless (listed c)); reflexivity. }
  rewrite E. clear E.
  assert (G1 : forall g, In g (print_groups c) -> g <> [] /\
            (forall i j, In i g -> In j g -> view_value_id i = view_value_id j) /\ (forall i, In i g -> named i)).
  { intros g Hg. unfold print_groups in Hg. fold valued in Hg. apply in_app_iff in Hg. destruct Hg as [Hg|Hg].
    - destruct (filter valueless (listed c)) as [|x r] eqn:E; [destruct Hg|]. destruct Hg as [<-|[]].
      rewrite <- E. split; [rewrite E; discriminate|].
      assert (X : forall i, In i (filter valueless (listed c)) -> view_value_id i = 0%N /\ named i).
      { intros i Hi. apply filter_In in Hi. destruct Hi. auto. }
      split; [intros i j Hi Hj; destruct (X i Hi), (X j Hj); congruence|]. intros i Hi. apply X. exact Hi.
    - apply in_map_iff in Hg. destruct Hg as (x & <- & Hx). apply firsts_in in Hx.
      assert (X : forall i, In i (filter (same_value x) valued) -> view_value_id i = view_value_id x /\ named i).
      { intros i Hi. apply filter_In in Hi. destruct Hi as (Hi & Ei). unfold same_value in Ei. apply N.eqb_eq in Ei.
        split; [congruence|]. apply Names. apply filter_In in Hi. apply Hi. }
      split; [|split; [intros i j Hi Hj; destruct (X i Hi), (X j Hj); congruence|intros i Hi; apply X; exact Hi]].
      intros E. assert (Hi : In x (filter (same_value x) valued)) by (apply filter_In; split; [exact Hx|apply N.eqb_refl]).
      rewrite E in Hi. destruct Hi. }
  assert (G2 : StronglySorted (fun g1 g2 => forall i j, In i g1 -> In j g2 -> (view_value_id i < view_value_id j)%N) (print_groups c)).
  { assert (B : forall heads, StronglySorted (fun a b => (view_value_id a < view_value_id b)%N) heads ->
        StronglySorted (fun g1 g2 => forall i j, In i g1 -> In j g2 -> (view_value_id i < view_value_id j)%N)
          (map (fun i => filter (same_value i) valued) heads)).
    { clear. intros heads H. induction H as [|x r H IH F]; [constructor|]. cbn [map]. constructor; [exact IH|].
      apply Forall_forall. intros g Hg i j Hi Hj. apply in_map_iff in Hg. destruct Hg as (y & <- & Hy).
      rewrite Forall_forall in F. apply F in Hy. apply filter_In in Hi, Hj. destruct Hi as (_ & Hi), Hj as (_ & Hj).
      unfold same_value in Hi, Hj. apply N.eqb_eq in Hi, Hj. lia. }
    unfold print_groups. fold valued. destruct (filter valueless (listed c)) as [|x r] eqn:E; [apply B, A1|].
    cbn [app]. constructor; [apply B, A1|]. apply Forall_forall. intros g Hg i j Hi Hj.
    rewrite <- E in Hi. apply filter_In in Hi. destruct Hi as (Hi & Ei). rewrite (H0 i Hi Ei).
    apply in_map_iff in Hg. destruct Hg as (y & <- & Hy). apply filter_In in Hj. destruct Hj as (Hj & _). apply V in Hj. lia. }
  rewrite make_labels_groups; [|exact G1| |discriminate].
  2:{ intros l g1 g2 r i j E Hi Hj. pose proof (sorted_neighbours _ _ G2 l g1 g2 r E i j Hi Hj). lia. }
  cbn [rev app]. clear - G1. induction (print_groups c) as [|g gs IH]; [reflexivity|].
  cbn [flat_map]. rewrite map_app, concat_app, IH; [|intros x Hx; apply G1; right; exact Hx].
  destruct (G1 g (or_introl eq_refl)) as (Hg & _). destruct g as [|i g]; [congruence|].
  cbn [map concat]. rewrite app_nil_r. f_equal. unfold print_argument, print_line. cbn [fst snd].
  unfold group_name, quoted. rewrite !flat_map_concat_map. reflexivity.
Qed.

Lemma level_nested_ind : forall (P : level -> Prop),
  (forall c vs un rc so subs, Forall P subs -> P (mk_level c vs un rc so subs)) -> forall l, P l.
Proof.
  intros P H. fix F 1. intros [c vs un rc so subs]. apply H. induction subs as [|s r IH]; constructor; [apply F|exact IH].
Qed.

Lemma print_level : forall p q l, fresh (d_command p) -> finish_parser p = Val q ->
  (forall x, in_result l x -> within (d_command q) (l_command x)) -> print l = printed l.
Proof.
  intros p q l Fr Hq. induction l as [c vs un rc so subs IH] using level_nested_ind. intros W.
  cbn [print printed]. destruct (finished_views p q c Fr Hq (W _ (in_result_self _))) as (t & V1 & V2 & V3 & V4).
  cbv zeta. rewrite (print_command c vs t V1 V2 V3 V4). f_equal. f_equal.
  - destruct un as [|u un]; [reflexivity|]. change (is_empty (u :: un)) with false. cbv iota.
    rewrite flat_map_concat_map. reflexivity.
  - rewrite flat_map_concat_map. f_equal. apply map_ext_in. intros s Hs. rewrite Forall_forall in IH.
    rewrite (IH s Hs); [reflexivity|]. intros x Hx. apply W. eapply in_result_sub; [exact Hs|exact Hx].
Qed.

Lemma chain_last : forall top parents cur, chain top cur parents -> l_command (last parents cur) = top.
Proof.
  intros top. induction parents as [|p r IH]; intros cur H; [exact H|]. cbn [chain] in H. destruct H as (_ & H).
  rewrite <- (IH p H). destruct r as [|x r]; [reflexivity|]. f_equal. cbn [last].
  clear. revert x. induction r as [|y r IH]; intros x; [reflexivity|]. cbn [last]. apply IH.
Qed.

Lemma print_reached : forall p q args st n, made_parser p -> finish_parser p = Val q ->
  reached (d_settings q) (d_command q) args st n -> print (toplevel st) = printed (toplevel st).
Proof.
  intros p q args st n Hp Hq H. apply (print_level p q); [apply made_parser_fresh, Hp|exact Hq|].
  assert (T : l_command (toplevel st) = d_command q).
  { pose proof (reached_inv _ _ (finish_parser_prepared p q Hq) _ _ _ H) as Iv. apply inv_shape in Iv.
    destruct (toplevel_pop (ps_parents st) (ps_cur st)) as (l & t & E1 & E2 & E3 & _).
    unfold toplevel. rewrite E2, E3, <- E1. replace (last (ps_cur st :: ps_parents st) (ps_cur st)) with (last (ps_parents st) (ps_cur st)) by (destruct (ps_parents st); reflexivity). apply chain_last. apply (sh_chain _ _ _ Iv). }
  intros x Hx. assert (W : forall l x, in_result l x -> (forall y, in_result l y -> forall s, In s (l_subs y) -> In (l_command s) (c_commands (l_command y))) ->
     within (d_command q) (l_command l) -> within (d_command q) (l_command x)).
  { clear. intros l x Hx. induction Hx as [l|l s x Hs Hx IH]; intros Hsub Wl; [exact Wl|]. apply IH.
    - intros y Hy. apply Hsub. eapply in_result_sub; eassumption.
    - eapply within_sub; [exact Wl|]. apply (Hsub l (in_result_self _) s Hs). }
  apply (W _ _ Hx); [|rewrite T; constructor].
  intros y Hy s Hs. eapply (subcommands_proof _ _ (finish_parser_prepared p q Hq)); eassumption.
Qed.
