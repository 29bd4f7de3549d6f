(** Two runs on command lines that differ in spelling only (C04, C05). *)
From Verif Require Import Base BaseProofs MStrings MOptIter MData MCounter MValues MParser
  STok SIndex SDef SValues SCounter SParser SStep SEquiv
  TokProofs IndexProofs FinishProofs ValuesProofs CounterProofs CounterInv
  MonadProofs FrameProofs InvProofs NextProofs ParseProofs StepProofs StepProofs2.
Open Scope nat_scope.

(** ** Iterators *)

(** [injection] would simplify the terms. *)
Lemma Ok_inj : forall A (x y : A), Ok x = Ok y -> x = y.
Proof. intros A x y E. injection E as E. exact E. Qed.

(** The same unread text. *)
Inductive alike : opt_iter -> opt_iter -> Prop :=
| al_fresh : forall k l, alike (mk_iter k l (At 0)) (mk_iter k l (At 0))
| al_done : forall k a b l, alike (mk_iter k (a :: l) Npos) (mk_iter k (b :: l) Npos)
| al_part : forall k a b i j l, 1 <= i <= length a -> 1 <= j <= length b ->
    skipn i a = skipn j b ->
    (i < length a -> exists c d, nth_error a 1 = Some c /\ nth_error b 1 = Some d /\
       Ascii.eqb c c_dash = Ascii.eqb d c_dash) ->
    alike (mk_iter k (a :: l) (At i)) (mk_iter k (b :: l) (At j)).

(** What is left of a group as an argument of its own. *)
Definition rest_of (s : str) (l : list str) : list str :=
  match s with [] => l | _ => (c_dash :: s) :: l end.

Inductive pos_in : pos -> str -> Prop :=
| pi_npos : forall a, pos_in Npos a
| pi_at : forall k a, k <= length a -> pos_in (At k) a.

(** The same tokens are read next. *)
Inductive alike_next : opt_iter -> opt_iter -> Prop :=
| an_alike : forall i j, alike i j -> alike_next i j
| an_group : forall a b i l x, 1 <= i <= length a -> 
    (i < length a -> nth_error a 1 = Some x) -> x <> c_dash -> hd_error (skipn i a) <> Some c_dash ->
    alike_next (mk_iter KStandard (a :: l) (At i)) (mk_iter KStandard (b :: rest_of (skipn i a) l) Npos)
| an_prefix : forall p a b i j l, i <> At 0 -> j <> At 0 ->
    pos_in i a -> pos_in j b ->
    alike_next (mk_iter (KPrefix p) (a :: l) i) (mk_iter (KPrefix p) (b :: l) j).

Lemma alike_refl : forall it, wf_iter it -> alike it it.
Proof.
  intros [k l [[|n]|]] W.
  - constructor.
  - destruct W as (a & r & E & L). cbn [it_args] in E. subst l. apply al_part; auto; try lia.
    intros Ln. destruct (nth_error a 1) as [c|] eqn:E; [eauto|]. apply nth_error_None in E. lia.
  - cbn in W. destruct l as [|a l]; [contradiction|]. constructor.
Qed.

Lemma alike_wf : forall i j, alike i j -> wf_iter i /\ wf_iter j.
Proof.
  intros i j [k l|k a b l|k a b i1 j1 l Hi Hj _ _]; (split; [|]); simpl; try exact I; try discriminate.
  - destruct i1; [lia|]. exists a, l. split; [reflexivity|simpl; lia].
  - destruct j1; [lia|]. exists b, l. split; [reflexivity|simpl; lia].
Qed.

Lemma alike_next_wf : forall i j, alike_next i j -> wf_iter i /\ wf_iter j.
Proof.
  intros i j H. destruct H as [i j A|a b i l x Hi _ _ _|p a b i j l Ni Nj Pi Pj].
  - apply alike_wf. exact A.
  - split; [|discriminate]. destruct i; [lia|]. exists a, l. split; [reflexivity|simpl; lia].
  - split.
    + inversion Pi; subst; [discriminate|]. destruct k; [congruence|]. exists a, l. auto.
    + inversion Pj; subst; [discriminate|]. destruct k; [congruence|]. exists b, l. auto.
Qed.

Lemma first_alike : forall k l t it, (match k with KStandard => std_first l | KPrefix p => pre_first p l end) = Ok (t, it) ->
  alike it it.
Proof.
  intros k l t it E. apply alike_refl. destruct k.
  - destruct (std_first_wf l) as (t' & it' & E' & W & _). rewrite E in E'. injection E' as _ <-. exact W.
  - destruct (pre_first_wf prefix l) as (t' & it' & E' & W & _). rewrite E in E'. injection E' as _ <-. exact W.
Qed.

Lemma skipn_cons : forall (a : str) i c, nth_error a i = Some c -> skipn i a = c :: skipn (S i) a.
Proof.
  induction a as [|x a IH]; intros [|i] c E; try discriminate.
  - injection E as ->. reflexivity.
  - apply IH in E. exact E.
Qed.

Lemma alike_next_step : forall i j t i', alike_next i j -> it_next i = Ok (t, i') ->
  exists j', it_next j = Ok (t, j') /\ alike i' j'.
Proof.
  intros i j t i' H E. destruct H as [i j A|a b n l x Hi Hx Nx Nh|p a b i j l Ni Nj Pi Pj].
  - destruct A as [k l|k a b l|k a b n m l Hn Hm Es Eg].
    + exists i'. split; [exact E|]. destruct k.
      * exact (first_alike KStandard l t i' E).
      * exact (first_alike (KPrefix prefix) l t i' E).
    + exists i'. destruct k.
      * split; [exact E|]. exact (first_alike KStandard l t i' E).
      * split; [exact E|]. exact (first_alike (KPrefix prefix) l t i' E).
    + destruct n as [|n]; [lia|]. destruct m as [|m]; [lia|]. destruct k.
      2:{ exists i'. split; [exact E|]. exact (first_alike (KPrefix prefix) l t i' E). }
      unfold it_next, std_next in *. cbn [it_kind it_args it_pos pos_nonzero] in *.
      assert (El : length a - S n = length b - S m) by (rewrite <- !skipn_length, Es; reflexivity).
      destruct (Nat.ltb_spec (S n) (length a)) as [La|La].
      * destruct (Nat.ltb_spec (S m) (length b)) as [Lb|Lb]; [|lia].
        destruct (Eg La) as (c & d & Ec & Ed & Eq). rewrite Ec in E. rewrite Ed.
        destruct (nth_error a (S n)) as [y|] eqn:Ey; [|apply nth_error_None in Ey; lia].
        pose proof (skipn_cons _ _ _ Ey) as Sa.
        destruct (nth_error b (S m)) as [z|] eqn:Ez; [|apply nth_error_None in Ez; lia].
        pose proof (skipn_cons _ _ _ Ez) as Sb. rewrite Es, Sb in Sa. injection Sa as -> Sa.
        rewrite <- Eq. destruct (negb (Ascii.eqb c c_dash)).
        -- replace (S (S m) =? length b) with (S (S n) =? length a)
             by (destruct (Nat.eqb_spec (S (S n)) (length a)), (Nat.eqb_spec (S (S m)) (length b)); auto; lia).
           destruct (Nat.eqb_spec (S (S n)) (length a)); injection E as <- <-;
             eexists; (split; [reflexivity|]); [constructor|].
           apply al_part; try lia; [symmetry; exact Sa|]. intros _. eauto.
        -- exists i'. split; [exact E|]. exact (first_alike KStandard l t i' E).
      * destruct (Nat.ltb_spec (S m) (length b)) as [Lb|Lb]; [lia|].
        exists i'. split; [exact E|]. exact (first_alike KStandard l t i' E).
  - destruct n as [|n]; [lia|].
    unfold it_next, std_next in *. cbn [it_kind it_args it_pos pos_nonzero] in *.
    destruct (Nat.ltb_spec (S n) (length a)) as [La|La].
    + rewrite (Hx La) in E. destruct (nth_error a (S n)) as [y|] eqn:Ey; [|discriminate].
      pose proof (skipn_cons _ _ _ Ey) as Sa. rewrite Sa in *. cbn [hd_error] in Nh.
      destruct (Ascii.eqb_spec x c_dash) as [|_]; [contradiction|]. cbn [negb] in E.
      cbn [rest_of]. unfold std_first.
      assert (Ll : length (skipn (S (S n)) a) = length a - S (S n)) by apply skipn_length.
      cbn [length]. destruct (Nat.eqb_spec (S (S n)) (length a)) as [El|El]; injection E as <- <-.
      * assert (Z : skipn (S (S n)) a = []) by (apply length_zero_iff_nil; lia). rewrite Z.
        cbn [length Nat.leb]. eexists. split; [reflexivity|]. constructor.
      * destruct (Nat.leb_spec (S (S (length (skipn (S (S n)) a)))) 2); [lia|].
        cbn [nth_error]. change (Ascii.eqb c_dash c_dash) with true. cbn [negb].
        destruct (Ascii.eqb_spec y c_dash) as [->|_]; [contradiction Nh; reflexivity|]. cbn [negb].
        eexists. split; [reflexivity|]. apply al_part; cbn [length]; try lia.
        -- reflexivity.
        -- intros _. exists x, y. split; [exact (Hx La)|]. split; [reflexivity|].
           destruct (Ascii.eqb_spec x c_dash); [contradiction|].
           destruct (Ascii.eqb_spec y c_dash) as [->|]; [contradiction Nh; reflexivity|reflexivity].
    + rewrite skipn_all2 by lia. cbn [rest_of]. exists i'. split; [exact E|].
      exact (first_alike KStandard l t i' E).
  - unfold it_next, pre_next in *. cbn [it_kind it_args it_pos] in *.
    assert (Z : forall k, k <> At 0 -> pos_nonzero k = true) by (intros [[|?]|] ?; auto; congruence).
    rewrite Z in E |- * by assumption. exists i'. split; [exact E|].
    exact (first_alike (KPrefix p) l t i' E).
Qed.

Lemma alike_value : forall i j t i', alike i j -> it_next_value i = Ok (t, i') ->
  exists j', it_next_value j = Ok (t, j') /\ alike i' j'.
Proof.
  intros i j t i' A E.
  assert (Same : it_next_value j = it_next_value i -> wf_iter i ->
            exists j', it_next_value j = Ok (t, j') /\ alike i' j').
  { intros Ej W. exists i'. split; [congruence|]. apply alike_refl.
    destruct (next_value_wf i W) as (t2 & i2 & E2 & W2 & _). rewrite E in E2. injection E2 as _ <-. exact W2. }
  pose proof (alike_wf _ _ A) as (W & _).
  destruct A as [k l|k a b l|k a b n m l Hn Hm Es Eg].
  - apply Same; auto.
  - apply Same; auto.
  - unfold it_next_value in *. cbn [it_kind] in *.
    destruct k; unfold std_next_value, pre_next_value in *; cbn [it_args it_pos] in *;
      rewrite (proj2 (Nat.leb_le n (length a))) in E by lia;
      rewrite (proj2 (Nat.leb_le m (length b))) by lia; injection E as <- <-; rewrite Es;
      eexists; (split; [reflexivity|constructor]).
Qed.

Lemma alike_next_remaining : forall i j l i', alike_next i j -> it_remaining i = Ok (l, i') ->
  exists j', it_remaining j = Ok (l, j').
Proof.
  intros i j l i' H E. destruct H as [i j A|a b n r x Hi Hx Nx Nh|p a b i j r Ni Nj Pi Pj].
  - destruct A as [k r|k a b r|k a b n m r Hn Hm Es Eg].
    + eauto.
    + destruct k; vm_compute in E; injection E as <- _; eexists; vm_compute; reflexivity.
    + unfold it_remaining in *. cbn [it_kind] in *. destruct n as [|n]; [lia|]. destruct m as [|m]; [lia|].
      destruct k; [|unfold remaining_tail in *; cbn in *; injection E as <- _; eauto].
      unfold std_remaining, split_concatenated_flags in *. cbn [it_kind it_args it_pos pos_nonzero] in *.
      assert (El : length a - S n = length b - S m) by (rewrite <- !skipn_length, Es; reflexivity).
      destruct (Nat.leb_spec (length a) (S n)) as [La|La].
      { rewrite (proj2 (Nat.leb_le (length b) (S m))) by lia.
        unfold remaining_tail in *. cbn in *. injection E as <- _. eauto. }
      rewrite (proj2 (Nat.leb_gt (length b) (S m))) by lia.
      destruct (Eg La) as (c & d & Ec & Ed & Eq). rewrite Ec in E. rewrite Ed, <- Eq.
      destruct (Ascii.eqb c c_dash); unfold remaining_tail in *;
        cbn [it_pos pos_nonzero it_args subspan1] in *; rewrite ?Es in E; injection E as <- _;
        eexists; reflexivity.
  - destruct n as [|n]; [lia|]. exists (mk_iter KStandard (b :: rest_of (skipn (S n) a) r) Npos).
    unfold it_remaining in *. cbn [it_kind] in *.
    unfold std_remaining, split_concatenated_flags in *. cbn [it_kind it_args it_pos pos_nonzero] in *.
    destruct (Nat.leb_spec (length a) (S n)) as [La|La].
    + rewrite skipn_all2 by lia. unfold remaining_tail in *. cbn in *. injection E as <- _. reflexivity.
    + rewrite (Hx La) in E. destruct (Ascii.eqb_spec x c_dash) as [|_]; [contradiction|].
      unfold remaining_tail in *. cbn [it_pos pos_nonzero it_args subspan1] in *.
      destruct (skipn (S n) a) eqn:Es; [|injection E as <- _; reflexivity].
      assert (length (skipn (S n) a) = 0) by (rewrite Es; reflexivity). rewrite skipn_length in *. lia.
  - unfold it_remaining, remaining_tail in *. cbn [it_kind it_args it_pos] in *.
    assert (Z : forall k, k <> At 0 -> pos_nonzero k = true) by (intros [[|?]|] ?; auto; congruence).
    rewrite Z in E |- * by assumption. cbn [subspan1] in *. injection E as <- _. eauto.
Qed.

Lemma alike_insert : forall i j new i', alike i j -> it_insert i new = Ok i' ->
  exists j', it_insert j new = Ok j' /\ alike i' j'.
Proof.
  intros i j new i' A E. destruct A as [k r|k a b r|k a b n m r Hn Hm Es Eg].
  - eexists. split; [exact E|]. apply alike_refl.
    destruct (insert_wf (mk_iter k r (At 0)) new Logic.I) as (i2 & E2 & W2 & _). rewrite E in E2.
    injection E2 as <-. exact W2.
  - destruct k; unfold it_insert, std_insert, split_concatenated_flags, insert_tail in *; cbn in *;
      injection E as <-; eexists; (split; [reflexivity|constructor]).
  - unfold it_insert in *. cbn [it_kind] in *. destruct n as [|n]; [lia|]. destruct m as [|m]; [lia|].
    destruct k; [|unfold insert_tail in *; cbn in *; injection E as <-; eexists; split; [reflexivity|];
      apply al_part; assumption].
    unfold std_insert, split_concatenated_flags in *. cbn [it_kind it_args it_pos pos_nonzero] in *.
    assert (El : length a - S n = length b - S m) by (rewrite <- !skipn_length, Es; reflexivity).
    destruct (Nat.leb_spec (length a) (S n)) as [La|La].
    { rewrite (proj2 (Nat.leb_le (length b) (S m))) by lia.
      unfold insert_tail in *. cbn in *. injection E as <-. eexists. split; [reflexivity|].
      apply al_part; assumption. }
    rewrite (proj2 (Nat.leb_gt (length b) (S m))) by lia.
    destruct (Eg La) as (c & d & Ec & Ed & Eq). rewrite Ec in E. rewrite Ed, <- Eq.
    destruct (Ascii.eqb c c_dash); unfold insert_tail in *;
      cbn [it_kind it_pos pos_nonzero it_args] in *; rewrite ?Es in E; apply Ok_inj in E; subst i'; eexists;
      (split; [reflexivity|]).
    + apply al_part; assumption.
    + apply al_part.
      * rewrite firstn_length. lia.
      * rewrite firstn_length. lia.
      * rewrite !skipn_all2; [reflexivity|rewrite firstn_length; lia..].
      * rewrite firstn_length. lia.
Qed.

Lemma alike_next_insert : forall i j new i', alike_next i j -> it_insert i new = Ok i' ->
  exists j', it_insert j new = Ok j' /\ alike_next i' j'.
Proof.
  intros i j new i' H E. destruct H as [i j A|a b n r x Hi Hx Nx Nh|p a b i j r Ni Nj Pi Pj].
  - destruct (alike_insert _ _ _ _ A E) as (j' & E' & A'). exists j'. split; [exact E'|].
    apply an_alike. exact A'.
  - destruct n as [|n]; [lia|].
    unfold it_insert in *. cbn [it_kind] in *.
    unfold std_insert, split_concatenated_flags in *. cbn [it_kind it_args it_pos pos_nonzero] in *.
    unfold insert_tail at 1. cbn [it_kind it_pos pos_nonzero it_args].
    eexists. split; [reflexivity|].
    destruct (Nat.leb_spec (length a) (S n)) as [La|La].
    + unfold insert_tail in E. cbn in E. injection E as <-.
      rewrite skipn_all2 by lia. cbn [rest_of].
      replace (new ++ r) with (rest_of (skipn (S n) a) (new ++ r)) at 2
        by (rewrite skipn_all2 by lia; reflexivity).
      apply an_group with (x := x); auto.
    + rewrite (Hx La) in E. destruct (Ascii.eqb_spec x c_dash) as [|_]; [contradiction|].
      unfold insert_tail in E. cbn [it_kind it_pos pos_nonzero it_args] in E. apply Ok_inj in E; subst i'.
      replace (rest_of (skipn (S n) a) r) with ((c_dash :: skipn (S n) a) :: r).
      2:{ destruct (skipn (S n) a) eqn:Es; [|reflexivity].
          assert (length (skipn (S n) a) = 0) by (rewrite Es; reflexivity). rewrite skipn_length in *. lia. }
      set (l2 := new ++ _).
      assert (Z : skipn (S n) (firstn (S n) a) = []) by (apply skipn_all2; rewrite firstn_length; lia).
      replace l2 with (rest_of (skipn (S n) (firstn (S n) a)) l2) at 2 by (rewrite Z; reflexivity).
      apply an_group with (x := x); auto.
      * rewrite firstn_length. lia.
      * rewrite firstn_length. lia.
      * rewrite Z. discriminate.
  - unfold it_insert, insert_tail in *. cbn [it_kind it_args it_pos] in *.
    assert (Z : forall k, k <> At 0 -> pos_nonzero k = true) by (intros [[|?]|] ?; auto; congruence).
    rewrite Z in E |- * by assumption. injection E as <-. eexists. split; [reflexivity|].
    apply an_prefix; assumption.
Qed.
