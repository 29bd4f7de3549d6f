From Verif Require Import Base BaseProofs MOptIter STok.

(** ** Safety invariant *)

Definition wf_iter (it : opt_iter) : Prop :=
  match it_pos it with
  | At 0 => True
  | At k => exists a r, it_args it = a :: r /\ k <= length a
  | Npos => it_args it <> []
  end.

Ltac inv H := inversion H; subst; clear H.

Lemma std_first_wf : forall args, exists t it,
  std_first args = Ok (t, it) /\ wf_iter it /\ it_kind it = KStandard.
Proof.
  intros [|a r]; simpl.
  - do 2 eexists; split; [reflexivity|]. split; [exact I|reflexivity].
  - destruct (Nat.leb_spec (length a) 2).
    + do 2 eexists; split; [reflexivity|]. split; [discriminate|reflexivity].
    + destruct a as [|c0 [|c1 a]]; simpl in H; try lia. simpl nth_error. cbv iota.
      destruct (negb (Ascii.eqb c0 c_dash)).
      { do 2 eexists; split; [reflexivity|]. split; [discriminate|reflexivity]. }
      destruct (negb (Ascii.eqb c1 c_dash)).
      { do 2 eexists; split; [reflexivity|]. split; [|reflexivity].
        exists (c0 :: c1 :: a), r. split; [reflexivity|]. simpl. lia. }
      destruct (find_char c_eq (c0 :: c1 :: a)) as [p|] eqn:E.
      * do 2 eexists; split; [reflexivity|]. split; [|reflexivity].
        apply find_char_some in E. destruct E as (_ & _ & L).
        exists (c0 :: c1 :: a), r. split; [reflexivity|]. lia.
      * do 2 eexists; split; [reflexivity|]. split; [discriminate|reflexivity].
Qed.

Lemma pre_first_wf : forall p args, exists t it,
  pre_first p args = Ok (t, it) /\ wf_iter it /\ it_kind it = KPrefix p.
Proof.
  intros pr [|a r]; simpl.
  - do 2 eexists; split; [reflexivity|]. split; [exact I|reflexivity].
  - destruct (Nat.leb_spec (length a) 2).
    + do 2 eexists; split; [reflexivity|]. split; [discriminate|reflexivity].
    + destruct a as [|c0 a]; simpl in H; try lia. simpl nth_error. cbv iota.
      destruct (negb (Ascii.eqb c0 pr)).
      { do 2 eexists; split; [reflexivity|]. split; [discriminate|reflexivity]. }
      destruct (find_char c_eq (c0 :: a)) as [p|] eqn:E.
      * do 2 eexists; split; [reflexivity|]. split; [|reflexivity].
        apply find_char_some in E. destruct E as (_ & _ & L).
        exists (c0 :: a), r. split; [reflexivity|]. lia.
      * do 2 eexists; split; [reflexivity|]. split; [discriminate|reflexivity].
Qed.

Lemma next_wf : forall it, wf_iter it -> exists t it',
  it_next it = Ok (t, it') /\ wf_iter it' /\ it_kind it' = it_kind it.
Proof.
  intros [k args p] W. unfold it_next. cbn [it_kind]. destruct k as [|pr].
  - unfold std_next. cbn [it_args it_pos]. destruct p as [[|n]|]; cbn [pos_nonzero].
    + apply std_first_wf.
    + destruct W as (a & r & E & L). simpl in E, L. subst args.
      destruct (Nat.ltb_spec (S n) (length a)).
      * destruct (nth_error a 1) as [c1|] eqn:E1.
        2:{ apply nth_error_None in E1. lia. }
        destruct (nth_error a (S n)) as [c|] eqn:E2.
        2:{ apply nth_error_None in E2. lia. }
        destruct (negb (Ascii.eqb c1 c_dash)); [|apply std_first_wf].
        do 2 eexists; split; [reflexivity|]. split; [|reflexivity].
        destruct (Nat.eqb_spec (S (S n)) (length a)); unfold wf_iter; cbn [it_pos it_args].
        -- discriminate.
        -- exists a, r. split; [reflexivity|]. lia.
      * apply std_first_wf.
    + unfold wf_iter in W; simpl in W. destruct args as [|a r]; [congruence|].
      apply std_first_wf.
  - unfold pre_next. cbn [it_args it_pos]. destruct p as [[|n]|]; cbn [pos_nonzero].
    + apply pre_first_wf.
    + destruct W as (a & r & E & L). simpl in E. subst args. apply pre_first_wf.
    + unfold wf_iter in W; simpl in W. destruct args as [|a r]; [congruence|].
      apply pre_first_wf.
Qed.

Lemma next_value_wf : forall it, wf_iter it -> exists t it',
  it_next_value it = Ok (t, it') /\ wf_iter it' /\ it_kind it' = it_kind it.
Proof.
  intros [k args p] W. unfold it_next_value.
  destruct k as [|pr]; simpl; unfold std_next_value, pre_next_value; simpl.
  - destruct args as [|a r].
    + do 2 eexists; split; [reflexivity|]. split; [assumption|reflexivity].
    + destruct p as [n|].
      * assert (L : n <= length a).
        { destruct n; [lia|]. destruct W as (a' & r' & E & L). inv E. exact L. }
        destruct (Nat.leb_spec n (length a)); [|lia].
        do 2 eexists; split; [reflexivity|]. split; [discriminate|reflexivity].
      * destruct r as [|b r].
        -- do 2 eexists; split; [reflexivity|]. split; [exact I|reflexivity].
        -- do 2 eexists; split; [reflexivity|]. split; [discriminate|reflexivity].
  - destruct args as [|a r].
    + do 2 eexists; split; [reflexivity|]. split; [assumption|reflexivity].
    + destruct p as [n|].
      * assert (L : n <= length a).
        { destruct n; [lia|]. destruct W as (a' & r' & E & L). inv E. exact L. }
        destruct (Nat.leb_spec n (length a)); [|lia].
        do 2 eexists; split; [reflexivity|]. split; [discriminate|reflexivity].
      * destruct r as [|b r].
        -- do 2 eexists; split; [reflexivity|]. split; [exact I|reflexivity].
        -- do 2 eexists; split; [reflexivity|]. split; [|reflexivity].
           unfold wf_iter; simpl. destruct (length b) eqn:E; [exact I|].
           exists b, r. split; [reflexivity|]. lia.
Qed.

Lemma split_wf : forall it, wf_iter it -> exists it',
  split_concatenated_flags it = Ok it' /\ wf_iter it' /\ it_kind it' = it_kind it.
Proof.
  intros [k args p] W. unfold split_concatenated_flags; cbn [it_args it_pos it_kind].
  destruct p as [[|n]|]; cbn [pos_nonzero].
  - eexists; split; [reflexivity|]. split; [exact I|reflexivity].
  - destruct W as (a & r & E & L). simpl in E, L. subst args.
    destruct (Nat.leb_spec (length a) (S n)).
    + eexists; split; [reflexivity|]. split; [|reflexivity]. exists a, r. auto.
    + destruct (nth_error a 1) as [c1|] eqn:E1.
      2:{ apply nth_error_None in E1. lia. }
      destruct (Ascii.eqb c1 c_dash).
      * eexists; split; [reflexivity|]. split; [|reflexivity]. exists a, r. auto.
      * eexists; split; [reflexivity|]. split; [|reflexivity].
        exists (firstn (S n) a), ((c_dash :: skipn (S n) a) :: r).
        split; [reflexivity|]. rewrite firstn_length. lia.
  - unfold wf_iter in W; simpl in W. destruct args as [|a r]; [congruence|].
    eexists; split; [reflexivity|]. split; [discriminate|reflexivity].
Qed.

Lemma remaining_tail_wf : forall it, wf_iter it -> exists l,
  remaining_tail it = Ok (l, it).
Proof.
  intros [k args p] W. unfold remaining_tail; simpl.
  destruct p as [[|n]|]; simpl.
  - eexists; reflexivity.
  - destruct W as (a & r & E & L). simpl in E. subst args. eexists; reflexivity.
  - unfold wf_iter in W; simpl in W. destruct args; [congruence|]. eexists; reflexivity.
Qed.

Lemma remaining_wf : forall it, wf_iter it -> exists l it',
  it_remaining it = Ok (l, it') /\ wf_iter it' /\ it_kind it' = it_kind it.
Proof.
  intros it W. unfold it_remaining. destruct (it_kind it) eqn:K.
  - unfold std_remaining. destruct (split_wf it W) as (it' & E & W' & K').
    rewrite E. destruct (remaining_tail_wf it' W') as (l & E'). exists l, it'.
    rewrite K in K'. auto.
  - destruct (remaining_tail_wf it W) as (l & E'). exists l, it. auto.
Qed.

Lemma insert_tail_wf : forall it new, wf_iter it -> exists it',
  insert_tail it new = Ok it' /\ wf_iter it' /\ it_kind it' = it_kind it.
Proof.
  intros [k args p] new W. unfold insert_tail; simpl.
  destruct p as [[|n]|]; simpl.
  - eexists; split; [reflexivity|]. split; [exact I|reflexivity].
  - destruct W as (a & r & E & L). simpl in E, L. subst args.
    eexists; split; [reflexivity|]. split; [|reflexivity].
    exists a, (new ++ r). auto.
  - unfold wf_iter in W; simpl in W. destruct args; [congruence|].
    eexists; split; [reflexivity|]. split; [discriminate|reflexivity].
Qed.

Lemma insert_wf : forall it new, wf_iter it -> exists it',
  it_insert it new = Ok it' /\ wf_iter it' /\ it_kind it' = it_kind it.
Proof.
  intros it new W. unfold it_insert. destruct (it_kind it) eqn:K.
  - unfold std_insert. destruct (split_wf it W) as (it' & E & W' & K').
    rewrite E. destruct (insert_tail_wf it' new W') as (it'' & E' & W'' & K'').
    exists it''. rewrite K', K in K''. auto.
  - destruct (insert_tail_wf it new W) as (it' & E & W' & K'). exists it'.
    rewrite K in K'. auto.
Qed.

Lemma start_wf : forall k args, wf_iter (it_start k args).
Proof. intros. exact I. Qed.

Lemma tok_step_wf : forall op it, wf_iter it -> exists it',
  tok_step op it = Ok it' /\ wf_iter it' /\ it_kind it' = it_kind it.
Proof.
  intros [| | | new | ] it W; simpl.
  - destruct (next_wf it W) as (t & it' & E & W' & K). rewrite E. eauto.
  - destruct (next_value_wf it W) as (t & it' & E & W' & K). rewrite E. eauto.
  - destruct (remaining_wf it W) as (t & it' & E & W' & K). rewrite E. eauto.
  - apply insert_wf; assumption.
  - eauto.
Qed.

Lemma tok_run_wf : forall ops it, wf_iter it -> exists it',
  tok_run ops it = Ok it' /\ wf_iter it' /\ it_kind it' = it_kind it.
Proof.
  induction ops as [|op ops IH]; intros it W; simpl.
  - eauto.
  - destruct (tok_step_wf op it W) as (it' & E & W' & K). rewrite E.
    destruct (IH it' W') as (it'' & E' & W'' & K'). exists it''.
    rewrite K in K'. auto.
Qed.

Lemma reachable_wf : forall k it, tok_reachable k it -> wf_iter it /\ it_kind it = k.
Proof.
  intros k it (args & ops & E).
  destruct (tok_run_wf ops _ (start_wf k args)) as (it' & E' & W & K).
  rewrite E in E'. inv E'. auto.
Qed.

Lemma tokenizer_safe_proof : forall k args ops, exists it,
  tok_run ops (it_start k args) = Ok it.
Proof.
  intros. destruct (tok_run_wf ops _ (start_wf k args)) as (it & E & _). eauto.
Qed.

(** ** Reading tokens *)

Lemma drains_fun : forall it ts1, drains it ts1 -> forall ts2, drains it ts2 -> ts1 = ts2.
Proof.
  induction 1 as [it it' E|it it' t ts E D IH]; intros ts2 D2; inv D2; try congruence.
  rewrite E in H. inv H. f_equal. apply IH. assumption.
Qed.

Lemma value_drains_fun : forall it ts1, value_drains it ts1 ->
  forall ts2, value_drains it ts2 -> ts1 = ts2.
Proof.
  induction 1 as [it it' E|it it' t ts E D IH]; intros ts2 D2; inv D2; try congruence.
  rewrite E in H. inv H. f_equal. apply IH. assumption.
Qed.

(** Iterators that behave the same under [it_next] drain the same. *)
Lemma drains_same_next : forall it1 it2 ts,
  it_next it1 = it_next it2 -> drains it1 ts -> drains it2 ts.
Proof.
  intros it1 it2 ts E D. inv D.
  - eapply drains_end. rewrite <- E. eassumption.
  - eapply drains_token; [rewrite <- E|]; eassumption.
Qed.

Lemma drains_group : forall a r ts n k,
  n = length a - k -> 1 <= k -> k <= length a ->
  nth_error a 1 <> Some c_dash ->
  drains (it_start KStandard r) ts ->
  drains (mk_iter KStandard (a :: r) (At k))
    (map (fun f => [c_dash; f]) (skipn k a) ++ ts).
Proof.
  intros a r ts. induction n as [|n IH]; intros k En K1 K2 H1 D.
  - assert (k = length a) by lia. subst k. rewrite skipn_all. simpl.
    apply drains_same_next with (2 := D). unfold it_next, std_next; simpl.
    destruct (length a) as [|m] eqn:L; [lia|]. simpl.
    replace (S m <? S m) with false by (symmetry; apply Nat.ltb_irrefl). reflexivity.
  - destruct (nth_error a k) as [c|] eqn:Ek.
    2:{ apply nth_error_None in Ek. lia. }
    rewrite (nth_error_skipn_cons _ _ _ Ek). cbn [map app].
    destruct (nth_error a 1) as [c1|] eqn:E1.
    2:{ apply nth_error_None in E1. lia. }
    assert (N : Ascii.eqb c1 c_dash = false).
    { apply Ascii.eqb_neq. congruence. }
    destruct (Nat.eqb_spec (S k) (length a)) as [El|El].
    + eapply drains_token.
      { unfold it_next, std_next; cbn [it_args it_pos it_kind]. destruct k as [|k']; [lia|]. cbn [pos_nonzero].
        destruct (Nat.ltb_spec (S k') (length a)); [|lia].
        rewrite E1, Ek, N. cbn [negb]. rewrite (proj2 (Nat.eqb_eq _ _) El). reflexivity. }
      rewrite El. rewrite skipn_all. simpl.
      apply drains_same_next with (2 := D). reflexivity.
    + eapply drains_token.
      { unfold it_next, std_next; cbn [it_args it_pos it_kind]. destruct k as [|k']; [lia|]. cbn [pos_nonzero].
        destruct (Nat.ltb_spec (S k') (length a)); [|lia].
        rewrite E1, Ek, N. cbn [negb]. rewrite (proj2 (Nat.eqb_neq _ _) El). reflexivity. }
      apply IH; auto; lia.
Qed.

(** Past a finished argument. *)
Lemma drains_npos : forall k a r ts,
  drains (it_start k r) ts -> drains (mk_iter k (a :: r) Npos) ts.
Proof.
  intros k a r ts D. apply drains_same_next with (2 := D).
  destruct k; reflexivity.
Qed.

(** Past the value of a "--x=" argument. *)
Lemma drains_value_std : forall a r ts k,
  1 <= k -> nth_error a 1 = Some c_dash ->
  drains (it_start KStandard r) ts ->
  drains (mk_iter KStandard (a :: r) (At k)) ts.
Proof.
  intros a r ts k K E D. apply drains_same_next with (2 := D).
  unfold it_next, std_next; cbn [it_args it_pos it_kind]. destruct k as [|k]; [lia|]. cbn [pos_nonzero].
  destruct (Nat.ltb_spec (S k) (length a)); [|reflexivity].
  rewrite E. destruct (nth_error a (S k)) eqn:Ek; [reflexivity|].
  apply nth_error_None in Ek. lia.
Qed.

Lemma std_drains_cons : forall a r ta ts,
  std_arg_tokens a ta -> drains (it_start KStandard r) ts ->
  drains (it_start KStandard (a :: r)) (ta ++ ts).
Proof.
  intros a r ta ts S D.
  assert (NP := drains_npos KStandard a r ts D).
  destruct S as [a H|a H|c cs H|x H|x v H].
  - simpl. eapply drains_token; [|exact NP].
    unfold it_next, std_next; simpl. apply Nat.leb_le in H. rewrite H. reflexivity.
  - simpl. eapply drains_token; [|exact NP].
    unfold it_next, std_next; simpl.
    destruct (Nat.leb_spec (length a) 2); [reflexivity|].
    destruct a as [|c0 [|c1 a]]; simpl in *; try lia.
    destruct (Ascii.eqb_spec c0 c_dash) as [->|]; [exfalso; apply H; reflexivity|].
    reflexivity.
  - destruct cs as [|c2 cs].
    + simpl. eapply drains_token; [|exact NP]. reflexivity.
    + apply Ascii.eqb_neq in H. simpl map. simpl app.
      eapply drains_token.
      { unfold it_next, std_next; simpl.
        change c_dash with "-"%char. rewrite H. simpl. reflexivity. }
      apply (drains_group ("-"%char :: c :: c2 :: cs) r ts (S (length cs)) 2);
        simpl; auto; try lia.
      apply Ascii.eqb_neq in H. intros X. inv X. apply H. reflexivity.
  - destruct x as [|c x].
    + simpl. eapply drains_token; [|exact NP]. reflexivity.
    + simpl app. eapply drains_token; [|exact NP].
      unfold it_next, std_next. simpl it_args. simpl it_pos. cbv [pos_nonzero].
      unfold std_first. simpl length. simpl Nat.leb. cbv iota.
      simpl nth_error. cbv iota. simpl negb. cbv iota.
      destruct (find_char c_eq ("-"%char :: "-"%char :: c :: x)) as [p|] eqn:E; [|reflexivity].
      exfalso. assert (X : find_char c_eq ("-"%char :: "-"%char :: c :: x) = None).
      { apply find_char_none. intros [X|[X|X]]; [discriminate X|discriminate X|].
        apply H. exact X. }
      congruence.
  - simpl app. eapply drains_token.
    { unfold it_next, std_next. simpl it_args. simpl it_pos. cbv [pos_nonzero].
      unfold std_first.
      replace (length ("-"%char :: "-"%char :: x ++ "="%char :: v) <=? 2) with false.
      2:{ symmetry. apply Nat.leb_gt. simpl. rewrite app_length. simpl. lia. }
      simpl nth_error. cbv iota. simpl negb. cbv iota.
      change ("-"%char :: "-"%char :: x ++ "="%char :: v)
        with (("-"%char :: "-"%char :: x) ++ c_eq :: v).
      rewrite find_char_app.
      2:{ intros [X|[X|X]]; [discriminate X|discriminate X|]. apply H. exact X. }
      replace (firstn (S (length ("-"%char :: "-"%char :: x)))
                 (("-"%char :: "-"%char :: x) ++ c_eq :: v))
        with ("-"%char :: "-"%char :: x ++ ["="%char]).
      2:{ rewrite firstn_app. rewrite firstn_all2 by (simpl; lia).
          replace (S (length ("-"%char :: "-"%char :: x)) -
                   length ("-"%char :: "-"%char :: x)) with 1 by lia.
          reflexivity. }
      reflexivity. }
    apply drains_value_std; [simpl; lia|reflexivity|exact D].
Qed.

Lemma std_arg_tokens_total : forall a, exists ts, std_arg_tokens a ts.
Proof.
  intros a. destruct (le_lt_dec (length a) 2) as [L|L].
  - exists [a]. constructor. exact L.
  - destruct a as [|c0 [|c1 r]]; simpl in L; try lia.
    destruct (Ascii.eqb_spec c0 "-"%char) as [->|N0].
    + destruct (Ascii.eqb_spec c1 "-"%char) as [->|N1].
      * destruct (find_char c_eq r) as [p|] eqn:E.
        -- apply find_char_some in E. destruct E as (E & NI & _).
           rewrite E. eexists. apply sat_long_eq. exact NI.
        -- eexists. apply sat_long. apply find_char_none. exact E.
      * eexists. apply sat_group. exact N1.
    + eexists. apply sat_plain. simpl. congruence.
Qed.

Lemma std_drains_all : forall args tss, Forall2 std_arg_tokens args tss ->
  drains (it_start KStandard args) (concat tss).
Proof.
  induction 1 as [|a ta args tss S F IH].
  - eapply drains_end. reflexivity.
  - simpl. apply std_drains_cons; assumption.
Qed.

Lemma Forall2_total : forall {A B} (R : A -> B -> Prop),
  (forall a, exists b, R a b) -> forall l, exists l', Forall2 R l l'.
Proof.
  intros A B R H. induction l as [|a l [l' IH]].
  - exists []. constructor.
  - destruct (H a) as (b & Hb). exists (b :: l'). constructor; assumption.
Qed.

Lemma std_tokens_proof : forall args toks,
  drains (it_start KStandard args) toks <->
  exists tss, Forall2 std_arg_tokens args tss /\ toks = concat tss.
Proof.
  intros args toks. split.
  - intros D. destruct (Forall2_total std_arg_tokens std_arg_tokens_total args) as (tss & F).
    exists tss. split; [exact F|]. eapply drains_fun; [exact D|].
    apply std_drains_all. exact F.
  - intros (tss & F & ->). apply std_drains_all. exact F.
Qed.

Lemma std_drains_total : forall args, exists toks, drains (it_start KStandard args) toks.
Proof.
  intros. destruct (Forall2_total std_arg_tokens std_arg_tokens_total args) as (tss & F).
  exists (concat tss). apply std_drains_all. exact F.
Qed.

(** *** Slash and dash style *)

Lemma pre_next_past : forall p a r k, k <> At 0 ->
  it_next (mk_iter (KPrefix p) (a :: r) k) = it_next (it_start (KPrefix p) r).
Proof.
  intros p a r [[|n]|] H; try congruence; reflexivity.
Qed.

Lemma pre_drains_cons : forall p a r t ts,
  prefix_arg_token p a t -> drains (it_start (KPrefix p) r) ts ->
  drains (it_start (KPrefix p) (a :: r)) (t :: ts).
Proof.
  intros p a r t ts S D.
  assert (NP : forall k, k <> At 0 -> drains (mk_iter (KPrefix p) (a :: r) k) ts).
  { intros k Hk. apply drains_same_next with (2 := D). symmetry.
    apply pre_next_past. exact Hk. }
  destruct S as [a H|a H|a H|x v H H0 H1].
  - eapply drains_token; [|apply (NP Npos); discriminate].
    unfold it_next, pre_next; simpl. apply Nat.leb_le in H. rewrite H. reflexivity.
  - eapply drains_token; [|apply (NP Npos); discriminate].
    unfold it_next, pre_next; simpl. destruct (length a <=? 2) eqn:L; [reflexivity|].
    destruct a as [|c a]; [discriminate|]. simpl nth_error. cbv iota.
    destruct (Ascii.eqb_spec c p) as [->|]; [exfalso; apply H; reflexivity|].
    reflexivity.
  - eapply drains_token; [|apply (NP Npos); discriminate].
    unfold it_next, pre_next; simpl. destruct (length a <=? 2) eqn:L; [reflexivity|].
    destruct a as [|c a]; [discriminate|]. simpl nth_error. cbv iota.
    destruct (Ascii.eqb c p); [|reflexivity].
    apply find_char_none in H. change c_eq with "="%char. rewrite H. reflexivity.
  - eapply drains_token; [|apply (NP (At (S (length x)))); discriminate].
    unfold it_next, pre_next. cbn [it_start it_kind it_args it_pos pos_nonzero].
    unfold pre_first.
    destruct (Nat.leb_spec (length (x ++ "="%char :: v)) 2); [lia|].
    destruct x as [|c x]; [discriminate|]. simpl in H. injection H as ->.
    cbn [app nth_error]. rewrite Ascii.eqb_refl. cbn [negb].
    change (p :: x ++ "="%char :: v) with ((p :: x) ++ c_eq :: v).
    rewrite find_char_app by exact H0.
    replace (firstn (S (length (p :: x))) ((p :: x) ++ c_eq :: v))
      with ((p :: x) ++ ["="%char]).
    2:{ rewrite firstn_app. rewrite firstn_all2 by (simpl; lia).
        replace (S (length (p :: x)) - length (p :: x)) with 1 by lia. reflexivity. }
    reflexivity.
Qed.


Lemma prefix_arg_token_total : forall p a, p <> "="%char ->
  exists t, prefix_arg_token p a t.
Proof.
  intros p a Hp. destruct (le_lt_dec (length a) 2) as [L|L].
  - exists a. constructor. exact L.
  - destruct a as [|c a]; simpl in L; [lia|].
    destruct (Ascii.eqb_spec c p) as [->|N].
    + destruct (find_char c_eq (p :: a)) as [q|] eqn:E.
      * apply find_char_some in E. destruct E as (E & NI & _).
        destruct q as [|q].
        -- simpl in E. inv E. exfalso. apply Hp. reflexivity.
        -- exists (firstn (S q) (p :: a) ++ ["="%char]).
           pose proof (pat_eq p (firstn (S q) (p :: a)) (skipn (S (S q)) (p :: a))) as T.
           change "="%char with c_eq in T. rewrite <- E in T. apply T.
           ++ reflexivity.
           ++ exact NI.
           ++ simpl. lia.
      * exists (p :: a). apply pat_no_eq. apply find_char_none. exact E.
    + exists (c :: a). apply pat_plain. simpl. congruence.
Qed.

Lemma pre_drains_all : forall p args ts, Forall2 (prefix_arg_token p) args ts ->
  drains (it_start (KPrefix p) args) ts.
Proof.
  induction 1 as [|a t args ts S F IH].
  - eapply drains_end. reflexivity.
  - apply pre_drains_cons; assumption.
Qed.

Lemma prefix_tokens_proof : forall p args toks, p <> "="%char ->
  (drains (it_start (KPrefix p) args) toks <->
   Forall2 (prefix_arg_token p) args toks).
Proof.
  intros p args toks Hp. split.
  - intros D.
    destruct (Forall2_total (prefix_arg_token p)
                (fun a => prefix_arg_token_total p a Hp) args) as (ts & F).
    rewrite (drains_fun _ _ D _ (pre_drains_all _ _ _ F)). exact F.
  - apply pre_drains_all.
Qed.

Lemma prefix_drains_total : forall p args, p <> "="%char ->
  exists toks, drains (it_start (KPrefix p) args) toks.
Proof.
  intros p args Hp.
  destruct (Forall2_total (prefix_arg_token p)
              (fun a => prefix_arg_token_total p a Hp) args) as (ts & F).
  exists ts. apply pre_drains_all. exact F.
Qed.

(** ** Remaining arguments and insertion *)

(** Two tokenizer states that cannot be told apart by asking for tokens. *)
Definition same_tokens (it1 it2 : opt_iter) : Prop :=
  forall ts, drains it1 ts <-> drains it2 ts.

Lemma same_next_same_tokens : forall it1 it2,
  it_next it1 = it_next it2 -> same_tokens it1 it2.
Proof.
  intros it1 it2 E ts. split; apply drains_same_next; congruence.
Qed.

Lemma drains_start_total : forall k args, (k = KStandard \/ exists p, k = KPrefix p /\ p <> "="%char) ->
  exists ts, drains (it_start k args) ts.
Proof.
  intros k args [->|(p & -> & H)].
  - apply std_drains_total.
  - apply prefix_drains_total. exact H.
Qed.

Lemma std_tokens_group_tail : forall s r ts,
  s <> [] ->
  hd_error s <> Some c_dash ->
  drains (it_start KStandard ((c_dash :: s) :: r)) ts ->
  exists ts', drains (it_start KStandard r) ts' /\
    ts = map (fun f => [c_dash; f]) s ++ ts'.
Proof.
  intros s r ts NE H D.
  destruct (std_drains_total r) as (ts' & D').
  exists ts'. split; [exact D'|].
  eapply drains_fun; [exact D|]. apply std_drains_cons; [|exact D'].
  destruct s as [|c s]; [congruence|]. apply sat_group.
  intros ->. apply H. reflexivity.
Qed.

Definition ok_kind (k : iter_kind) : Prop :=
  k = KStandard \/ exists p, k = KPrefix p /\ p <> "="%char.

Lemma drains_first_std : forall a r k ts,
  it_next (mk_iter KStandard (a :: r) k) = std_first r ->
  (drains (mk_iter KStandard (a :: r) k) ts <-> drains (it_start KStandard r) ts).
Proof.
  intros a r k ts H. apply same_next_same_tokens. rewrite H. reflexivity.
Qed.

Lemma std_group_same : forall a r k,
  1 <= k -> k < length a -> nth_error a 1 <> Some c_dash ->
  (nth_error a k = Some c_dash -> skipn k a = [c_dash]) ->
  same_tokens (mk_iter KStandard (a :: r) (At k))
    (it_start KStandard ((c_dash :: skipn k a) :: r)).
Proof.
  intros a r k K1 K2 H1 Hd ts.
  destruct (std_drains_total r) as (ts0 & D0).
  assert (A : drains (mk_iter KStandard (a :: r) (At k))
                (map (fun f => [c_dash; f]) (skipn k a) ++ ts0)).
  { apply (drains_group a r ts0 (length a - k)); auto; lia. }
  assert (B : drains (it_start KStandard ((c_dash :: skipn k a) :: r))
                (map (fun f => [c_dash; f]) (skipn k a) ++ ts0)).
  { apply std_drains_cons; [|exact D0].
    destruct (nth_error a k) as [c|] eqn:Ek.
    2:{ apply nth_error_None in Ek. lia. }
    destruct (Ascii.eqb_spec c c_dash) as [->|N].
    - rewrite (Hd eq_refl). apply sat_short. simpl. lia.
    - rewrite (nth_error_skipn_cons _ _ _ Ek). apply sat_group. exact N. }
  split; intros D.
  - rewrite (drains_fun _ _ D _ A). exact B.
  - rewrite (drains_fun _ _ D _ B). exact A.
Qed.

Lemma remaining_is_unread_wf : forall it r it1,
  wf_iter it -> it_remaining it = Ok (r, it1) ->
  (forall it2, it_next it = Ok (Some ($"--"), it2) -> it_kind it = KStandard ->
     hd_error r = Some ($"--")) ->
  same_tokens it (it_start (it_kind it) r).
Proof.
  intros [k args p] r it1 W E Hdash. destruct k as [|pr].
  - unfold it_remaining in E. cbn [it_kind] in *. unfold std_remaining in E.
    unfold split_concatenated_flags in E. cbn [it_pos it_args it_kind] in E.
    destruct p as [[|n]|]; cbn [pos_nonzero] in E.
    + unfold remaining_tail in E. simpl in E. inv E. intros ts. reflexivity.
    + destruct W as (a & rest & Ea & L). simpl in Ea, L. subst args.
      destruct (Nat.leb_spec (length a) (S n)) as [Hl|Hl].
      { unfold remaining_tail in E. simpl in E. inv E.
        intros ts. apply drains_first_std. unfold it_next, std_next.
        cbn [it_pos it_args it_kind pos_nonzero].
        destruct (Nat.ltb_spec (S n) (length a)); [lia|reflexivity]. }
      destruct (nth_error a 1) as [c1|] eqn:E1; [|discriminate].
      destruct (Ascii.eqb_spec c1 c_dash) as [->|N1].
      { unfold remaining_tail in E. simpl in E. inv E.
        intros ts. apply drains_first_std. unfold it_next, std_next.
        cbn [it_pos it_args it_kind pos_nonzero].
        destruct (Nat.ltb_spec (S n) (length a)); [|lia].
        rewrite E1. destruct (nth_error a (S n)) eqn:En; [reflexivity|].
        apply nth_error_None in En. lia. }
      unfold remaining_tail in E. cbn [it_pos it_args pos_nonzero subspan1] in E. inv E.
      apply std_group_same; auto; try lia; [congruence|].
      intros En.
      assert (H : hd_error ((c_dash :: skipn (S n) a) :: rest) = Some ($"--")).
      { eapply Hdash; [|reflexivity]. unfold it_next, std_next.
        cbn [it_pos it_args it_kind pos_nonzero].
        destruct (Nat.ltb_spec (S n) (length a)); [|lia].
        rewrite E1, En. apply Ascii.eqb_neq in N1. rewrite N1. cbn [negb]. reflexivity. }
      simpl hd_error in H. injection H as H. exact H.
    + unfold wf_iter in W. simpl in W. destruct args as [|a rest]; [congruence|].
      unfold remaining_tail in E. simpl in E. inv E.
      intros ts. apply drains_first_std. reflexivity.
  - unfold it_remaining in E. cbn [it_kind] in *. unfold remaining_tail in E.
    cbn [it_pos it_args it_kind] in E.
    destruct p as [[|n]|]; cbn [pos_nonzero] in E.
    + inv E. intros ts. reflexivity.
    + destruct args as [|a rest]; [discriminate|]. simpl in E. inv E.
      apply same_next_same_tokens. reflexivity.
    + destruct args as [|a rest]; [discriminate|]. simpl in E. inv E.
      apply same_next_same_tokens. reflexivity.
Qed.

Lemma insert_next_wf : forall it new it' r it1,
  wf_iter it -> it_insert it new = Ok it' -> it_remaining it = Ok (r, it1) ->
  same_tokens it' (it_start (it_kind it) (new ++ r)) /\
  it_remaining it' = Ok (new ++ r, it').
Proof.
  intros [k args p] new it' r it1 W I E. destruct k as [|pr].
  - unfold it_remaining in E. unfold it_insert in I. cbn [it_kind] in *.
    unfold std_remaining in E. unfold std_insert in I.
    unfold split_concatenated_flags in *. cbn [it_pos it_args it_kind] in *.
    destruct p as [[|n]|]; cbn [pos_nonzero] in *.
    + unfold remaining_tail in E. unfold insert_tail in I. simpl in E, I. inv E. inv I.
      split; [intros ts; reflexivity|reflexivity].
    + destruct W as (a & rest & Ea & L). simpl in Ea, L. subst args.
      destruct (Nat.leb_spec (length a) (S n)) as [Hl|Hl].
      { unfold remaining_tail in E. unfold insert_tail in I. simpl in E, I. inv E. inv I.
        split.
        - intros ts. apply drains_first_std. unfold it_next, std_next.
          cbn [it_pos it_args it_kind pos_nonzero].
          destruct (Nat.ltb_spec (S n) (length a)); [lia|reflexivity].
        - unfold it_remaining, std_remaining, split_concatenated_flags.
          cbn [it_pos it_args it_kind pos_nonzero].
          destruct (Nat.leb_spec (length a) (S n)); [|lia]. reflexivity. }
      destruct (nth_error a 1) as [c1|] eqn:E1; [|discriminate].
      destruct (Ascii.eqb_spec c1 c_dash) as [->|N1].
      { unfold remaining_tail in E. unfold insert_tail in I. simpl in E, I. inv E. inv I.
        split.
        - intros ts. apply drains_first_std. unfold it_next, std_next.
          cbn [it_pos it_args it_kind pos_nonzero].
          destruct (Nat.ltb_spec (S n) (length a)); [|lia].
          rewrite E1. destruct (nth_error a (S n)) eqn:En; [reflexivity|].
          apply nth_error_None in En. lia.
        - unfold it_remaining, std_remaining, split_concatenated_flags.
          cbn [it_pos it_args it_kind pos_nonzero].
          destruct (Nat.leb_spec (length a) (S n)); [lia|]. rewrite E1. reflexivity. }
      unfold remaining_tail in E. unfold insert_tail in I.
      assert (Lf : length (firstn (S n) a) = S n) by (rewrite firstn_length; lia).
      remember (firstn (S n) a) as fa. remember (skipn (S n) a) as sa.
      cbn [it_pos it_args it_kind pos_nonzero subspan1] in E, I.
      injection E as <- <-. injection I as <-.
      split.
      * intros ts. apply drains_first_std. unfold it_next, std_next.
        cbn [it_pos it_args it_kind pos_nonzero]. rewrite Lf.
        rewrite Nat.ltb_irrefl. reflexivity.
      * unfold it_remaining, std_remaining, split_concatenated_flags.
        cbn [it_pos it_args it_kind pos_nonzero]. rewrite Lf.
        rewrite Nat.leb_refl. reflexivity.
    + unfold wf_iter in W. simpl in W. destruct args as [|a rest]; [congruence|].
      unfold remaining_tail in E. unfold insert_tail in I. simpl in E, I. inv E. inv I.
      split; [|reflexivity]. intros ts. apply drains_first_std. reflexivity.
  - unfold it_remaining in E. unfold it_insert in I. cbn [it_kind] in *.
    unfold remaining_tail in E. unfold insert_tail in I.
    cbn [it_pos it_args it_kind] in *.
    destruct p as [[|n]|]; cbn [pos_nonzero] in *.
    + inv E. inv I. split; [intros ts; reflexivity|reflexivity].
    + destruct args as [|a rest]; [discriminate|]. simpl in E. inv E. inv I.
      split; [|reflexivity]. apply same_next_same_tokens. reflexivity.
    + destruct args as [|a rest]; [discriminate|]. simpl in E. inv E. inv I.
      split; [|reflexivity]. apply same_next_same_tokens. reflexivity.
Qed.

(** ** Values *)

Lemma value_drains_npos : forall r a, value_drains (mk_iter KStandard (a :: r) Npos) r.
Proof.
  induction r as [|b r IH]; intros a.
  - eapply vdrains_end. reflexivity.
  - eapply vdrains_value; [reflexivity|]. apply IH.
Qed.

Lemma value_drains_start : forall args, value_drains (it_start KStandard args) args.
Proof.
  intros [|a r].
  - eapply vdrains_end. reflexivity.
  - eapply vdrains_value; [reflexivity|]. apply value_drains_npos.
Qed.

Lemma std_remaining_npos : forall a r,
  it_remaining (mk_iter KStandard (a :: r) Npos) = Ok (r, mk_iter KStandard (a :: r) Npos).
Proof. reflexivity. Qed.

Lemma firstn_all_length : forall {A} (l : list A) n, firstn n l = l -> length l <= n.
Proof.
  intros A l n H. rewrite <- H. apply firstn_le_length.
Qed.

(** After a token that is a whole argument the iterator is at the end of it. *)
Lemma std_first_whole : forall args t it,
  std_first args = Ok (Some t, it) -> it_current it = Some t ->
  last_char t <> Some c_eq -> exists r, it = mk_iter KStandard (t :: r) Npos.
Proof.
  intros [|a r] t it E C L; simpl in E; [discriminate|].
  destruct (length a <=? 2) eqn:L2.
  { inv E. eauto. }
  apply Nat.leb_gt in L2. destruct a as [|c0 [|c1 a]]; simpl in L2; try lia.
  destruct (Ascii.eqb c0 c_dash); cbn [negb] in E; [|inv E; eauto].
  destruct (Ascii.eqb c1 c_dash); cbn [negb] in E.
  - destruct (find_char c_eq (c0 :: c1 :: a)) as [p|] eqn:F; [|inv E; eauto].
    remember (c0 :: c1 :: a) as w. injection E as <- <-.
    unfold it_current in C. cbn [it_args hd_error] in C. injection C as C.
    rewrite <- C in L. assert (X : length w <= S p).
    { apply firstn_all_length. symmetry. rewrite Heqw at 2. exact C. }
    apply find_char_some in F. destruct F as (F & _ & Lp).
    exfalso. apply L. rewrite F.
    rewrite (skipn_all2 w X). apply last_char_app.
  - inv E. unfold it_current in C. simpl in C. inv C. simpl in L2. lia.
Qed.

Lemma std_next_whole : forall it0 t it, wf_iter it0 -> it_kind it0 = KStandard ->
  it_next it0 = Ok (Some t, it) -> it_current it = Some t ->
  last_char t <> Some c_eq -> exists r, it = mk_iter KStandard (t :: r) Npos.
Proof.
  intros [k args p] t it W K E C L. simpl in K. subst k.
  unfold it_next, std_next in E. cbn [it_pos it_args it_kind] in E.
  destruct p as [[|n]|]; cbn [pos_nonzero] in E.
  - eapply std_first_whole; eassumption.
  - destruct args as [|a r]; [discriminate|].
    destruct (S n <? length a) eqn:Hl; [|eapply std_first_whole; eassumption].
    destruct (nth_error a 1) as [c1|] eqn:E1; [|discriminate].
    destruct (nth_error a (S n)) as [c|] eqn:E2; [|discriminate].
    destruct (negb (Ascii.eqb c1 c_dash)); [|eapply std_first_whole; eassumption].
    inv E. unfold it_current in C. cbn [it_args hd_error] in C. injection C as ->.
    apply Nat.ltb_lt in Hl. cbn [length] in *.
    assert (n = 0) by lia. subst n. eexists. reflexivity.
  - destruct args as [|a r]; [discriminate|]. eapply std_first_whole; eassumption.
Qed.

Lemma next_values_verbatim_proof : forall it0 it t r it1,
  wf_iter it0 -> it_kind it0 = KStandard ->
  it_next it0 = Ok (Some t, it) -> it_current it = Some t ->
  last_char t <> Some c_eq -> it_remaining it = Ok (r, it1) ->
  value_drains it r.
Proof.
  intros it0 it t r it1 W K E C L R.
  destruct (std_next_whole _ _ _ W K E C L) as (r' & ->).
  rewrite std_remaining_npos in R. inv R. apply value_drains_npos.
Qed.

Lemma std_next_value_npos : forall it0 it v, it_kind it0 = KStandard ->
  it_next_value it0 = Ok (Some v, it) -> exists a r, it = mk_iter KStandard (a :: r) Npos.
Proof.
  intros [k args p] it v K E. simpl in K. subst k.
  unfold it_next_value, std_next_value in E. cbn [it_pos it_args it_kind] in E.
  destruct args as [|a r]; [discriminate|].
  destruct p as [n|].
  - destruct (n <=? length a); inv E. eauto.
  - destruct r as [|b r]; inv E. eauto.
Qed.

Lemma values_after_value_proof : forall it0 it v r it1,
  it_kind it0 = KStandard ->
  it_next_value it0 = Ok (Some v, it) -> it_remaining it = Ok (r, it1) ->
  value_drains it r.
Proof.
  intros it0 it v r it1 K E R.
  destruct (std_next_value_npos _ _ _ K E) as (a & r' & ->).
  rewrite std_remaining_npos in R. inv R. apply value_drains_npos.
Qed.

(** ** The remaining arguments are the end of the command line *)

Definition reads_only (op : tok_op) : Prop :=
  op = TNext \/ op = TNextValue \/ op = TCopy.

Lemma std_first_suffix : forall args t it, std_first args = Ok (t, it) ->
  suffix_of (it_args it) args.
Proof.
  intros [|a r] t it E; cbn [std_first pre_first] in E.
  - inv E. exists []. reflexivity.
  - exists []. cbn [app]. destruct (length a <=? 2); [inv E; reflexivity|].
    destruct (nth_error a 0), (nth_error a 1); try discriminate.
    destruct (negb (Ascii.eqb a0 c_dash)); [inv E; reflexivity|].
    destruct (negb (Ascii.eqb a1 c_dash)); [inv E; reflexivity|].
    destruct (find_char c_eq a); inv E; reflexivity.
Qed.

Lemma pre_first_suffix : forall p args t it, pre_first p args = Ok (t, it) ->
  suffix_of (it_args it) args.
Proof.
  intros p [|a r] t it E; cbn [std_first pre_first] in E.
  - inv E. exists []. reflexivity.
  - exists []. cbn [app]. destruct (length a <=? 2); [inv E; reflexivity|].
    destruct (nth_error a 0); try discriminate.
    destruct (negb (Ascii.eqb a0 p)); [inv E; reflexivity|].
    destruct (find_char c_eq a); inv E; reflexivity.
Qed.

Lemma suffix_refl : forall {A} (l : list A), suffix_of l l.
Proof. intros. exists []. reflexivity. Qed.

Lemma suffix_cons : forall {A} (s l : list A) a, suffix_of s l -> suffix_of s (a :: l).
Proof. intros A s l a (p & ->). exists (a :: p). reflexivity. Qed.

Lemma suffix_trans : forall {A} (a b c : list A), suffix_of a b -> suffix_of b c -> suffix_of a c.
Proof. intros A a b c (p & ->) (q & ->). exists (q ++ p). apply app_assoc. Qed.

Lemma next_suffix : forall it t it', it_next it = Ok (t, it') ->
  suffix_of (it_args it') (it_args it).
Proof.
  intros [k args p] t it' E. unfold it_next in E. cbn [it_kind it_args] in *.
  destruct k as [|pr].
  - unfold std_next in E. cbn [it_args it_pos] in E.
    destruct (pos_nonzero p); [|eapply std_first_suffix; eassumption].
    destruct args as [|a r]; [discriminate|].
    destruct p as [n|].
    + destruct (n <? length a).
      * destruct (nth_error a 1); [|discriminate]. destruct (nth_error a n); [|discriminate].
        destruct (negb (Ascii.eqb a0 c_dash)).
        -- inv E. apply suffix_refl.
        -- apply suffix_cons. eapply std_first_suffix; eassumption.
      * apply suffix_cons. eapply std_first_suffix; eassumption.
    + apply suffix_cons. eapply std_first_suffix; eassumption.
  - unfold pre_next in E. cbn [it_args it_pos] in E.
    destruct (pos_nonzero p); [|eapply pre_first_suffix; eassumption].
    destruct args as [|a r]; [discriminate|].
    apply suffix_cons. eapply pre_first_suffix; eassumption.
Qed.

Lemma next_value_suffix : forall it t it', it_next_value it = Ok (t, it') ->
  suffix_of (it_args it') (it_args it).
Proof.
  intros [k args p] t it' E. unfold it_next_value in E. cbn [it_kind it_args] in *.
  destruct k as [|pr].
  - unfold std_next_value in E. cbn [it_args it_pos] in E.
    destruct args as [|a r]; [inv E; apply suffix_refl|].
    destruct p as [n|].
    + destruct (n <=? length a); inv E. apply suffix_refl.
    + destruct r; inv E; apply suffix_cons, suffix_refl.
  - unfold pre_next_value in E. cbn [it_args it_pos] in E.
    destruct args as [|a r]; [inv E; apply suffix_refl|].
    destruct p as [n|].
    + destruct (n <=? length a); inv E. apply suffix_refl.
    + destruct r; inv E; apply suffix_cons, suffix_refl.
Qed.

Lemma reads_suffix : forall ops it it', Forall reads_only ops ->
  tok_run ops it = Ok it' -> suffix_of (it_args it') (it_args it).
Proof.
  induction ops as [|op ops IH]; intros it it' F E; simpl in E.
  - inv E. apply suffix_refl.
  - inv F. destruct (tok_step op it) as [it1|] eqn:S; [|discriminate].
    eapply suffix_trans; [eapply IH; eassumption|].
    destruct H1 as [->|[->| ->]]; simpl in S.
    + destruct (it_next it) as [[t x]|] eqn:N; inv S. eapply next_suffix; eassumption.
    + destruct (it_next_value it) as [[t x]|] eqn:N; inv S. eapply next_value_suffix; eassumption.
    + inv S. apply suffix_refl.
Qed.

Lemma remaining_shape : forall it r it1, wf_iter it ->
  it_remaining it = Ok (r, it1) ->
  suffix_of r (it_args it) \/
  exists p s rest, it_args it = (p ++ s) :: rest /\ r = (c_dash :: s) :: rest /\
    p <> [] /\ s <> [] /\ nth_error (p ++ s) 1 <> Some c_dash /\ it_kind it = KStandard.
Proof.
  intros [k args p] r it1 W E. unfold it_remaining in E. cbn [it_kind it_args] in *.
  assert (T : forall it', remaining_tail it' = Ok (r, it1) -> it_args it' = args ->
            suffix_of r args).
  { intros it' E' A. unfold remaining_tail in E'. rewrite A in E'.
    destruct (pos_nonzero (it_pos it')).
    - destruct args; simpl in E'; inv E'. apply suffix_cons, suffix_refl.
    - inv E'. apply suffix_refl. }
  destruct k as [|pr]; [|left; apply (T _ E); reflexivity].
  unfold std_remaining, split_concatenated_flags in E.
  cbn [it_pos it_args it_kind] in E.
  destruct p as [[|n]|]; cbn [pos_nonzero] in E.
  - left. apply (T _ E). reflexivity.
  - destruct args as [|a rest]; [discriminate|].
    destruct (length a <=? S n) eqn:Hl; [left; apply (T _ E); reflexivity|].
    destruct (nth_error a 1) as [c1|] eqn:E1; [|discriminate].
    destruct (Ascii.eqb_spec c1 c_dash) as [->|N1]; [left; apply (T _ E); reflexivity|].
    unfold remaining_tail in E. cbn [it_pos it_args pos_nonzero subspan1] in E. inv E.
    right. apply Nat.leb_gt in Hl. exists (firstn (S n) a), (skipn (S n) a), rest.
    rewrite firstn_skipn. repeat split.
    + destruct a; simpl in Hl; [lia|discriminate].
    + intros X. pose proof (skipn_length (S n) a) as Y. rewrite X in Y. simpl in Y. lia.
    + congruence.
  - destruct args as [|a rest]; [discriminate|]. left. apply (T _ E). reflexivity.
Qed.

Lemma remaining_from_argv_proof : forall k args ops it r it1,
  Forall reads_only ops -> tok_run ops (it_start k args) = Ok it ->
  it_remaining it = Ok (r, it1) ->
  suffix_of r args \/
  exists read p s rest, args = read ++ (p ++ s) :: rest /\
    r = (c_dash :: s) :: rest /\ p <> [] /\ s <> [] /\
    nth_error (p ++ s) 1 <> Some c_dash /\ k = KStandard.
Proof.
  intros k args ops it r it1 F E R.
  pose proof (reads_suffix _ _ _ F E) as (read & S). simpl in S.
  destruct (tok_run_wf ops _ (start_wf k args)) as (it' & E' & W & K).
  rewrite E in E'. inv E'. simpl in K.
  destruct (remaining_shape _ _ _ W R) as [Sf|(p & s & rest & A & B & C & D & G & H)].
  - left. apply suffix_trans with (1 := Sf). exists read. reflexivity.
  - right. exists read, p, s, rest. rewrite A. repeat split; auto. congruence.
Qed.
