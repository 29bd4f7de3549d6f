(** Proofs for PValues.v. *)
From Coq Require Import Sorted Permutation.
From Verif Require Import Base MStrings MData MValues SValues BaseProofs StrProofs
  IndexProofs.

(* ------------------------------------------------------------------------ *)
(** ** The store *)

(** What the model does for a change. *)
Definition apply_change (vs : store) (c : change) : store :=
  match c with
  | Assigned i t b => assign_value vs i t b
  | Appended i t b => append_value vs i t b
  | Cleared i => clear_value vs i
  end.

Definition in_order (vs : store) : Prop :=
  StronglySorted (fun x y => (fst x <= fst y)%N) vs.

(** The values of an id, wherever they are. *)
Fixpoint pick (vs : store) (id : N) : list (str * N) :=
  match vs with
  | [] => []
  | (k, x) :: r => if (k =? id)%N then x :: pick r id else pick r id
  end.

Lemma pick_none : forall vs id, Forall (fun x => (id < fst x)%N) vs -> pick vs id = [].
Proof.
  induction vs as [|(k, x) r IH]; intros id H; [reflexivity|].
  inversion H as [|? ? Hk Hr]; subst. simpl in *.
  destruct (N.eqb_spec k id); [lia|auto].
Qed.

Lemma in_order_tail_gt : forall k x r id, in_order ((k, x) :: r) -> (id < k)%N ->
  Forall (fun y => (id < fst y)%N) ((k, x) :: r).
Proof.
  intros k x r id H L. inversion H as [|? ? _ F]; subst. constructor; [exact L|].
  eapply Forall_impl; [|exact F]. intros y Hy. simpl in *. lia.
Qed.

Lemma get_values_pick : forall vs id, in_order vs -> get_values vs id = pick vs id.
Proof.
  unfold get_values. induction vs as [|(k, x) r IH]; intros id H; [reflexivity|].
  simpl. destruct (N.ltb_spec k id).
  - destruct (N.eqb_spec k id); [lia|]. apply IH. inversion H; auto.
  - simpl. destruct (N.eqb_spec k id) as [->|Hn].
    + f_equal. rewrite <- IH by (inversion H; auto).
      destruct r as [|(k2, x2) r]; [reflexivity|].
      simpl. destruct (N.ltb_spec k2 id); [|reflexivity].
      inversion H as [|? ? _ F]; subst. inversion F; subst. simpl in *. lia.
    + symmetry. apply pick_none. inversion H as [|? ? _ F]; subst.
      eapply Forall_impl; [|exact F]. intros y Hy. simpl in *. lia.
Qed.

Lemma append_keys : forall vs id t b (P : N -> Prop), P id ->
  Forall (fun x => P (fst x)) vs -> Forall (fun x => P (fst x)) (append_value vs id t b).
Proof.
  induction vs as [|(k, x) r IH]; intros id t b P Hid H; simpl.
  - constructor; auto.
  - inversion H; subst. destruct (id <? k)%N; constructor; auto.
Qed.

Lemma append_in_order : forall vs id t b, in_order vs -> in_order (append_value vs id t b).
Proof.
  induction vs as [|(k, x) r IH]; intros id t b H; simpl.
  - repeat constructor.
  - destruct (N.ltb_spec id k).
    + constructor; [exact H|]. eapply Forall_impl; [|apply (in_order_tail_gt _ _ _ id H)]; auto.
      intros y Hy. simpl in *. lia.
    + inversion H; subst. constructor; [apply IH; assumption|].
      apply (append_keys _ _ _ _ (fun n => (k <= n)%N)); auto.
Qed.

Lemma append_pick : forall vs id t b i, in_order vs ->
  pick (append_value vs id t b) i =
  if (id =? i)%N then pick vs i ++ [(t, b)] else pick vs i.
Proof.
  induction vs as [|(k, x) r IH]; intros id t b i H; simpl.
  - destruct (id =? i)%N; reflexivity.
  - destruct (N.ltb_spec id k).
    + simpl. destruct (N.eqb_spec id i) as [->|Hn].
      * destruct (N.eqb_spec k i); [lia|].
        rewrite pick_none; [reflexivity|]. inversion H as [|? ? _ F]; subst.
        eapply Forall_impl; [|exact F]. intros y Hy. simpl in *. lia.
      * reflexivity.
    + simpl. rewrite IH by (inversion H; auto).
      destruct (k =? i)%N, (id =? i)%N; reflexivity.
Qed.

Lemma erase_filter : forall vs id, in_order vs -> Forall (fun x => (id <= fst x)%N) vs ->
  erase_leading vs id = clear_value vs id.
Proof.
  induction vs as [|(k, x) r IH]; intros id H L; [reflexivity|]. unfold clear_value. simpl.
  inversion H as [|? ? S F]; subst. inversion L as [|? ? Lk Lr]; subst. simpl in *.
  destruct (N.eqb_spec k id) as [->|Hn]; simpl.
  - apply IH; assumption.
  - f_equal. symmetry.
    assert (G : forall y, In y r -> negb (fst y =? id)%N = true).
    { intros y Hy. rewrite Forall_forall in F. specialize (F y Hy). simpl in F.
      destruct (N.eqb_spec (fst y) id); [lia|reflexivity]. }
    clear - G. induction r as [|y r IH]; [reflexivity|]. simpl.
    rewrite (G y) by (left; reflexivity). f_equal. apply IH. intros z Hz. apply G. right. exact Hz.
Qed.

Lemma clear_in_order : forall vs id, in_order vs -> in_order (clear_value vs id).
Proof.
  unfold clear_value. induction vs as [|(k, x) r IH]; intros id H; [constructor|].
  simpl. inversion H as [|? ? S F]; subst. destruct (negb (k =? id)%N); [|apply IH; exact S].
  constructor; [apply IH; exact S|]. rewrite Forall_forall in *. intros y Hy. apply filter_In in Hy.
  apply F. tauto.
Qed.

Lemma clear_pick : forall vs id i,
  pick (clear_value vs id) i = if (id =? i)%N then [] else pick vs i.
Proof.
  unfold clear_value. induction vs as [|(k, x) r IH]; intros id i; simpl.
  - destruct (id =? i)%N; reflexivity.
  - destruct (N.eqb_spec k id) as [->|Hn]; simpl.
    + rewrite IH. destruct (N.eqb_spec id i); reflexivity.
    + rewrite IH. destruct (N.eqb_spec k i), (N.eqb_spec id i); try reflexivity. congruence.
Qed.

(** Assigning is clearing and appending. *)
Lemma assign_clear_append : forall vs id t b, in_order vs ->
  assign_value vs id t b = append_value (clear_value vs id) id t b.
Proof.
  induction vs as [|(k, x) r IH]; intros id t b H; [reflexivity|].
  inversion H as [|? ? S F]; subst. simpl assign_value.
  destruct (N.ltb_spec k id).
  - unfold clear_value. simpl. destruct (N.eqb_spec k id); [lia|]. simpl.
    destruct (N.ltb_spec id k); [lia|]. f_equal. apply IH. exact S.
  - destruct (N.eqb_spec k id) as [->|Hn].
    + unfold clear_value. simpl. rewrite N.eqb_refl. simpl.
      rewrite erase_filter by assumption. fold (clear_value r id).
      assert (G : Forall (fun y => (id < fst y)%N) (clear_value r id)).
      { rewrite Forall_forall in *. intros y Hy. unfold clear_value in Hy.
        apply filter_In in Hy. destruct Hy as (Hy & Hn). specialize (F y Hy). simpl in F.
        destruct (N.eqb_spec (fst y) id); [discriminate|lia]. }
      destruct (clear_value r id) as [|(k2, x2) r2]; [reflexivity|]. simpl.
      inversion G; subst. simpl in *. destruct (N.ltb_spec id k2); [reflexivity|lia].
    + f_equal. rewrite <- erase_filter; auto.
      * simpl. destruct (N.eqb_spec k id); [congruence|reflexivity].
      * constructor; simpl; [lia|]. eapply Forall_impl; [|exact F]. intros y Hy.
        simpl in *. lia.
Qed.

Lemma assign_in_order : forall vs id t b, in_order vs -> in_order (assign_value vs id t b).
Proof.
  intros. rewrite assign_clear_append by assumption.
  apply append_in_order, clear_in_order. assumption.
Qed.

Lemma assign_pick : forall vs id t b i, in_order vs ->
  pick (assign_value vs id t b) i = if (id =? i)%N then [(t, b)] else pick vs i.
Proof.
  intros. rewrite assign_clear_append, append_pick, clear_pick
    by (try apply clear_in_order; assumption).
  destruct (id =? i)%N; reflexivity.
Qed.

Lemma apply_change_in_order : forall vs c, in_order vs -> in_order (apply_change vs c).
Proof.
  intros vs [i t b|i t b|i] H; simpl;
    auto using assign_in_order, append_in_order, clear_in_order.
Qed.

Lemma apply_change_pick : forall vs c id, in_order vs ->
  pick (apply_change vs c) id = effect id (pick vs id) c.
Proof.
  intros vs [i t b|i t b|i] id H; simpl;
    auto using assign_pick, append_pick, clear_pick.
Qed.

Lemma changes_in_order : forall cs vs, in_order vs -> in_order (fold_left apply_change cs vs).
Proof.
  induction cs as [|c cs IH]; intros vs H; simpl; [exact H|].
  apply IH, apply_change_in_order, H.
Qed.

Lemma changes_pick : forall cs vs id, in_order vs ->
  pick (fold_left apply_change cs vs) id = fold_left (effect id) cs (pick vs id).
Proof.
  induction cs as [|c cs IH]; intros vs id H; simpl; [reflexivity|].
  rewrite IH by (apply apply_change_in_order, H).
  rewrite apply_change_pick by exact H. reflexivity.
Qed.

Lemma history_proof : forall cs id,
  get_values (fold_left apply_change cs []) id = history cs id.
Proof.
  intros cs id. assert (O : in_order []) by constructor.
  rewrite get_values_pick by (apply changes_in_order, O).
  rewrite changes_pick by exact O. reflexivity.
Qed.

Lemma frame_proof : forall cs c id,
  match c with Assigned i _ _ | Appended i _ _ | Cleared i => i <> id end ->
  get_values (fold_left apply_change (cs ++ [c]) []) id =
  get_values (fold_left apply_change cs []) id.
Proof.
  intros cs c id H. rewrite !history_proof. unfold history. rewrite fold_left_app. simpl.
  destruct c as [i t b|i t b|i]; simpl; destruct (N.eqb_spec i id); congruence.
Qed.

Lemma has_pick : forall vs id, has_value vs id = negb (is_empty (pick vs id)).
Proof.
  unfold has_value. induction vs as [|(k, x) r IH]; intros id; [reflexivity|]. simpl.
  rewrite IH. destruct (k =? id)%N; reflexivity.
Qed.

Lemma get_value_pick : forall vs id, in_order vs ->
  get_value vs id = match pick vs id with
                    | [] => Val None
                    | [x] => Val (Some x)
                    | _ => Exn EMultipleValues
                    end.
Proof.
  intros vs id H. rewrite <- get_values_pick by exact H. unfold get_value, get_values.
  destruct (from_lower_bound vs id) as [|(k, x) r]; [reflexivity|]. simpl.
  destruct (k =? id)%N; [|reflexivity]. simpl.
  destruct r as [|(k2, x2) r]; [reflexivity|]. simpl. destruct (k2 =? id)%N; reflexivity.
Qed.

Lemma get_values_in : forall vs id x, in_order vs ->
  (In x (get_values vs id) <-> In (id, x) vs).
Proof.
  intros vs id x H. rewrite get_values_pick by exact H. clear H.
  induction vs as [|(k, y) r IH]; simpl; [tauto|].
  destruct (N.eqb_spec k id) as [->|Hn]; simpl; rewrite IH.
  - split; (intros [E|E]; [left; congruence|right; exact E]).
  - split; [tauto|]. intros [E|E]; [congruence|exact E].
Qed.

(* ------------------------------------------------------------------------ *)
(** ** Names *)

Lemma in_id_entries : forall c n v,
  (exists a, In (n, v, a) (id_entries c)) <-> carries c n v.
Proof.
  intros c n v. unfold id_entries. split.
  - intros (a & H). apply in_app_or in H. destruct H as [H|H]; apply in_flat_map in H.
    + destruct H as (x & Hx & H). simpl in H. destruct H as [H|H].
      * injection H as <- <- <-. eapply carries_argument; eauto.
      * destruct (is_empty (a_alias x)) eqn:E; simpl in H; [contradiction|].
        destruct H as [H|[]]. injection H as <- <- <-.
        eapply carries_argument; eauto. right. split; [apply is_empty_false; exact E|reflexivity].
    + destruct H as (x & Hx & H).
      assert (Hop : o_operation x <> OP_NONE) by (intros E; rewrite E in H; exact H).
      assert (H' : In (n, v, a) (map (fun f => (f, o_value_id x, o_argument_id x)) (o_flags x)
        ++ (if negb (is_empty (o_alias x))
            then [(o_alias x, o_value_id x, o_argument_id x)] else [])))
        by (destruct (o_operation x); try exact H; congruence).
      apply in_app_or in H'. destruct H' as [H'|H'].
      * apply in_map_iff in H'. destruct H' as (f & E & Hf). injection E as <- <- <-.
        eapply carries_option; eauto.
      * destruct (is_empty (o_alias x)) eqn:E; simpl in H'; [contradiction|].
        destruct H' as [H'|[]]. injection H' as <- <- <-.
        eapply carries_option; eauto. right. split; [apply is_empty_false; exact E|reflexivity].
  - intros [a Ha Hv Hn|o Ho Hv Hop Hn].
    + exists (a_argument_id a). apply in_or_app. left. apply in_flat_map. exists a.
      split; [exact Ha|]. subst v. destruct Hn as [->|(Hn & ->)]; [left; reflexivity|].
      right. apply is_empty_false in Hn. rewrite Hn. left. reflexivity.
    + exists (o_argument_id o). apply in_or_app. right. apply in_flat_map. exists o.
      split; [exact Ho|]. subst v.
      assert (H : In (n, o_value_id o, o_argument_id o)
        (map (fun f => (f, o_value_id o, o_argument_id o)) (o_flags o)
        ++ (if negb (is_empty (o_alias o))
            then [(o_alias o, o_value_id o, o_argument_id o)] else []))).
      { apply in_or_app. destruct Hn as [Hn|(Hn & ->)].
        - left. apply in_map_iff. exists n. auto.
        - right. apply is_empty_false in Hn. rewrite Hn. left. reflexivity. }
      destruct (o_operation o); auto; congruence.
Qed.

(** The order of the entries that matters for lookup: name, then value id. *)
Definition nv_le (x y : id_entry) : Prop :=
  str_ltb (fst (fst y)) (fst (fst x)) = false /\
  (fst (fst x) = fst (fst y) -> (snd (fst x) <= snd (fst y))%N).

Lemma nv_le_trans : forall x y z, nv_le x y -> nv_le y z -> nv_le x z.
Proof.
  intros ((n1, v1), a1) ((n2, v2), a2) ((n3, v3), a3) (H1 & H2) (H3 & H4).
  unfold nv_le. simpl in *. split.
  - apply (str_le_trans n1 n2 n3); assumption.
  - intros ->. assert (n3 = n2) as -> by (apply str_ltb_total; assumption).
    specialize (H2 eq_refl). specialize (H4 eq_refl). lia.
Qed.

Lemma entry_le_nv : forall x y, id_entry_ltb y x = false -> nv_le x y.
Proof.
  intros ((n1, v1), a1) ((n2, v2), a2) H. unfold nv_le. simpl in *.
  destruct (str_ltb n2 n1) eqn:E1; [discriminate|]. split; [reflexivity|].
  intros ->. rewrite E1 in H. destruct (N.ltb_spec v2 v1); [discriminate|lia].
Qed.

Lemma entry_ltb_lex : forall x y, id_entry_ltb x y = true <->
  (str_ltb (fst (fst x)) (fst (fst y)) = true \/
   fst (fst x) = fst (fst y) /\ ((snd (fst x) < snd (fst y))%N \/
     snd (fst x) = snd (fst y) /\ (snd x < snd y)%N)).
Proof.
  intros ((n1, v1), a1) ((n2, v2), a2). simpl.
  destruct (str_ltb n1 n2) eqn:E1; [tauto|].
  destruct (str_ltb n2 n1) eqn:E2.
  - split; [discriminate|]. intros [H|(-> & H)]; [discriminate|].
    rewrite str_ltb_irrefl in E2. discriminate.
  - assert (n1 = n2) as -> by (apply str_ltb_total; assumption).
    destruct (N.ltb_spec v1 v2); [split; auto; right; auto|].
    destruct (N.ltb_spec v2 v1).
    + split; [discriminate|]. intros [H1|(_ & [H1|(H1 & H2)])]; [discriminate|lia|lia].
    + rewrite N.ltb_lt. split; [right; split; [reflexivity|right; lia]|].
      intros [H1|(_ & [H1|(H1 & H2)])]; [discriminate|lia|lia].
Qed.

Lemma sorted_entries : forall l, StronglySorted nv_le (sort_by id_entry_ltb l).
Proof.
  intros l.
  assert (S : StronglySorted (fun a b => id_entry_ltb b a = false) (sort_by id_entry_ltb l)).
  { apply (sort_by_sorted id_entry_ltb (fun _ => True)).
    - intros x y z _ _ _ H1 H2.
      destruct (id_entry_ltb z x) eqn:E; [|reflexivity].
      assert (T : forall a b, id_entry_ltb a b = false -> a = b \/ id_entry_ltb b a = true).
      { clear. intros ((n1, v1), a1) ((n2, v2), a2) H. rewrite entry_ltb_lex. simpl in *.
        destruct (str_ltb n1 n2) eqn:E1; [discriminate|].
        destruct (str_ltb n2 n1) eqn:E2; [tauto|].
        assert (n1 = n2) as -> by (apply str_ltb_total; assumption).
        destruct (N.ltb_spec v1 v2); [discriminate|].
        destruct (N.ltb_spec v2 v1); [tauto|]. apply N.ltb_ge in H.
        assert (v1 = v2) as -> by lia.
        destruct (N.eq_dec a1 a2) as [->|]; [tauto|]. right. right. split; [reflexivity|].
        right. split; [reflexivity|lia]. }
      destruct (T _ _ H1) as [->|T1]; [congruence|].
      destruct (T _ _ H2) as [->|T2]; [congruence|].
      rewrite entry_ltb_lex in *.
      destruct x as ((n1, v1), a1), y as ((n2, v2), a2), z as ((n3, v3), a3). simpl in *.
      clear T H1 H2. exfalso.
      destruct E as [E|(E & E')], T1 as [T1|(T1 & T1')], T2 as [T2|(T2 & T2')]; subst;
        try (rewrite str_ltb_irrefl in *; discriminate); try lia.
      all: repeat match goal with
        | A : str_ltb ?a ?b = true, B : str_ltb ?b ?a = true |- _ =>
            rewrite (str_ltb_asym _ _ A) in B; discriminate
        end.
      pose proof (str_ltb_trans _ _ _ T1 T2) as T3.
      rewrite (str_ltb_asym _ _ E) in T3. discriminate.
    - intros x y _ _ H. destruct (id_entry_ltb y x) eqn:E; [|reflexivity].
      rewrite entry_ltb_lex in *.
      destruct x as ((n1, v1), a1), y as ((n2, v2), a2). simpl in *.
      destruct E as [E|(E & E')], H as [H|(H & H')]; subst;
        try (rewrite str_ltb_irrefl in *; discriminate); try lia.
      rewrite (str_ltb_asym _ _ E) in H. discriminate.
    - apply Forall_forall. auto. }
  induction S as [|x l0 S IH F]; constructor; [exact IH|].
  eapply Forall_impl; [|exact F]. intros y Hy. apply entry_le_nv. exact Hy.
Qed.

(** The names and value ids, which [zero_shared] keeps. *)
Definition nv (e : id_entry) : str * N := fst e.

Lemma zero_shared_nv : forall l p, map nv (zero_shared p l) = map nv (p :: l).
Proof.
  induction l as [|e r IH]; intros p; [reflexivity|]. simpl.
  destruct p as ((n1, v1), a1), e as ((n2, v2), a2).
  destruct (str_eqb n2 n1 && negb (a2 =? a1)%N); simpl; rewrite IH; reflexivity.
Qed.

Lemma unique_in : forall l e, In e (unique_entries l) <-> In e l.
Proof.
  induction l as [|x r IH]; intros e; [reflexivity|]. simpl.
  destruct (unique_entries r) as [|y r'] eqn:E.
  - specialize (IH e). simpl in *. tauto.
  - destruct (id_entry_eqb x y) eqn:X.
    + assert (x = y) as <-.
      { destruct x as ((n1, v1), a1), y as ((n2, v2), a2). simpl in X.
        apply andb_prop in X. destruct X as (X & Xa). apply andb_prop in X.
        destruct X as (Xn & Xv). apply str_eqb_eq in Xn. apply N.eqb_eq in Xa, Xv. congruence. }
      rewrite <- IH. simpl. tauto.
    + simpl in IH. rewrite <- IH. simpl. tauto.
Qed.

Lemma unique_sorted : forall (R : id_entry -> id_entry -> Prop) l,
  StronglySorted R l -> StronglySorted R (unique_entries l).
Proof.
  intros R l H. induction H as [|x l S IH F]; [constructor|]. simpl.
  destruct (unique_entries l) as [|y r'] eqn:E; [repeat constructor|].
  destruct (id_entry_eqb x y); [exact IH|]. constructor; [exact IH|].
  apply Forall_forall. intros z Hz. rewrite Forall_forall in F. apply F.
  apply unique_in. rewrite E. exact Hz.
Qed.

Lemma map_nv_sorted : forall l l' : list id_entry, map nv l = map nv l' ->
  StronglySorted nv_le l -> StronglySorted nv_le l'.
Proof.
  intros l l' E H. revert l' E. induction H as [|x l S IH F]; intros [|x' l'] E;
    try discriminate; constructor.
  - apply IH. injection E; auto.
  - injection E as E1 E2. clear S IH.
    revert l' E2. induction F as [|y l Hy F IH]; intros [|y' l'] E2; try discriminate;
      constructor.
    + injection E2 as E3 E4. unfold nv_le, nv in *. rewrite <- E1, <- E3. exact Hy.
    + apply IH. injection E2; auto.
Qed.

Lemma make_ids_spec : forall c,
  StronglySorted nv_le (make_ids c) /\
  forall n v, (exists a, In (n, v, a) (make_ids c)) <-> carries c n v.
Proof.
  intros c. unfold make_ids.
  pose proof (sorted_entries (id_entries c)) as S.
  assert (P : Permutation (id_entries c) (sort_by id_entry_ltb (id_entries c)))
    by (apply sort_by_perm).
  destruct (sort_by id_entry_ltb (id_entries c)) as [|e r].
  - split; [constructor|]. intros n v. rewrite <- in_id_entries. apply Permutation_sym in P.
    apply Permutation_nil in P. rewrite P. reflexivity.
  - split.
    + apply unique_sorted. eapply map_nv_sorted; [symmetry; apply zero_shared_nv|exact S].
    + intros n v. rewrite <- in_id_entries.
      assert (X : (exists a, In (n, v, a) (e :: r)) <-> In (n, v) (map nv (e :: r))).
      { rewrite in_map_iff. split.
        - intros (a & H). exists (n, v, a). auto.
        - intros (((n', v'), a) & E & H). injection E as -> ->. exists a. exact H. }
      assert (Y : (exists a, In (n, v, a) (unique_entries (zero_shared e r))) <->
                  In (n, v) (map nv (zero_shared e r))).
      { rewrite in_map_iff. split.
        - intros (a & H). exists (n, v, a). split; [reflexivity|]. apply unique_in. exact H.
        - intros (((n', v'), a) & E & H). injection E as -> ->. exists a.
          apply unique_in. exact H. }
      rewrite Y, zero_shared_nv, <- X. split; intros (a & H); exists a.
      * eapply Permutation_in; [apply Permutation_sym; exact P|exact H].
      * eapply Permutation_in; [exact P|exact H].
Qed.

Lemma sorted_nv_nth : forall l i j (x y : id_entry), StronglySorted nv_le l ->
  nth_error l i = Some x -> nth_error l j = Some y -> i < j -> nv_le x y.
Proof.
  intros l i j x y H. revert i j. induction H as [|a l S IH F]; intros [|i] [|j] Hi Hj L;
    simpl in *; try discriminate; try lia.
  - injection Hi as <-. rewrite Forall_forall in F. apply F. eapply nth_error_In; eauto.
  - eapply IH; eauto. lia.
Qed.

Lemma get_value_id_least : forall c name v,
  get_value_id c name = Val v <->
  carries c name v /\ forall v', carries c name v' -> (v <= v')%N.
Proof.
  intros c name v. unfold get_value_id.
  destruct (make_ids_spec c) as (S & M).
  assert (S' : StronglySorted (fun a b : id_entry => str_le (fst (fst a)) (fst (fst b)))
                 (make_ids c)).
  { clear M. induction S as [|x l S IH F]; constructor; [exact IH|].
    eapply Forall_impl; [|exact F]. intros y (Hy & _). exact Hy. }
  destruct (sorted_partitioned (fun e : id_entry => fst (fst e)) _ name S') as (n & P).
  rewrite (lower_bound_spec _ _ _ P). destruct P as (Pn & P).
  (* Every entry called [name] is at [n] or later. *)
  assert (Q : forall v', carries c name v' -> exists j a,
            nth_error (make_ids c) j = Some (name, v', a) /\ n <= j).
  { intros v' H. apply M in H. destruct H as (a & H).
    apply In_nth_error in H. destruct H as (j & Hj). exists j, a. split; [exact Hj|].
    specialize (P _ _ Hj). simpl in P. rewrite str_ltb_irrefl in P. symmetry in P.
    apply Nat.ltb_ge in P. exact P. }
  destruct (nth_error (make_ids c) n) as [((n0, v0), a0)|] eqn:E.
  - destruct (str_eqb_spec n0 name) as [->|Hn].
    + split.
      * intros H. injection H as ->. split.
        -- apply M. exists a0. eapply nth_error_In; eauto.
        -- intros v' H. destruct (Q v' H) as (j & a & Hj & L).
           destruct (Nat.eq_dec j n) as [->|]; [rewrite E in Hj; injection Hj as <- <-; lia|].
           destruct (sorted_nv_nth _ n j _ _ S E Hj ltac:(lia)) as (_ & X). apply X. reflexivity.
      * intros (H & L). f_equal. assert (H0 : carries c name v0)
          by (apply M; exists a0; eapply nth_error_In; eauto).
        apply N.le_antisymm; [|apply L; exact H0].
        destruct (Q v H) as (j & a & Hj & Lj).
        destruct (Nat.eq_dec j n) as [->|]; [rewrite E in Hj; injection Hj as <- <-; lia|].
        destruct (sorted_nv_nth _ n j _ _ S E Hj ltac:(lia)) as (_ & X). apply X. reflexivity.
    + split; [discriminate|]. intros (H & _). exfalso.
      destruct (Q v H) as (j & a & Hj & Lj).
      destruct (Nat.eq_dec j n) as [->|]; [rewrite E in Hj; congruence|].
      destruct (sorted_nv_nth _ n j _ _ S E Hj ltac:(lia)) as (X & _). simpl in X.
      specialize (P _ _ E). simpl in P. rewrite Nat.ltb_irrefl in P.
      apply Hn. apply str_ltb_total; assumption.
  - split; [discriminate|]. intros (H & _). destruct (Q v H) as (j & a & Hj & L).
    apply nth_error_None in E. assert (j < length (make_ids c))
      by (apply nth_error_Some; congruence). lia.
Qed.

Lemma least_exists : forall c name v, carries c name v ->
  exists w, carries c name w /\ forall v', carries c name v' -> (w <= v')%N.
Proof.
  intros c name v. induction v as [v IH] using (well_founded_induction N.lt_wf_0). intros H.
  destruct (make_ids_spec c) as (_ & M).
  destruct (get_value_id c name) as [w|e] eqn:E.
  - exists w. apply get_value_id_least. exact E.
  - exfalso.


    destruct (Exists_dec (fun e0 => fst (fst e0) = name /\ (snd (fst e0) < v)%N) (make_ids c)) as [X|X].
    + intros ((n0, v0), a0). simpl. destruct (str_eq_dec n0 name); [|right; tauto].
      destruct (v0 <? v)%N eqn:L; [left; apply N.ltb_lt in L; auto|right; apply N.ltb_ge in L; intros (_ & X); lia].
    + apply Exists_exists in X. destruct X as (((n0, v0), a0) & Hin & En & L). simpl in En, L, Hin. subst n0.
      destruct (IH v0 L) as (w & Hw).
      { apply M. exists a0. exact Hin. }
      apply get_value_id_least in Hw. simpl in Hw. congruence.
    + assert (Y : get_value_id c name = Val v).
      { apply get_value_id_least. split; [exact H|]. intros v' H'.
        destruct (N.le_gt_cases v v'); [assumption|]. exfalso. apply X. apply Exists_exists.
        apply M in H'. destruct H' as (a & H'). exists (name, v', a). auto. }
      congruence.
Qed.

Lemma get_value_id_cases : forall c name,
  (exists v, get_value_id c name = Val v) \/ get_value_id c name = Exn (EUnknownValue name).
Proof.
  intros c name. unfold get_value_id.
  destruct (nth_error _ _) as [((n, v), a)|]; [|right; reflexivity].
  destruct (str_eqb n name); [left; eauto|right; reflexivity].
Qed.

Lemma unknown_name_proof : forall c name,
  get_value_id c name = Exn (EUnknownValue name) <-> forall v, ~ carries c name v.
Proof.
  intros c name. split.
  - intros E v H. destruct (least_exists _ _ _ H) as (w & Hw).
    apply get_value_id_least in Hw. congruence.
  - intros H. destruct (get_value_id_cases c name) as [(v & E)|E]; [|exact E].
    apply get_value_id_least in E. destruct E as (E & _). destruct (H _ E).
Qed.

(* ------------------------------------------------------------------------ *)
(** ** Splitting *)

Lemma split_first_none : forall d s a, split_first d s = (a, None) -> a = s /\ ~ In d s.
Proof.
  induction s as [|x s IH]; intros a H; simpl in H.
  - injection H as <-. split; [reflexivity|]. intros [].
  - destruct (Ascii.eqb_spec x d); [discriminate|].
    destruct (split_first d s) as (b, [r|]) eqn:E; [discriminate|].
    injection H as <-. destruct (IH _ eq_refl) as (-> & Hn). split; [reflexivity|].
    intros [X|X]; auto.
Qed.

Lemma split_first_some : forall d s a r, split_first d s = (a, Some r) ->
  s = a ++ d :: r /\ ~ In d a.
Proof.
  induction s as [|x s IH]; intros a r H; simpl in H; [discriminate|].
  destruct (Ascii.eqb_spec x d) as [->|Hn].
  - injection H as <- <-. split; [reflexivity|]. intros [].
  - destruct (split_first d s) as (b, [r'|]) eqn:E; [|discriminate].
    injection H as <- <-. destruct (IH _ _ eq_refl) as (-> & Hb). split; [reflexivity|].
    intros [X|X]; auto.
Qed.

Lemma split_in_one : forall sep limit s, ~ In sep s -> split_in sep limit s [s].
Proof.
  intros. exists [], s. repeat split; simpl; try tauto. lia.
Qed.

Lemma split_in_cons : forall sep limit p parts s,
  ~ In sep p -> split_in sep limit s parts ->
  split_in sep (if (limit =? 0)%N then 0 else limit + 1)%N (p ++ sep :: s) (p :: parts).
Proof.
  intros sep limit p parts s Hp (front & final & -> & J & F & L & M).
  exists (p :: front), final. split; [reflexivity|]. split.
  { simpl. rewrite <- J. destruct (front ++ [final]) eqn:E; [|reflexivity].
    destruct front; discriminate. }
  split; [intros q [<-|Hq]; auto|].
  split; destruct (N.eqb_spec limit 0) as [E0|E0].
  - intros H. apply L in H. tauto.
  - intros H. apply L in H. simpl length in *. lia.
  - tauto.
  - intros _. specialize (M E0). simpl length in *. lia.
Qed.

Lemma split_loop_spec : forall fuel d m size s, length s < fuel ->
  match m with Some m => (size < m)%N | None => True end ->
  split_in d (match m with Some m => m - size + 1 | None => 0 end)%N s
    (split_loop fuel d m size s).
Proof.
  induction fuel as [|fuel IH]; intros d m size s F Hm; [lia|]. simpl.
  destruct (split_first d s) as (a, [r|]) eqn:E.
  - apply split_first_some in E. destruct E as (-> & Ha).
    rewrite app_length in F. simpl in F.
    destruct m as [m|].
    + destruct (N.eqb_spec (size + 1) m) as [Em|Em].
      * replace (m - size + 1)%N with 2%N by lia.
        exists [a], r. repeat split; simpl; try lia. intros p [<-|[]]. exact Ha.
      * specialize (IH d (Some m) (size + 1)%N r ltac:(lia) ltac:(simpl; lia)).
        apply (split_in_cons _ _ a) in IH; [|exact Ha].
        destruct (N.eqb_spec (m - (size + 1) + 1) 0); [lia|].
        replace (m - (size + 1) + 1 + 1)%N with (m - size + 1)%N in IH by lia. exact IH.
    + specialize (IH d None (size + 1)%N r ltac:(lia) I).
      apply (split_in_cons _ _ a) in IH; [|exact Ha]. exact IH.
  - apply split_first_none in E. destruct E as (-> & Hn). apply split_in_one. exact Hn.
Qed.

Lemma split_string_spec : forall s sep limit,
  split_in sep limit s (split_string s sep (max_parts_minus_1 limit)).
Proof.
  intros s sep limit. unfold split_string, max_parts_minus_1.
  destruct (N.eqb_spec limit 0) as [->|Hl].
  - apply (split_loop_spec _ _ None); auto.
  - destruct (N.eq_dec (limit - 1) 0) as [E|E].
    + rewrite E. exists [], s. repeat split; simpl; try tauto; lia.
    + replace (match (limit - 1)%N with
        | 0%N => [s]
        | N.pos _ => split_loop (S (length s)) sep (Some (limit - 1)%N) 0 s end)
        with (split_loop (S (length s)) sep (Some (limit - 1)%N) 0 s)
        by (destruct (limit - 1)%N; congruence).
      pose proof (split_loop_spec (S (length s)) sep (Some (limit - 1)%N) 0 s ltac:(lia) ltac:(simpl; lia)) as H.
      cbv beta iota in H. replace (limit - 1 - 0 + 1)%N with limit in H by lia. exact H.
Qed.

Lemma join_length : forall sep front final,
  N.of_nat (length (front ++ [final])) =
  (occurrences sep (join sep (front ++ [final])) + 1
   - occurrences sep final
   - fold_right (fun p n => occurrences sep p + n) 0 front)%N.
Proof.
  intros sep front final.
  assert (G : (N.of_nat (length front) + occurrences sep final
               + fold_right (fun p n => occurrences sep p + n) 0 front)%N =
              occurrences sep (join sep (front ++ [final]))).
  { induction front as [|p front IH]; simpl; [lia|].
    destruct (front ++ [final]) as [|q r] eqn:E; [destruct front; discriminate|].
    change (N.of_nat (S (length front)) + occurrences sep final
      + (occurrences sep p + fold_right (fun p n => occurrences sep p + n) 0 front)
      = occurrences sep (p ++ sep :: join sep (q :: r)))%N.
    unfold occurrences in *. rewrite count_occ_app, count_occ_cons_eq by reflexivity. lia. }
  rewrite <- G, app_length. simpl. lia.
Qed.

Lemma split_count : forall sep limit s parts, split_in sep limit s parts ->
  N.of_nat (length parts) =
  if (limit =? 0)%N then (occurrences sep s + 1)%N
  else N.min limit (occurrences sep s + 1).
Proof.
  intros sep limit s parts (front & final & -> & <- & F & L & M).
  assert (Z : fold_right (fun p n => occurrences sep p + n)%N 0%N front = 0%N).
  { clear - F. induction front as [|p front IH]; [reflexivity|]. simpl. rewrite IH.
    - unfold occurrences. assert (X : ~ In sep p) by (apply F; left; reflexivity).
      apply (count_occ_not_In ascii_dec) in X. rewrite X. reflexivity.
    - intros q Hq. apply F. right. exact Hq. }
  pose proof (join_length sep front final) as G. rewrite Z in G.
  assert (D : In sep final \/ ~ In sep final)
    by (destruct (in_dec ascii_dec sep final); auto).
  destruct D as [D|D].
  - destruct (L D) as (L0 & L1). destruct (N.eqb_spec limit 0); [congruence|].
    assert (0 < occurrences sep final)%N.
    { unfold occurrences. apply (count_occ_In ascii_dec) in D. lia. }
    rewrite app_length in *. simpl length in *. lia.
  - assert (X : occurrences sep final = 0%N).
    { unfold occurrences. apply (count_occ_not_In ascii_dec) in D. rewrite D. reflexivity. }
    rewrite X in G. destruct (N.eqb_spec limit 0) as [E|E]; [lia|]. specialize (M E). lia.
Qed.

Lemma app_sep_unique : forall sep (p q r s : str), ~ In sep p -> ~ In sep q ->
  p ++ sep :: r = q ++ sep :: s -> p = q /\ r = s.
Proof.
  induction p as [|x p IH]; intros [|y q] r s Hp Hq E; simpl in *.
  - injection E as <-. auto.
  - injection E as <- _. tauto.
  - injection E as -> _. tauto.
  - injection E as <- E. destruct (IH q r s ltac:(tauto) ltac:(tauto) E) as (-> & ->). auto.
Qed.

Lemma split_unique : forall sep limit s p1 p2,
  split_in sep limit s p1 -> split_in sep limit s p2 -> p1 = p2.
Proof.
  intros sep limit s p1 p2 H1 H2.
  pose proof (split_count _ _ _ _ H1) as C1. pose proof (split_count _ _ _ _ H2) as C2.
  rewrite <- C2 in C1. clear C2. apply Nat2N.inj in C1.
  destruct H1 as (f1 & l1 & -> & J1 & F1 & _). destruct H2 as (f2 & l2 & -> & J2 & F2 & _).
  rewrite !app_length in C1. simpl in C1. assert (C : length f1 = length f2) by lia. clear C1.
  revert f2 F2 C s J1 J2. induction f1 as [|p f1 IH]; intros [|q f2] F2 C s J1 J2; try discriminate.
  - simpl in *. congruence.
  - simpl in J1, J2.
    destruct (f1 ++ [l1]) as [|x1 r1] eqn:E1; [destruct f1; discriminate|].
    destruct (f2 ++ [l2]) as [|x2 r2] eqn:E2; [destruct f2; discriminate|].
    rewrite <- J2 in J1. apply app_sep_unique in J1.
    + destruct J1 as (-> & J1). simpl. rewrite E1, E2. f_equal.
      rewrite <- E2. apply (IH (fun z Hz => F1 z (or_intror Hz)) f2
        (fun z Hz => F2 z (or_intror Hz)) ltac:(simpl in C; lia) (join sep (x2 :: r2))).
      * exact J1.
      * rewrite E2. reflexivity.
    + apply F1. left. reflexivity.
    + apply F2. left. reflexivity.
Qed.

Lemma split_proof : forall s sep min max parts,
  value_split s sep min max = Val parts <->
  split_in sep max s parts /\ (min <= N.of_nat (length parts))%N.
Proof.
  intros. unfold value_split. pose proof (split_string_spec s sep max) as H.
  destruct (N.ltb_spec (N.of_nat (length (split_string s sep (max_parts_minus_1 max)))) min).
  - split; [discriminate|]. intros (Hp & L).
    rewrite (split_unique _ _ _ _ _ H Hp) in *. lia.
  - split.
    + intros E. injection E as <-. auto.
    + intros (Hp & L). f_equal. eapply split_unique; eauto.
Qed.

Lemma split_error_proof : forall s sep min max,
  value_split s sep min max = Exn EParseError <->
  ((if max =? 0 then occurrences sep s + 1 else N.min max (occurrences sep s + 1)) < min)%N.
Proof.
  intros. unfold value_split. pose proof (split_string_spec s sep max) as H.
  apply split_count in H. rewrite <- H.
  destruct (N.ltb_spec (N.of_nat (length (split_string s sep (max_parts_minus_1 max)))) min).
  - tauto.
  - split; [discriminate|lia].
Qed.

Lemma values_split_proof : forall vs sep min max parts,
  values_split vs sep min max = Val parts <->
  exists pss, parts = concat pss /\
    Forall2 (fun v ps => value_split v sep min max = Val ps) vs pss.
Proof.
  induction vs as [|v r IH]; intros sep min max parts; simpl.
  - split.
    + intros E. injection E as <-. exists []. split; [reflexivity|constructor].
    + intros (pss & -> & F). inversion F. reflexivity.
  - destruct (value_split v sep min max) as [ps|e] eqn:E.
    + destruct (values_split r sep min max) as [qs|e] eqn:E2.
      * destruct (IH sep min max qs) as (I1 & _). destruct (I1 E2) as (pss & -> & F).
        split.
        -- intros X. injection X as <-. exists (ps :: pss). split; [reflexivity|].
           constructor; assumption.
        -- intros (pss' & -> & F'). inversion F' as [|? ps' ? pss'' Hp Hr]; subst.
           assert (ps' = ps) as -> by congruence. simpl. f_equal. f_equal.
           destruct (IH sep min max (concat pss'')) as (_ & I2).
           assert (X : values_split r sep min max = Val (concat pss'')) by (apply I2; eauto).
           congruence.
      * split; [discriminate|]. intros (pss' & -> & F').
        inversion F' as [|? ps' ? pss'' Hp Hr]; subst.
        destruct (IH sep min max (concat pss'')) as (_ & I2).
        assert (X : values_split r sep min max = Val (concat pss'')) by (apply I2; eauto). congruence.
    + split; [discriminate|]. intros (pss & _ & F). inversion F; congruence.
Qed.

(* ------------------------------------------------------------------------ *)
(** ** Filtered arguments *)

Lemma filter_loop_spec : forall argv u un,
  subsequence (filter_loop argv u un) argv /\
  (exists t, u :: un = filter_loop argv u un ++ t) /\
  (forall k t, u :: un = k ++ t -> subsequence k argv ->
     length k <= length (filter_loop argv u un)).
Proof.
  induction argv as [|a r IH]; intros u un; simpl.
  - split; [constructor|]. split; [eexists; reflexivity|].
    intros k t _ H. inversion H. simpl. lia.
  - destruct (str_eqb_spec a u) as [->|Hn].
    + destruct un as [|u' un'].
      * split; [repeat constructor|]. split; [exists []; reflexivity|].
        intros k t E H. apply (f_equal (@length _)) in E. rewrite app_length in E.
        simpl in *. lia.
      * destruct (IH u' un') as (S & (t & E) & M).
        split; [constructor; exact S|]. split; [exists t; simpl; rewrite <- E; reflexivity|].
        intros [|x k] t' E' H'; simpl; [lia|]. injection E' as <- E'.
        apply le_n_S. apply (M k t' E'). inversion H' as [|? ? ? H''|? ? ? H'']; subst; [exact H''|].
        clear - H''. (* dropping the head keeps a subsequence *)
        remember (u :: k) as l eqn:El. revert u k El.
        induction H'' as [l|x k' l H IH'|x k' l H IH']; intros u k E; [discriminate| |].
        -- injection E as -> ->. constructor. exact H.
        -- constructor. eapply IH'. exact E.
    + destruct (IH u un) as (S & (t & E) & M).
      split; [constructor; exact S|]. split; [exists t; exact E|].
      intros k t' E' H'. apply (M k t' E').
      inversion H' as [|? ? ? H''|? ? ? H'']; subst; [constructor| |exact H''].
      simpl in E'. injection E' as E'' _. congruence.
Qed.

Lemma filter_proof : forall un argv, argv <> [] ->
  exists kept, filter_parsed_arguments un argv = hd [] argv :: kept /\
    subsequence kept (tl argv) /\ (exists rest, un = kept ++ rest) /\
    forall k rest, un = k ++ rest -> subsequence k (tl argv) -> length k <= length kept.
Proof.
  intros un [|p [|a r]] H; [congruence| |].
  - exists []. simpl. split; [reflexivity|]. split; [constructor|].
    split; [exists un; reflexivity|]. intros k rest _ S. inversion S. simpl. lia.
  - destruct un as [|u un].
    + exists []. simpl. split; [reflexivity|]. split; [constructor|].
      split; [exists []; reflexivity|]. intros k rest E _. destruct k; [simpl; lia|discriminate].
    + exists (filter_loop (a :: r) u un). split; [reflexivity|].
      apply filter_loop_spec.
Qed.

Lemma filter_exact_proof : forall un p argv, subsequence un argv ->
  filter_parsed_arguments un (p :: argv) = p :: un.
Proof.
  intros un p argv H. destruct (filter_proof un (p :: argv) ltac:(discriminate))
    as (kept & E & _ & (rest & R) & M). rewrite E. simpl. f_equal.
  assert (L : length un <= length kept) by (apply (M un []); [rewrite app_nil_r; reflexivity|exact H]).
  rewrite R in L |- *. rewrite app_length in L. destruct rest; [|simpl in L; lia].
  rewrite app_nil_r. reflexivity.
Qed.

(* ------------------------------------------------------------------------ *)

Lemma as_bool_proof : forall v default,
  as_bool v default = false <->
  (v = None /\ default = false) \/ v = Some [] \/ v = Some ($"0") \/ v = Some ($"false").
Proof.
  intros [s|] d; unfold as_bool.
  - split.
    + intros H. apply andb_false_iff in H. destruct H as [H|H].
      * apply andb_false_iff in H. destruct H as [H|H]; apply negb_false_iff in H.
        -- apply is_empty_true in H. subst. tauto.
        -- apply str_eqb_eq in H. subst. tauto.
      * apply negb_false_iff in H. apply str_eqb_eq in H. subst. tauto.
    + intros [(H & _)|[H|[H|H]]]; [discriminate| | |]; injection H as ->; reflexivity.
  - split; [intros ->; tauto|]. intros [(_ & ->)|[H|[H|H]]]; [reflexivity|discriminate..].
Qed.

Lemma known_name_proof : forall c name v, carries c name v ->
  exists w, get_value_id c name = Val w /\ carries c name w.
Proof.
  intros c name v H. destruct (least_exists _ _ _ H) as (w & Hw). exists w.
  split; [apply get_value_id_least; exact Hw|apply Hw].
Qed.

Lemma agree_proof : forall l cs name,
  l_values l = fold_left apply_change cs [] ->
  (forall e, pa_values l name = Exn e <-> pa_has l name = Exn e) /\
  (forall e, pa_values l name = Exn e -> pa_value l name = Exn e) /\
  forall vs, pa_values l name = Val vs ->
    (pa_has l name = Val true <-> vs <> []) /\
    (pa_has l name = Val false <-> vs = []) /\
    (pa_value l name = Val None <-> vs = []) /\
    (forall v, pa_value l name = Val (Some v) <-> vs = [v]) /\
    (pa_value l name = Exn EMultipleValues <-> 2 <= length vs).
Proof.
  intros l cs name H.
  assert (O : in_order (l_values l)) by (rewrite H; apply changes_in_order; constructor).
  unfold pa_values, pa_has, pa_value. destruct (get_value_id (l_command l) name) as [id|x].
  - split; [intros e; split; discriminate|]. split; [discriminate|].
    intros vs E. injection E as <-. rewrite get_values_pick, has_pick, get_value_pick by exact O.
    destruct (pick (l_values l) id) as [|(x, a) [|(y, b) r]]; simpl.
    all: split; [split; congruence|]; split; [split; congruence|]; split; [split; congruence|].
    all: split; [intros v; split; congruence|].
    all: split; first [discriminate | lia | intros; reflexivity | idtac].
  - split; [intros e; split; congruence|]. split; [congruence|]. discriminate.
Qed.
