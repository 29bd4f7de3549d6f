From Coq Require Import Permutation Sorting.Sorted.
From Verif Require Import Base BaseProofs MStrings MData SStrings StrProofs SIndex.

(** ** Bisection *)

Definition partitioned {A} (lt : A -> bool) (l : list A) (n : nat) : Prop :=
  n <= length l /\ forall i x, nth_error l i = Some x -> lt x = (i <? n).

Lemma div2_lt : forall n, 0 < n -> Nat.div2 n < n.
Proof. intros. apply Nat.lt_div2. assumption. Qed.

Lemma lower_bound_loop_spec : forall {A} (lt : A -> bool) l n, partitioned lt l n ->
  forall fuel first len, len <= fuel -> first <= n -> n <= first + len ->
  first + len <= length l -> lower_bound_loop lt l fuel first len = n.
Proof.
  intros A lt l n (Hn & P). induction fuel as [|fuel IH]; intros first len F1 F2 F3 F4.
  - simpl. lia.
  - simpl. destruct len as [|len]; [lia|].
    remember (S len) as k. assert (Hk : 0 < k) by lia.
    pose proof (div2_lt k Hk) as D.
    destruct (nth_error l (first + Nat.div2 k)) as [m|] eqn:E.
    2:{ apply nth_error_None in E. lia. }
    rewrite (P _ _ E). destruct (Nat.ltb_spec (first + Nat.div2 k) n).
    + apply IH; lia.
    + apply IH; lia.
Qed.

Lemma lower_bound_spec : forall {A} (lt : A -> bool) l n, partitioned lt l n ->
  lower_bound lt l = n.
Proof.
  intros A lt l n P. unfold lower_bound. apply lower_bound_loop_spec; auto.
  - lia.
  - destruct P. lia.
Qed.

(** A sorted list is partitioned at every key. *)
Lemma sorted_partitioned : forall {A} (key : A -> str) (l : list A) (s : str),
  StronglySorted (fun a b => str_le (key a) (key b)) l ->
  exists n, partitioned (fun a => str_ltb (key a) s) l n.
Proof.
  intros A key l s H. induction H as [|a l H IH F].
  - exists 0. split; [simpl; lia|]. intros [|i] x E; discriminate.
  - destruct (str_ltb (key a) s) eqn:E.
    + destruct IH as (n & L & P). exists (S n). split; [simpl; lia|].
      intros [|i] x Hx; simpl in Hx.
      * inversion Hx; subst. rewrite E. reflexivity.
      * rewrite (P _ _ Hx). reflexivity.
    + exists 0. split; [simpl; lia|].
      intros [|i] x Hx; simpl in Hx.
      * inversion Hx; subst. rewrite E. reflexivity.
      * apply nth_error_In in Hx. rewrite Forall_forall in F. specialize (F x Hx).
        apply (str_le_trans s (key a) (key x)) in F; [exact F|exact E].
Qed.

(** ** Insertion sort *)

Section Sort.
  Context {A : Type} (lt : A -> A -> bool) (P : A -> Prop).
  Context (le_trans : forall x y z, P x -> P y -> P z ->
             lt y x = false -> lt z y = false -> lt z x = false).
  Context (lt_asym : forall x y, P x -> P y -> lt x y = true -> lt y x = false).

  Let ge (a b : A) : Prop := lt a b = false.

  Lemma insert_back_perm : forall x l, Permutation (x :: l) (insert_back lt x l).
  Proof.
    induction l as [|y l IH]; simpl; [apply Permutation_refl|].
    destruct (lt x y).
    - eapply perm_trans; [apply perm_swap|]. apply perm_skip. exact IH.
    - apply Permutation_refl.
  Qed.

  Lemma insert_back_forall : forall x l, P x -> Forall P l -> Forall P (insert_back lt x l).
  Proof.
    intros x l Hx Hl. eapply Permutation_Forall; [apply insert_back_perm|].
    constructor; assumption.
  Qed.

  Lemma insert_back_sorted : forall x l, P x -> Forall P l ->
    StronglySorted ge l -> StronglySorted ge (insert_back lt x l).
  Proof.
    intros x l Hx. induction l as [|y l IH]; simpl; intros Hl S.
    - repeat constructor.
    - inversion Hl; subst. inversion S; subst. destruct (lt x y) eqn:E.
      + constructor; [apply IH; assumption|].
        eapply Permutation_Forall; [apply insert_back_perm|].
        constructor; [|assumption]. apply lt_asym; assumption.
      + constructor; [assumption|]. constructor; [exact E|].
        rewrite Forall_forall in *. intros z Hz. unfold ge in *.
        apply (le_trans z y x); auto.
  Qed.

  Lemma fold_sort_perm : forall l acc,
    Permutation (l ++ acc) (fold_left (fun r x => insert_back lt x r) l acc).
  Proof.
    induction l as [|x l IH]; intros acc; simpl; [apply Permutation_refl|].
    eapply perm_trans; [|apply IH]. eapply perm_trans; [apply Permutation_middle|].
    apply Permutation_app_head. apply insert_back_perm.
  Qed.

  Lemma fold_sort_sorted : forall l acc, Forall P l -> Forall P acc ->
    StronglySorted ge acc ->
    StronglySorted ge (fold_left (fun r x => insert_back lt x r) l acc).
  Proof.
    induction l as [|x l IH]; intros acc Hl Ha S; simpl; [exact S|].
    inversion Hl; subst. apply IH; auto.
    - apply insert_back_forall; assumption.
    - apply insert_back_sorted; assumption.
  Qed.

  Lemma strongly_sorted_app : forall (R : A -> A -> Prop) l1 l2,
    StronglySorted R l1 -> StronglySorted R l2 ->
    (forall x y, In x l1 -> In y l2 -> R x y) -> StronglySorted R (l1 ++ l2).
  Proof.
    intros R l1 l2 H1 H2 H. induction H1 as [|a l1 H1 IH F]; simpl; [exact H2|].
    constructor.
    - apply IH. intros x y Hx Hy. apply H; [right|]; assumption.
    - rewrite Forall_forall in *. intros y Hy. apply in_app_or in Hy.
      destruct Hy as [Hy|Hy]; [auto|]. apply H; [left; reflexivity|assumption].
  Qed.

  Lemma strongly_sorted_rev : forall (R : A -> A -> Prop) l,
    StronglySorted R l -> StronglySorted (fun a b => R b a) (rev l).
  Proof.
    induction 1 as [|a l H IH F]; simpl; [constructor|].
    apply strongly_sorted_app.
    - exact IH.
    - repeat constructor.
    - intros x y Hx [<-|[]]. rewrite Forall_forall in F. apply F.
      rewrite in_rev. exact Hx.
  Qed.

  Lemma sort_by_perm : forall l, Permutation l (sort_by lt l).
  Proof.
    intros l. unfold sort_by. eapply perm_trans; [|apply Permutation_rev].
    pose proof (fold_sort_perm l []) as H. rewrite app_nil_r in H. exact H.
  Qed.

  Lemma sort_by_sorted : forall l, Forall P l ->
    StronglySorted (fun a b => lt b a = false) (sort_by lt l).
  Proof.
    intros l Hl. unfold sort_by.
    apply (strongly_sorted_rev ge). apply fold_sort_sorted; auto. constructor.
  Qed.
End Sort.

(** ** The index as a list sorted by [norm] *)

Lemma folded_norm : forall ci s, folded ci s = norm ci s.
Proof. reflexivity. Qed.

Lemma in_index_entries : forall opts f o,
  In (f, o) (index_entries opts) <-> declared opts f o.
Proof.
  intros. unfold index_entries, declared. rewrite in_flat_map. split.
  - intros (o' & H & Hi). apply in_map_iff in Hi. destruct Hi as (f' & E & Hf).
    inversion E; subst. auto.
  - intros (H1 & H2). exists o. split; [exact H1|]. apply in_map_iff. exists f. auto.
Qed.

Lemma index_entries_flags : forall opts, map fst (index_entries opts) = all_flags opts.
Proof.
  induction opts as [|o opts IH]; simpl; [reflexivity|].
  unfold index_entries in *. simpl. rewrite map_app, IH. f_equal.
  rewrite map_map. simpl. apply map_id.
Qed.

Definition key (ci : bool) (e : str * opt_data) : str := norm ci (fst e).

Lemma sorted_by_key : forall ci opts index, safe_flags ci opts ->
  sorted_index ci opts index ->
  StronglySorted (fun a b => str_le (key ci a) (key ci b)) index.
Proof.
  intros ci opts index S (P & H).
  assert (Hin : forall e, In e index -> ci = true -> safe (fst e)).
  { intros [f o] He C. apply S; [exact C|].
    rewrite <- index_entries_flags. apply in_map_iff. exists (f, o).
    split; [reflexivity|]. eapply Permutation_in; [|exact He].
    apply Permutation_sym. exact P. }
  clear P. induction H as [|a l H IH F]; constructor.
  - apply IH. intros e He. apply Hin. right. exact He.
  - rewrite Forall_forall in *. intros b Hb. specialize (F b Hb).
    unfold str_le, key. rewrite <- is_less_norm; [exact F| |].
    + apply Hin. right. exact Hb.
    + apply Hin. left. reflexivity.
Qed.

Lemma model_sort_sorted : forall ci opts, safe_flags ci opts ->
  sorted_index ci opts
    (sort_by (fun a b => is_less (fst a) (fst b) ci) (index_entries opts)).
Proof.
  intros ci opts S. split; [apply sort_by_perm|].
  pose (P := fun e : str * opt_data => ci = true -> safe (fst e)).
  apply (sort_by_sorted (fun a b : str * opt_data => is_less (fst a) (fst b) ci) P).
  - intros x y z Px Py Pz. rewrite !is_less_norm by assumption. intros H1 H2.
    exact (str_le_trans _ _ _ H1 H2).
  - intros x y Px Py. rewrite !is_less_norm by assumption. apply str_ltb_asym.
  - apply Forall_forall. intros [f o] He C. apply S; [exact C|].
    rewrite <- index_entries_flags. apply in_map_iff. exists (f, o). auto.
Qed.

(** ** Duplicates *)

Lemma adjacent_find_none : forall ci (l : list (str * opt_data)),
  StronglySorted (fun a b => str_le (key ci a) (key ci b)) l ->
  (adjacent_find (fun a b => are_equal (fst a) (fst b) ci) l = None <->
   NoDup (map (key ci) l)).
Proof.
  intros ci l H. induction H as [|a l H IH F]; simpl.
  - split; [constructor|reflexivity].
  - destruct l as [|b l].
    + split; [|reflexivity]. intros _. repeat constructor. intros [].
    + rewrite are_equal_norm. fold (key ci a). fold (key ci b).
      destruct (str_eqb_spec (key ci a) (key ci b)) as [E|N].
      * split; [discriminate|]. intros X. inversion X; subst. exfalso. apply H2.
        left. symmetry. exact E.
      * rewrite IH. split.
        -- intros X. constructor; [|exact X]. intros Hin. apply in_map_iff in Hin.
           destruct Hin as (c & Ec & Hc). apply N.
           rewrite Forall_forall in F. apply str_le_antisym.
           { apply F. left. reflexivity. }
           rewrite <- Ec. destruct Hc as [->|Hc]; [apply str_le_refl|].
           inversion H; subst. rewrite Forall_forall in H3. apply H3. exact Hc.
        -- intros X. inversion X. assumption.
Qed.

Definition distinct_flags (ci : bool) (opts : list opt_data) : Prop :=
  NoDup (map (folded ci) (all_flags opts)).

Lemma keys_perm : forall ci opts index, Permutation (index_entries opts) index ->
  Permutation (map (folded ci) (all_flags opts)) (map (key ci) index).
Proof.
  intros ci opts index P. rewrite <- index_entries_flags, map_map.
  apply (Permutation_map (key ci)). exact P.
Qed.

Lemma check_index_val : forall ci opts index, safe_flags ci opts ->
  sorted_index ci opts index ->
  (check_index ci index = Val index /\ distinct_flags ci opts) \/
  ((exists e, check_index ci index = Exn e) /\ ~ distinct_flags ci opts).
Proof.
  intros ci opts index S H. pose proof (sorted_by_key _ _ _ S H) as K.
  pose proof (adjacent_find_none ci index K) as A.
  assert (D : NoDup (map (key ci) index) <-> distinct_flags ci opts).
  { destruct H as (P & _). unfold distinct_flags.
    split; apply Permutation_NoDup; [apply Permutation_sym|]; apply keys_perm; exact P. }
  unfold check_index.
  destruct (adjacent_find (fun a b => are_equal (fst a) (fst b) ci) index) as [[a b]|] eqn:E.
  - right. split.
    + destruct (str_eqb (fst a) (fst b)); eexists; reflexivity.
    + intros X. apply D, A in X. discriminate.
  - left. split; [reflexivity|]. apply D, A. reflexivity.
Qed.

(** ** Lookup *)

Section Lookup.
  Context (ci : bool) (opts : list opt_data) (index : list (str * opt_data)).
  Context (Safe : safe_flags ci opts) (Hs : sorted_index ci opts index).
  Context (Hd : distinct_flags ci opts).

  Lemma K : StronglySorted (fun a b => str_le (key ci a) (key ci b)) index.
  Proof. exact (sorted_by_key ci opts index Safe Hs). Qed.

  Lemma index_in : forall f o, In (f, o) index <-> declared opts f o.
  Proof.
    intros. destruct Hs as (P & _). rewrite <- in_index_entries. split.
    - apply Permutation_in. apply Permutation_sym. exact P.
    - apply Permutation_in. exact P.
  Qed.

  Lemma index_nodup : NoDup (map (key ci) index).
  Proof.
    eapply Permutation_NoDup; [apply keys_perm; exact (proj1 Hs)|exact Hd].
  Qed.

  Lemma nodup_key_inj : forall (l : list (str * opt_data)) a b,
    NoDup (map (key ci) l) -> In a l -> In b l -> key ci a = key ci b -> a = b.
  Proof.
    induction l as [|x l IH]; intros a b N Ha Hb E; [destruct Ha|].
    simpl in N. inversion N; subst. destruct Ha as [->|Ha], Hb as [->|Hb]; auto.
    - exfalso. apply H1. apply in_map_iff. exists b. auto.
    - exfalso. apply H1. apply in_map_iff. exists a. auto.
  Qed.

  Lemma sorted_nth : forall i j a b, i <= j -> nth_error index i = Some a ->
    nth_error index j = Some b -> str_le (key ci a) (key ci b).
  Proof.
    pose proof K as K'. clear Hs. induction K' as [|x l H IH F]; intros i j a b L Ha Hb.
    - destruct i; discriminate.
    - destruct i as [|i], j as [|j]; simpl in *; try lia.
      + inversion Ha; inversion Hb; subst. inversion Hb; subst. apply str_le_refl.
      + inversion Ha; subst. rewrite Forall_forall in F. apply F.
        eapply nth_error_In. exact Hb.
      + apply (IH i j); auto. lia.
  Qed.

  (** The position found by bisection splits the index at [s]. *)
  Lemma lookup_position : forall s, (ci = true -> safe s) ->
    let i := lower_bound (fun e => is_less (fst e) s ci) index in
    forall j e, nth_error index j = Some e ->
      str_ltb (key ci e) (norm ci s) = (j <? i).
  Proof.
    intros s Ss. destruct (sorted_partitioned (key ci) index (norm ci s) K) as (n & P).
    assert (P' : partitioned (fun e => is_less (fst e) s ci) index n).
    { destruct P as (L & P). split; [exact L|]. intros j e Hj. rewrite <- (P j e Hj).
      apply is_less_norm; [|exact Ss]. intros C. apply Safe; [exact C|].
      destruct e as [f o]. apply nth_error_In in Hj. apply index_in in Hj.
      destruct Hj as (H1 & H2). unfold all_flags. apply in_flat_map. exists o. auto. }
    cbv zeta. rewrite (lower_bound_spec _ _ _ P'). apply P.
  Qed.

  Lemma find_option_impl_spec : forall s abbrev o, (ci = true -> safe s) ->
    (find_option_impl index s abbrev ci = Some o <-> names ci abbrev opts s o).
  Proof.
    intros s abbrev o Ss. unfold find_option_impl.
    pose proof (lookup_position s Ss) as LP. cbv zeta in LP.
    set (i := lower_bound (fun e => is_less (fst e) s ci) index) in *.
    (* entries that begin with s are at or after i *)
    assert (After : forall j e, nth_error index j = Some e ->
              is_prefix (norm ci s) (key ci e) -> i <= j).
    { intros j e Hj Hp. specialize (LP j e Hj). apply prefix_le in Hp.
      unfold str_le in Hp. rewrite Hp in LP. symmetry in LP.
      apply Nat.ltb_ge in LP. exact LP. }
    destruct (nth_error index i) as [[f of]|] eqn:Ei.
    2:{ split; [discriminate|]. intros H. exfalso. apply nth_error_None in Ei.
        assert (X : exists e, In e index /\ is_prefix (norm ci s) (key ci e)).
        { destruct H as [(f & Df & E)|(_ & f & Df & B & _)].
          - exists (f, o). split; [apply index_in; exact Df|].
            exists []. rewrite app_nil_r. exact E.
          - exists (f, o). split; [apply index_in; exact Df|]. exact B. }
        destruct X as (e & He & Hp). apply In_nth_error in He. destruct He as (j & Hj).
        pose proof (After j e Hj Hp). assert (j < length index).
        { apply nth_error_Some. congruence. }
        lia. }
    assert (Df : declared opts f of).
    { apply index_in. eapply nth_error_In. exact Ei. }
    assert (Ge : str_le (norm ci s) (norm ci f)).
    { specialize (LP i _ Ei). rewrite Nat.ltb_irrefl in LP. exact LP. }
    (* a complete flag is found at i *)
    assert (Full : forall g o', declared opts g o' -> norm ci g = norm ci s ->
              (g, o') = (f, of)).
    { intros g o' Dg E. apply index_in in Dg.
      apply (nodup_key_inj index); auto; [apply index_nodup| |].
      - eapply nth_error_In. exact Ei.
      - unfold key. simpl. rewrite E. apply str_le_antisym; [exact Ge|].
        apply In_nth_error in Dg. destruct Dg as (j & Hj).
        assert (Hij : i <= j).
        { apply (After j _ Hj). exists []. rewrite app_nil_r. exact E. }
        pose proof (sorted_nth i j _ _ Hij Ei Hj) as X. unfold key in X. simpl in X.
        rewrite E in X. exact X. }
    destruct (str_eqb_spec f s) as [->|Nfs].
    { split.
      - intros X. inversion X; subst. left. exists s. split; [exact Df|reflexivity].
      - intros [(g & Dg & E)|(_ & g & Dg & B & U)].
        + pose proof (Full _ _ Dg E) as X. inversion X; subst. reflexivity.
        + assert (s = g).
          { apply (U s of Df). exists []. rewrite app_nil_r. reflexivity. }
          subst g. pose proof (Full _ _ Dg eq_refl) as X. inversion X. reflexivity. }
    destruct (ci && are_equal_ci f s) eqn:Ec.
    { apply andb_true_iff in Ec. destruct Ec as (C & Ec).
      assert (E : norm ci f = norm ci s).
      { unfold norm. rewrite C. rewrite are_equal_ci_spec in Ec.
        apply str_eqb_eq. exact Ec. }
      split.
      - intros X. inversion X; subst. left. exists f. split; [exact Df|exact E].
      - intros [(g & Dg & E')|(_ & g & Dg & B & U)].
        + pose proof (Full _ _ Dg E') as X. inversion X; subst. reflexivity.
        + assert (f = g).
          { apply (U f of Df). exists []. rewrite app_nil_r. exact E. }
          subst g. pose proof (Full _ _ Dg E) as X. inversion X. reflexivity. }
    assert (NE : norm ci f <> norm ci s).
    { intros E. unfold norm in E. destruct ci; simpl in Ec.
      - rewrite are_equal_ci_spec, E, str_eqb_refl in Ec. discriminate.
      - congruence. }
    assert (NoFull : forall g o', declared opts g o' -> norm ci g <> norm ci s).
    { intros g o' Dg E. pose proof (Full _ _ Dg E) as X. inversion X; subst. congruence. }
    destruct abbrev; cbn [negb].
    2:{ split; [discriminate|]. intros [(g & Dg & E)|(X & _)]; [|discriminate].
        exfalso. eapply NoFull; eassumption. }
    rewrite starts_with_norm.
    destruct (starts_with_cs (norm ci f) (norm ci s)) eqn:Sf; cbn [negb].
    2:{ split; [discriminate|]. intros [(g & Dg & E)|(_ & g & Dg & B & U)].
        { exfalso. eapply NoFull; eassumption. }
        exfalso. apply index_in in Dg. apply In_nth_error in Dg. destruct Dg as (j & Hj).
        assert (Hij : i <= j) by (apply (After j _ Hj B)).
        pose proof (sorted_nth i j _ _ Hij Ei Hj) as X. unfold key in X. simpl in X.
        assert (Y : starts_with_cs (norm ci f) (norm ci s) = true).
        { apply starts_with_cs_spec. eapply prefix_between; [exact Ge|exact X|exact B]. }
        congruence. }
    apply starts_with_cs_spec in Sf.
    (* uniqueness is decided by the next entry *)
    assert (Hnext : (exists g o', declared opts g o' /\ g <> f /\
                       is_prefix (norm ci s) (norm ci g)) <->
                    exists g o', nth_error index (S i) = Some (g, o') /\
                       is_prefix (norm ci s) (norm ci g)).
    { split.
      - intros (g & o' & Dg & Ng & Bg). apply index_in in Dg.
        apply In_nth_error in Dg. destruct Dg as (j & Hj).
        assert (Hij : i <= j) by (apply (After j _ Hj Bg)).
        assert (i <> j).
        { intros ->. rewrite Ei in Hj. inversion Hj. congruence. }
        destruct (nth_error index (S i)) as [[g' o'']|] eqn:En.
        + exists g', o''. split; [reflexivity|].
          apply (prefix_between (norm ci s) (norm ci g') (norm ci g)); [| |exact Bg].
          * eapply str_le_trans; [exact Ge|].
            assert (L : i <= S i) by lia. apply (sorted_nth i (S i) _ _ L Ei En).
          * assert (L : S i <= j) by lia. apply (sorted_nth (S i) j _ _ L En Hj).
        + exfalso. apply nth_error_None in En. assert (j < length index).
          { apply nth_error_Some. congruence. }
          lia.
      - intros (g & o' & Hg & Bg). exists g, o'. split.
        + apply index_in. eapply nth_error_In. exact Hg.
        + split; [|exact Bg]. intros ->.
          assert (N : i <> S i) by lia. apply N.
          pose proof index_nodup as ND.
          rewrite NoDup_nth_error in ND. apply ND.
          * rewrite map_length. apply nth_error_Some. congruence.
          * rewrite (map_nth_error (key ci) _ _ Ei), (map_nth_error (key ci) _ _ Hg).
            reflexivity. }
    assert (Abbr : (forall g o', declared opts g o' -> is_prefix (norm ci s) (norm ci g) ->
                      g = f) -> (Some of = Some o <-> names ci true opts s o)).
    { intros U. split.
      - intros X. inversion X; subst. right. split; [reflexivity|].
        exists f. split; [exact Df|]. split; [exact Sf|exact U].
      - intros [(g & Dg & E)|(_ & g & Dg & B & _)].
        + exfalso. eapply NoFull; eassumption.
        + assert (g = f) by (eapply U; [exact Dg|exact B]). subst g.
          apply index_in in Dg. apply index_in in Df.
          assert (X : (f, o) = (f, of)).
          { apply (nodup_key_inj index); auto. apply index_nodup. }
          inversion X. reflexivity. }
    destruct (nth_error index (S i)) as [[g o']|] eqn:En.
    - rewrite starts_with_norm.
      destruct (starts_with_cs (norm ci g) (norm ci s)) eqn:Sg.
      + apply starts_with_cs_spec in Sg.
        destruct (proj2 Hnext) as (g' & o'' & Dg & Ng & Bg).
        { exists g, o'. auto. }
        split; [discriminate|]. intros [(h & Dh & E)|(_ & h & Dh & B & U)].
        * exfalso. eapply NoFull; eassumption.
        * exfalso. apply Ng. rewrite (U g' o'' Dg Bg). symmetry. apply (U f of Df Sf).
      + apply Abbr. intros h oh Dh Bh. destruct (str_eq_dec h f) as [|N]; [assumption|].
        destruct (proj1 Hnext) as (g' & o'' & Hg & Bg).
        { exists h, oh. auto. }
        inversion Hg; subst. apply starts_with_cs_spec in Bg. congruence.
    - apply Abbr. intros h oh Dh Bh. destruct (str_eq_dec h f) as [|N]; [assumption|].
      destruct (proj1 Hnext) as (g' & o'' & Hg & Bg).
      { exists h, oh. auto. }
      discriminate.
  Qed.

  Lemma names_fun : forall s abbrev o1 o2, (ci = true -> safe s) ->
    names ci abbrev opts s o1 -> names ci abbrev opts s o2 -> o1 = o2.
  Proof.
    intros s abbrev o1 o2 Ss H1 H2. apply find_option_impl_spec in H1, H2; auto. congruence.
  Qed.

  Lemma safe_removelast : forall t, (ci = true -> safe (t ++ ["="%char])) -> ci = true -> safe t.
  Proof. intros t H C c Hc. apply H; [exact C|]. apply in_or_app. auto. Qed.

  Lemma find_option_spec : forall s abbrev o, (ci = true -> safe s) ->
    (find_option_in index s abbrev ci = Some o <-> selects ci abbrev opts s o).
  Proof.
    intros s abbrev o Ss. unfold find_option_in.
    destruct (find_option_impl index s abbrev ci) as [o1|] eqn:E1.
    - pose proof (proj1 (find_option_impl_spec s abbrev o1 Ss) E1) as N1. split.
      + intros X. inversion X; subst. left. exact N1.
      + intros [N|(No & _)].
        * f_equal. eapply names_fun; eassumption.
        * exfalso. eapply No. exact N1.
    - assert (No : forall o', ~ names ci abbrev opts s o').
      { intros o' N. apply find_option_impl_spec in N; auto. congruence. }
      destruct (Nat.ltb_spec 2 (length s)) as [L|L]; simpl.
      2:{ split; [discriminate|]. intros [N|(_ & t & E & L2 & _)].
          - exfalso. eapply No. exact N.
          - lia. }
      destruct (last_char s) as [c|] eqn:Lc.
      2:{ split; [discriminate|]. intros [N|(_ & t & -> & _)].
          - exfalso. eapply No. exact N.
          - rewrite last_char_app in Lc. discriminate. }
      destruct (Ascii.eqb_spec c c_eq) as [->|Nc].
      2:{ split; [discriminate|]. intros [N|(_ & t & -> & _)].
          - exfalso. eapply No. exact N.
          - rewrite last_char_app in Lc. inversion Lc. exfalso. apply Nc. symmetry. assumption. }
      apply last_char_some in Lc.
      remember (firstn (length s - 1) s) as t0.
      assert (St : ci = true -> safe t0).
      { intros C. apply safe_removelast; [|exact C]. intros _. change "="%char with c_eq.
        rewrite <- Lc. auto. }
      destruct (find_option_impl index t0 abbrev ci) as [o2|] eqn:E2.
      + pose proof (proj1 (find_option_impl_spec t0 abbrev o2 St) E2) as N2.
        destruct (is_empty (o_argument o2)) eqn:Ea.
        * split; [discriminate|]. intros [N|(_ & t & E & _ & Nt & A)].
          -- exfalso. eapply No. exact N.
          -- assert (t = t0).
             { rewrite E in Lc. apply app_inj_tail in Lc. tauto. }
             subst t. assert (o = o2) by (eapply names_fun; eassumption). subst o.
             apply is_empty_true in Ea. congruence.
        * split.
          -- intros X. inversion X; subst o. right. split; [exact No|].
             exists t0. split; [exact Lc|]. split; [exact L|]. split; [exact N2|].
             apply is_empty_false. exact Ea.
          -- intros [N|(_ & t & E & _ & Nt & A)].
             ++ exfalso. eapply No. exact N.
             ++ assert (t = t0).
                { rewrite E in Lc. apply app_inj_tail in Lc. tauto. }
                subst t. f_equal. eapply names_fun; eassumption.
      + split; [discriminate|]. intros [N|(_ & t & E & _ & Nt & A)].
        * exfalso. eapply No. exact N.
        * assert (t = t0).
          { rewrite E in Lc. apply app_inj_tail in Lc. tauto. }
          subst t. apply find_option_impl_spec in Nt; auto. congruence.
  Qed.
End Lookup.

(** ** Conclusions *)

Lemma build_index_val : forall ci opts index, safe_flags ci opts ->
  build_option_index ci opts = Val index ->
  sorted_index ci opts index /\ distinct_flags ci opts.
Proof.
  intros ci opts index S H. unfold build_option_index in H.
  pose proof (model_sort_sorted ci opts S) as M.
  destruct (check_index_val _ _ _ S M) as [(E & D)|((e & E) & _)]; rewrite E in H.
  - inversion H; subst. auto.
  - discriminate.
Qed.

Lemma lookup_proof : forall ci opts index s abbrev o, safe_flags ci opts ->
  (ci = true -> safe s) -> build_option_index ci opts = Val index ->
  (find_option_in index s abbrev ci = Some o <-> selects ci abbrev opts s o).
Proof.
  intros ci opts index s abbrev o S Ss H.
  destruct (build_index_val _ _ _ S H) as (M & D).
  apply find_option_spec; assumption.
Qed.

Lemma own_flag_proof : forall opts index f o abbrev,
  build_option_index false opts = Val index -> declared opts f o ->
  find_option_in index f abbrev false = Some o.
Proof.
  intros opts index f o abbrev H D. apply (lookup_proof false opts).
  - intros X. discriminate.
  - intros X. discriminate.
  - exact H.
  - left. left. exists f. auto.
Qed.

Lemma own_flag_ci_proof : forall opts index f g o abbrev,
  safe_flags true opts -> safe g ->
  build_option_index true opts = Val index -> declared opts f o ->
  lower f = lower g -> find_option_in index g abbrev true = Some o.
Proof.
  intros opts index f g o abbrev S Sg H D E. apply (lookup_proof true opts); auto.
  left. left. exists f. auto.
Qed.

Lemma duplicates_proof : forall ci opts, safe_flags ci opts ->
  ((exists index, build_option_index ci opts = Val index) <->
   NoDup (map (folded ci) (all_flags opts))).
Proof.
  intros ci opts S. unfold build_option_index.
  pose proof (model_sort_sorted ci opts S) as M.
  destruct (check_index_val _ _ _ S M) as [(E & D)|((e & E) & D)]; rewrite E.
  - split; [intros _; exact D|]. intros _. eexists. reflexivity.
  - split; [intros (i & X); discriminate|]. intros X. contradiction.
Qed.

(** Any two sorting algorithms agree. *)
Lemma sort_independent_proof : forall ci opts i1 i2, safe_flags ci opts ->
  sorted_index ci opts i1 -> sorted_index ci opts i2 ->
  ((exists r, check_index ci i1 = Val r) <-> (exists r, check_index ci i2 = Val r)) /\
  (forall r1 r2 s abbrev, (ci = true -> safe s) ->
     check_index ci i1 = Val r1 -> check_index ci i2 = Val r2 ->
     find_option_in r1 s abbrev ci = find_option_in r2 s abbrev ci).
Proof.
  intros ci opts i1 i2 S H1 H2. split.
  - destruct (check_index_val _ _ _ S H1) as [(E1 & D1)|((e1 & E1) & D1)];
    destruct (check_index_val _ _ _ S H2) as [(E2 & D2)|((e2 & E2) & D2)];
    try contradiction; rewrite E1, E2; split; intros (r & X); try discriminate;
    eexists; reflexivity.
  - intros r1 r2 s abbrev Ss E1 E2.
    destruct (check_index_val _ _ _ S H1) as [(X1 & D1)|((e1 & X1) & D1)];
      [|rewrite X1 in E1; discriminate].
    destruct (check_index_val _ _ _ S H2) as [(X2 & D2)|((e2 & X2) & D2)];
      [|rewrite X2 in E2; discriminate].
    rewrite X1 in E1. rewrite X2 in E2. inversion E1; inversion E2; subst r1 r2.
    destruct (find_option_in i1 s abbrev ci) as [o|] eqn:F.
    + symmetry. apply (find_option_spec ci opts i2); auto.
      apply (find_option_spec ci opts i1) in F; auto.
    + destruct (find_option_in i2 s abbrev ci) as [o|] eqn:F2; [|reflexivity].
      apply (find_option_spec ci opts i2) in F2; auto.
      apply (find_option_spec ci opts i1) in F2; auto. congruence.
Qed.

(** Case-sensitively the sorted index itself is unique. *)
Lemma index_unique_proof : forall opts i1 i2,
  sorted_index false opts i1 -> sorted_index false opts i2 ->
  check_index false i1 = Val i1 -> i1 = i2.
Proof.
  intros opts i1 i2 H1 H2 E.
  assert (S : safe_flags false opts) by (intros X; discriminate).
  destruct (check_index_val _ _ _ S H1) as [(X1 & D1)|((e1 & X1) & D1)];
    [|rewrite X1 in E; discriminate].
  pose proof (index_nodup false opts i1 H1 D1) as N1.
  pose proof (sorted_by_key _ _ _ S H1) as K1.
  pose proof (sorted_by_key _ _ _ S H2) as K2.
  assert (P : Permutation i1 i2).
  { eapply perm_trans; [apply Permutation_sym, (proj1 H1)|apply (proj1 H2)]. }
  clear - N1 K1 K2 P. revert i2 K2 P. induction K1 as [|a l H IH F]; intros i2 K2 P.
  - apply Permutation_nil in P. congruence.
  - destruct i2 as [|b i2].
    { apply Permutation_sym, Permutation_nil in P. discriminate. }
    assert (a = b).
    { assert (Ia : In a (b :: i2)) by (eapply Permutation_in; [exact P|left; reflexivity]).
      assert (Ib : In b (a :: l)).
      { eapply Permutation_in; [apply Permutation_sym; exact P|left; reflexivity]. }
      destruct Ia as [?|Ia]; [congruence|]. destruct Ib as [?|Ib]; [congruence|].
      inversion K2; subst. rewrite Forall_forall in *.
      assert (E : key false a = key false b).
      { apply str_le_antisym; auto. }
      exfalso. rewrite map_cons in N1. apply NoDup_cons_iff in N1.
      destruct N1 as (N1 & _). apply N1. rewrite E. apply in_map. exact Ib. }
    subst b. f_equal. apply IH.
    + simpl in N1. inversion N1. assumption.
    + inversion K2. assumption.
    + eapply Permutation_cons_inv. exact P.
Qed.

Lemma selects_unique_proof : forall opts index s abbrev o1 o2,
  build_option_index false opts = Val index ->
  selects false abbrev opts s o1 -> selects false abbrev opts s o2 -> o1 = o2.
Proof.
  intros opts index s abbrev o1 o2 H H1 H2.
  apply (lookup_proof false opts index) in H1; auto; try (intros X; discriminate).
  apply (lookup_proof false opts index) in H2; auto; try (intros X; discriminate).
  congruence.
Qed.

Lemma duplicates_cs_proof : forall opts,
  (exists index, build_option_index false opts = Val index) <-> NoDup (all_flags opts).
Proof.
  intros opts. rewrite duplicates_proof by (intros X; discriminate).
  replace (map (folded false) (all_flags opts)) with (all_flags opts); [reflexivity|].
  symmetry. apply map_id.
Qed.

Lemma model_index_sorted_proof : forall ci opts index, safe_flags ci opts ->
  build_option_index ci opts = Val index -> sorted_index ci opts index.
Proof. intros ci opts index S H. apply (build_index_val _ _ _ S H). Qed.

Lemma lookup_ci_refuted_proof : exists opts,
  NoDup (map lower (all_flags opts)) /\
  (exists index, build_option_index true opts = Val index) /\
  forall index, Permutation (index_entries opts) index ->
    exists f o, declared opts f o /\ find_option_in index f false true = None.
Proof.
  exists [new_option [$"--_"]; new_option [$"--a"]]. split; [|split].
  - vm_compute. repeat (constructor; [simpl; intuition discriminate|]). constructor.
  - eexists. vm_compute. reflexivity.
  - intros index P. change (index_entries _) with
      [($"--_", new_option [$"--_"]); ($"--a", new_option [$"--a"])] in P.
    apply Permutation_length_2_inv in P. destruct P as [-> | ->].
    + exists ($"--_"), (new_option [$"--_"]). split; [|vm_compute; reflexivity].
      split; left; reflexivity.
    + exists ($"--a"), (new_option [$"--a"]). split; [|vm_compute; reflexivity].
      split; [right; left|left]; reflexivity.
Qed.

Lemma duplicates_ci_refuted_proof : exists opts index,
  build_option_index true opts = Val index /\ ~ NoDup (map lower (all_flags opts)).
Proof.
  exists [new_option [$"--A"]; new_option [$"--`"]; new_option [$"--a"]].
  eexists. split; [vm_compute; reflexivity|].
  vm_compute. intros H. inversion H as [|? ? N _]. apply N. simpl. auto.
Qed.
