(** Proofs for POwner.v: what the new objects refer to. *)
From Verif Require Import Base MOwner SOwner OwnerProofs.

Lemma retain_body : forall h b h', retain h b = Ok h' -> forall a, body h' a = body h a.
Proof.
  intros h b h' E a. unfold retain in E. destruct (cell h b) as [[n x]|] eqn:C; [|discriminate E]. injection E as <-. unfold body.
  rewrite cell_put by (eapply cell_some; exact C). destruct (Nat.eqb a b) eqn:Q; [|reflexivity]. apply Nat.eqb_eq in Q. subst a. rewrite C. reflexivity.
Qed.
Lemma retain_if_body : forall h p h', retain_if h p = Ok h' -> forall a, body h' a = body h a.
Proof. intros h [b|] h' E a; cbn [retain_if] in E; [eapply retain_body; exact E|injection E as <-; reflexivity]. Qed.
Lemma alloc_body : forall h x, body (h ++ [Some (1, x)]) (length h) = Some x.
Proof. intros h x. unfold body. rewrite cell_alloc, Nat.eqb_refl. reflexivity. Qed.
Lemma refers_body : forall w w' x, (forall a, body (w_heap w') a = body (w_heap w) a) -> refers w' x = refers w x.
Proof. intros w w' x B. destruct x as [p|[it|]|p|p t|p [v|]|v p|d|t]; cbn [refers]; rewrite ?contents_body, ?B; reflexivity. Qed.
Lemma last_object : forall w h x l', length l' = length (w_handles w) -> new_object w (mk_world h (l' ++ [Some x])) x.
Proof. intros w h x l' L. unfold new_object, is. cbn [w_handles]. rewrite <- L, nth_error_app2, Nat.sub_diag by lia. reflexivity. Qed.

(** An object that keeps what it refers to. *)
Lemma owns_value : forall p t b, owns (H_value p t) b -> p = Some b.
Proof. intros p t b O. inversion O. reflexivity. Qed.
Lemma owns_position : forall p v b, owns (H_position v p) b -> p = Some b.
Proof. intros p t b O. inversion O. reflexivity. Qed.

Lemma derived_same : forall w c i x b w', reachable w -> proper w c -> derives i c -> is w i x -> refers w x = Some b -> do_call w c = Ok (A_done, w') ->
  exists y, new_object w w' y /\ refers w' y = Some b /\ (owns x b -> c <> K_get i -> owns y b).
Proof.
  intros w c i x b w' H P D E Rf Q. pose proof (reachable_right w H) as (Sd & G). pose proof (G i x E) as Gx.
  assert (Is : forall x', is w i x' -> x' = x) by (intros x' E'; unfold is in *; congruence).
  destruct D; cbn [do_call] in Q; rewrite (object_is _ _ _ E) in Q; cbn [obind] in Q; cbn [proper] in P.
  - assert (Same : forall p, (get (y, h1) := (get h1 := retain_if (w_heap w) p; Ok (x, h1)); add_object w h1 y) = Ok (A_done, w') -> exists y, new_object w w' y /\ refers w' y = Some b /\ (owns x b -> K_copy i <> K_get i -> owns y b)).
    { intros p Q1. destruct (retain_if (w_heap w) p) as [h1| |] eqn:Re; cbn [obind] in Q1; try discriminate Q1. unfold add_object in Q1. injection Q1 as <-.
      exists x. split; [apply last_object; reflexivity|]. split; [|auto]. rewrite <- Rf. apply refers_body. apply (retain_if_body _ _ _ Re). }
    destruct x as [p|p|p|p t|p [v|]|v p|d|t]; cbn [copy_handle] in Q; try (eapply Same; exact Q); try discriminate Q.
    + destruct p as [r|]; [|destruct Gx]. destruct Gx as (_ & V). rewrite (read_right _ _ _ V) in Q. cbn [obind retain_if] in Q.
      destruct (retain (w_heap w) r) as [h1| |] eqn:Re; cbn [obind] in Q; try discriminate Q. cbn [allocate] in Q. unfold add_object in Q. injection Q as <-.
      cbn [refers] in Rf. rewrite contents_body, V in Rf. injection Rf as <-.
      eexists. split; [apply last_object; reflexivity|]. split; [|intros; constructor]. cbn [refers]. rewrite contents_body. cbn [w_heap]. rewrite alloc_body. reflexivity.
    + cbn [obind] in Q. unfold add_object in Q. injection Q as <-. exists (H_view d). split; [apply last_object; reflexivity|]. split; [exact Rf|auto].
    + cbn [obind] in Q. unfold add_object in Q. injection Q as <-. exists (H_text t). split; [apply last_object; reflexivity|]. split; [exact Rf|auto].
  - injection Q as <-. exists x. split; [apply last_object; apply set_object_length|]. split; [|auto]. rewrite <- Rf. apply refers_body. reflexivity.
  - destruct P as (p & E'). apply Is in E'. subst x. destruct p as [it|]; [|discriminate Rf].
    destruct (retain (w_heap w) (last (i_results it) 0)) as [h1| |]; cbn [obind] in Q; try discriminate Q. unfold add_object in Q. injection Q as <-.
    cbn [refers] in Rf. injection Rf as <-. eexists. split; [apply last_object; reflexivity|]. split; [reflexivity|intros; constructor].
  - destruct P as (r & E'). apply Is in E'. subst x. destruct (read_results (w_heap w) r); cbn [obind] in Q; try discriminate Q.
    destruct (retain (w_heap w) r) as [h1| |]; cbn [obind] in Q; try discriminate Q. unfold add_object in Q. injection Q as <-.
    cbn [refers] in Rf. injection Rf as <-. eexists. split; [apply last_object; reflexivity|]. split; [reflexivity|intros; constructor].
  - destruct P as [(r & E')|(p & t & E')]; apply Is in E'; subst x.
    + destruct (read_results (w_heap w) r); cbn [obind] in Q; try discriminate Q.
      destruct (retain (w_heap w) r) as [h1| |]; cbn [obind] in Q; try discriminate Q. cbn [allocate] in Q. unfold add_object in Q. injection Q as <-.
      cbn [refers] in Rf. injection Rf as <-.
      eexists. split; [apply last_object; reflexivity|]. split; [|intros; constructor]. cbn [refers]. rewrite contents_body. cbn [w_heap]. rewrite alloc_body. reflexivity.
    + cbn [refers] in Rf. subst t. destruct p as [r|].
      * destruct (read (w_heap w) b); cbn [obind] in Q; try discriminate Q.
        destruct (retain (w_heap w) r) as [h1| |]; cbn [obind] in Q; try discriminate Q. cbn [allocate] in Q. unfold add_object in Q. injection Q as <-.
        eexists. split; [apply last_object; reflexivity|]. split; [|intros O _; apply owns_value in O; injection O as ->; constructor].
        cbn [refers]. rewrite contents_body. cbn [w_heap]. rewrite alloc_body. reflexivity.
      * discriminate Q.
  - destruct P as (p & v & E'). apply Is in E'. subst x. destruct v as [v|]; [|discriminate Rf]. destruct p as [r|]; [|destruct Gx]. destruct Gx as (_ & V).
    cbn [refers] in Rf. rewrite contents_body, V in Rf. injection Rf as <-.
    destruct (body_cell _ _ _ V) as (n & Cv). rewrite Cv in Q. cbn [retain_if] in Q. destruct (retain (w_heap w) r) as [h1| |]; cbn [obind] in Q; try discriminate Q.
    unfold add_object in Q. injection Q as <-. eexists. split; [apply last_object; reflexivity|]. split; [reflexivity|intros; constructor].
  - destruct P as (p & v & E'). apply Is in E'. subst x. destruct p as [r|]; [|destruct Gx]. destruct Gx as (_ & V).
    cbn [retain_if] in Q. destruct (retain (w_heap w) r) as [h1| |] eqn:Re; cbn [obind] in Q; try discriminate Q.
    unfold add_object in Q. injection Q as <-. exists (H_position v (Some r)). split; [apply last_object; reflexivity|]. split.
    + rewrite <- Rf. change (refers w (H_values (Some r) (Some v))) with (refers w (H_position v (Some r))). apply refers_body. apply (retain_body _ _ _ Re).
    + cbn [refers] in Rf. rewrite contents_body, V in Rf. injection Rf as <-. intros. constructor.
  - destruct P as (v & p & E' & _). apply Is in E'. subst x. cbn [refers] in Rf. rewrite contents_body in Rf. unfold body in Rf.
    destruct (cell (w_heap w) v) as [[n [|d c s|t]]|]; try discriminate Rf. destruct (retain_if (w_heap w) p) as [h1| |]; cbn [obind] in Q; try discriminate Q.
    unfold add_object in Q. injection Q as <-. eexists. split; [apply last_object; reflexivity|]. split; [exact Rf|]. intros O _. apply owns_position in O. subst p. constructor.
  - destruct P as (p & t & E'). apply Is in E'. subst x. cbn [refers] in Rf. subst t. unfold add_object in Q. injection Q as <-. eexists. split; [apply last_object; reflexivity|].
    split; [reflexivity|]. intros _ N. congruence.
Qed.

Lemma assigned : forall w i j y w' a, reachable w -> proper w (K_assign i j) -> is w j y -> do_call w (K_assign i j) = Ok (a, w') ->
  (forall v p, y = H_position v p -> exists k q, is w k (H_values q (Some v))) ->
  exists z, is w' i z /\ refers w' z = refers w y /\ forall b, refers w y = Some b -> owns y b -> owns z b.
Proof.
  intros w i j y w' a H P Ey Q Pos. pose proof (reachable_right w H) as (Sd & G). pose proof (G j y Ey) as Gy.
  assert (R' : right w') by (apply reachable_right; eapply reach_call; eassumption). destruct R' as (Sd' & G').
  assert (O : forall k u, is w k u -> k <> i -> is w' k u) by (intros k u Eu N; eapply (others_same w _ a w' k u H P Q Eu); exact N).
  pose proof P as (x & y' & Ex & Ey' & K & Cp). assert (y' = y) by (unfold is in *; congruence). subst y'. cbn [do_call] in Q.
  rewrite (object_is _ _ _ Ex), (object_is _ _ _ Ey) in Q. cbn [obind] in Q. destruct (same_type x y); [|discriminate Q].
  destruct (copy_handle (w_heap w) y) as [[z h1]| |] eqn:C; cbn [obind] in Q; try discriminate Q.
  destruct (release h1 (owned x)) as [h2| |] eqn:Re; cbn [obind] in Q; try discriminate Q. injection Q as <- <-.
  assert (Ez : is (mk_world h2 (set_object (w_handles w) i (Some z))) i z) by (unfold is; cbn [w_handles]; rewrite (nth_set _ _ _ _ _ Ex), Nat.eqb_refl; reflexivity).
  exists z. split; [exact Ez|]. pose proof (G' i z Ez) as Gz. cbn [w_heap] in Gz.
  assert (Same : forall p, (get h1 := retain_if (w_heap w) p; Ok (y, h1)) = Ok (z, h1) -> z = y).
  { intros p Q1. destruct (retain_if (w_heap w) p); cbn [obind] in Q1; try discriminate Q1. congruence. }
  destruct y as [p|p|p|p t|p [v|]|v p|d|t]; cbn [copy_handle] in C; try discriminate C.
  - rewrite (Same p C). split; [reflexivity|auto].
  - rewrite (Same p C). split; [reflexivity|auto].
  - destruct p as [r|]; [|destruct Gy]. destruct Gy as (_ & V). rewrite (read_right _ _ _ V) in C. cbn [obind retain_if] in C.
    destruct (retain (w_heap w) r) as [h0| |]; cbn [obind] in C; try discriminate C. cbn [allocate] in C. injection C as <- <-.
    destruct Gz as (_ & Vz). cbn [refers]. rewrite !contents_body, V. cbn [w_heap]. rewrite Vz. split; [reflexivity|]. intros b X _. injection X as <-. constructor.
  - rewrite (Same p C). split; [reflexivity|auto].
  - rewrite (Same p C). destruct (Pos v p eq_refl) as (k & q & Ek).
    assert (Nk : k <> i) by (intros ->; assert (X : x = H_values q (Some v)) by (unfold is in *; congruence); subst x; discriminate K).
    pose proof (G k _ Ek) as Gk. pose proof (G' k _ (O k _ Ek Nk)) as Gk'. destruct q as [q|]; [|destruct Gk]. destruct Gk as (_ & Vk), Gk' as (_ & Vk').
    cbn [refers]. rewrite !contents_body. cbn [w_heap] in *. rewrite Vk, Vk'. split; [reflexivity|auto].
  - injection C as <- <-. split; [reflexivity|auto].
  - injection C as <- <-. split; [reflexivity|auto].
Qed.
Lemma moved_nothing : forall x b, ~ owns (moved_from x) b.
Proof. intros x b O. apply owns_owned in O. destruct x as [p|[it|]|p|p t|p v|v p|d|t]; exact O. Qed.
Lemma moved : forall w i x w' a, is w i x -> do_call w (K_move i) = Ok (a, w') ->
  new_object w w' x /\ exists z, is w' i z /\ kind z = kind x /\ forall b, ~ owns z b.
Proof.
  intros w i x w' a E Q. cbn [do_call] in Q. rewrite (object_is _ _ _ E) in Q. cbn [obind] in Q. injection Q as <- <-.
  split; [apply last_object; apply set_object_length|]. exists (moved_from x). split; [|split; [destruct x; reflexivity|apply moved_nothing]].
  unfold is. cbn [w_handles]. rewrite nth_error_app1 by (rewrite set_object_length; eapply is_length; exact E). rewrite (nth_set _ _ _ _ _ E), Nat.eqb_refl. reflexivity.
Qed.
Lemma move_assigned : forall w i j y w' a, is w j y -> do_call w (K_move_assign i j) = Ok (a, w') ->
  is w' i y /\ (i <> j -> exists z, is w' j z /\ kind z = kind y /\ forall b, ~ owns z b).
Proof.
  intros w i j y w' a Ey Q. cbn [do_call] in Q. rewrite (object_is _ _ _ Ey) in Q. cbn [obind] in Q.
  set (l1 := set_object (w_handles w) j (Some (moved_from y))) in Q. unfold object in Q. cbn [w_handles] in Q.
  destruct (nth_error l1 i) as [[x|]|] eqn:Ex; cbn [obind] in Q; try discriminate Q. destruct (same_type x y); [|discriminate Q].
  destruct (release (w_heap w) (owned x)) as [h1| |]; cbn [obind] in Q; try discriminate Q. injection Q as <- <-. unfold is. cbn [w_handles]. split.
  - rewrite (nth_set _ _ _ _ _ Ex), Nat.eqb_refl. reflexivity.
  - intros N. exists (moved_from y). split; [|split; [destruct y; reflexivity|apply moved_nothing]]. rewrite (nth_set _ _ _ _ _ Ex).
    destruct (Nat.eqb j i) eqn:Qe; [apply Nat.eqb_eq in Qe; congruence|]. unfold l1. rewrite (nth_set _ _ _ _ _ Ey), Nat.eqb_refl. reflexivity.
Qed.
Lemma destroyed : forall w i w' a, do_call w (K_destroy i) = Ok (a, w') -> forall x, ~ is w' i x.
Proof.
  intros w i w' a Q x E. cbn [do_call] in Q. unfold object in Q. destruct (nth_error (w_handles w) i) as [[y|]|] eqn:Ey; cbn [obind] in Q; try discriminate Q.
  destruct (release (w_heap w) (owned y)); cbn [obind] in Q; try discriminate Q. injection Q as <- <-. unfold is in E. cbn [w_handles] in E.
  rewrite (nth_set _ _ _ _ _ Ey), Nat.eqb_refl in E. discriminate E.
Qed.

(** Used-up parsers. *)
Lemma add_made_keep : forall l y h a w' i x, add_made l y h = Ok (a, w') -> nth_error l i = Some x -> nth_error (w_handles w') i = Some x.
Proof.
  intros l [y|] h a w' i x Q E; cbn [add_made] in Q; injection Q as <- <-; cbn [w_handles]; [|exact E].
  rewrite nth_error_app1; [exact E|]. apply nth_error_Some. congruence.
Qed.
Lemma parse_uses_up : forall w i p a w', do_call w (K_parse i false p) = Ok (a, w') -> is w' i (H_parser None).
Proof.
  intros w i p a w' Q. cbn [do_call] in Q. unfold object in Q. destruct (nth_error (w_handles w) i) as [[x|]|] eqn:E; cbn [obind] in Q; try discriminate Q.
  destruct x as [[d|]| | | | | | |]; try discriminate Q.
  - destruct (parse_arguments (w_heap w) d p) as [[y h1]| |]; cbn [obind] in Q; try discriminate Q. eapply add_made_keep; [exact Q|].
    rewrite (nth_set _ _ _ _ _ E), Nat.eqb_refl. reflexivity.
  - unfold thrown in Q. injection Q as <- <-. exact E.
Qed.
Lemma iterator_uses_up : forall w i f a w', do_call w (K_iterator i false f) = Ok (a, w') -> is w' i (H_parser None).
Proof.
  intros w i p a w' Q. cbn [do_call] in Q. unfold object in Q. destruct (nth_error (w_handles w) i) as [[x|]|] eqn:E; cbn [obind] in Q; try discriminate Q.
  destruct x as [[d|]| | | | | | |]; try discriminate Q.
  - destruct (make_argument_iterator (w_heap w) d p) as [[y h1]| |]; cbn [obind] in Q; try discriminate Q. eapply add_made_keep; [exact Q|].
    rewrite (nth_set _ _ _ _ _ E), Nat.eqb_refl. reflexivity.
  - unfold thrown in Q. injection Q as <- <-. exact E.
Qed.
Lemma used_up_throws : forall w i, is w i (H_parser None) ->
  (forall k p, do_call w (K_parse i k p) = Ok (A_thrown, w)) /\ (forall k f, do_call w (K_iterator i k f) = Ok (A_thrown, w)) /\ do_call w (K_read i) = Ok (A_thrown, w).
Proof. intros w i E. split; [|split]; intros; cbn [do_call]; rewrite (object_is _ _ _ E); reflexivity. Qed.


(** What the results are of: with a const parser, a new definition. *)
Lemma const_parse_new : forall w i p w', reachable w -> proper w (K_parse i true p) -> do_call w (K_parse i true p) = Ok (A_done, w') ->
  exists r d c s, new_object w w' (H_results (Some r)) /\ contents w' r = Some (B_results d c s) /\ ~ exists_ w d /\ ~ exists_ w r.
Proof.
  intros w i p w' H P Q. pose proof (reachable_right w H) as (Sd & G). destruct P as (q & E). pose proof (G i _ E) as D. cbn [do_call] in Q.
  rewrite (object_is _ _ _ E) in Q. cbn [obind] in Q. destruct q as [d|]; [|discriminate Q]. cbn [good] in D. unfold copy_data in Q.
  rewrite (read_right _ _ _ D) in Q. cbn [obind] in Q.
  destruct (sound_alloc (w_heap w) (all_owned (w_handles w)) B_data Sd) as (S1 & L1 & E1 & F1); [intros ? ? ? X; discriminate X|].
  destruct (parse_right _ _ _ p S1 E1) as (y & h2 & Pa & S2 & L2 & G2 & N2). cbn [allocate fst snd] in *. rewrite Pa in Q. cbn [obind] in Q.
  destruct y as [y|]; [|discriminate Q]. destruct (N2 y eq_refl) as (r & c & s & -> & Lr & Er). cbn [add_made] in Q. injection Q as <-.
  assert (No : forall b, length (w_heap w) <= b -> ~ exists_ w b).
  { intros b Lb X. unfold exists_ in X. rewrite contents_body in X. destruct (body (w_heap w) b) as [z|] eqn:Eb; [|congruence]. apply body_length in Eb. lia. }
  exists r, (length (w_heap w)), c, s. split; [apply last_object; reflexivity|]. split; [rewrite contents_body; exact Er|]. split; apply No; [lia|].
  destruct L1 as (L1 & _). lia.
Qed.
Lemma parse_same : forall w i d p w', reachable w -> is w i (H_parser (Some d)) -> do_call w (K_parse i false p) = Ok (A_done, w') ->
  exists r c s, new_object w w' (H_results (Some r)) /\ contents w' r = Some (B_results d c s) /\ ~ exists_ w r.
Proof.
  intros w i d p w' H E Q. pose proof (reachable_right w H) as (Sd & G). pose proof (G i _ E) as D. cbn [do_call] in Q.
  rewrite (object_is _ _ _ E) in Q. cbn [obind] in Q. cbn [good] in D.
  destruct (used_up w i d E) as (U1 & U2 & U3).
  destruct (parse_right (w_heap w) _ d p (sound_same _ _ _ U1 Sd) D) as (y & h2 & Pa & S2 & L2 & G2 & N2). rewrite Pa in Q. cbn [obind] in Q.
  destruct y as [y|]; [|discriminate Q]. destruct (N2 y eq_refl) as (r & c & s & -> & Lr & Er). cbn [add_made] in Q. injection Q as <-.
  exists r, c, s. split; [apply last_object; apply set_object_length|]. split; [rewrite contents_body; exact Er|].
  intros X. unfold exists_ in X. rewrite contents_body in X. destruct (body (w_heap w) r) as [z|] eqn:Eb; [|congruence]. apply body_length in Eb. lia.
Qed.

Lemma new_iterator_of : forall w i k d f w', reachable w -> is w i (H_parser (Some d)) -> do_call w (K_iterator i k f) = Ok (A_done, w') ->
  exists it, new_object w w' (H_iterator (Some it)) /\ (k = false -> i_data it = d) /\ (k = true -> ~ exists_ w (i_data it)) /\
    exists r, i_results it = [r] /\ ~ exists_ w r /\ contents w' r = Some (B_results (i_data it) (i_data it) []).
Proof.
  intros w i k d f w' H E Q. pose proof (reachable_right w H) as (Sd & G). pose proof (G i _ E) as D. cbn [good] in D.
  assert (No : forall b, length (w_heap w) <= b -> ~ exists_ w b).
  { intros b Lb X. unfold exists_ in X. rewrite contents_body in X. destruct (body (w_heap w) b) as [z|] eqn:Eb; [|congruence]. apply body_length in Eb. lia. }
  assert (Mk : forall h roots e y h', sound h (e :: roots) -> body h e = Some B_data -> length (w_heap w) <= length h -> make_argument_iterator h e f = Ok (Some y, h') ->
    exists r, y = H_iterator (Some (mk_impl e e [r])) /\ ~ exists_ w r /\ body h' r = Some (B_results e e [])).
  { intros h roots e y h' S1 D1 Le M. unfold make_argument_iterator in M. rewrite (read_right _ _ _ D1) in M. cbn [obind] in M. destruct f.
    - destruct (sound_retain h (e :: roots) e S1 ltac:(rewrite D1; discriminate)) as (h1 & R1 & S2 & L2 & B2). rewrite R1 in M. cbn [obind] in M.
      unfold new_iterator in M. destruct (new_results_right h1 (e :: e :: roots) e S2 ltac:(rewrite B2; exact D1)) as (r & h2 & N2 & S3 & L3 & E3 & F3). rewrite N2 in M. cbn [obind] in M.
      destruct (sound_release h2 [e] (r :: e :: roots)) as (h3 & R3 & S4 & L4).
      { eapply sound_same; [|exact S3]. intros b. cbn [app]. rewrite !occ_cons. lia. }
      rewrite R3 in M. cbn [obind] in M. injection M as <- <-. exists r. split; [reflexivity|]. split; [apply No; destruct L2; lia|].
      assert (Lr : body h3 r <> None) by (eapply sound_live; [exact S4|left; reflexivity]).
      assert (B3 : body h3 r = body h2 r).
      { destruct (later_results _ _ _ _ _ _ L4 E3 Lr) as (m & E4).
        unfold release in R3. destruct (release_right h2 [e] (r :: e :: roots)) as (h4 & R4 & _ & _ & B4).
        - eapply counts_same; [|exact (proj1 S3)]. intros b. cbn [app]. rewrite !occ_cons. lia.
        - unfold release in R4. rewrite R3 in R4. injection R4 as <-. destruct (B4 r) as [X|X]; [exact X|congruence]. }
      rewrite B3. exact E3.
    - destruct (release h [e]); cbn [obind] in M; discriminate M. }
  cbn [do_call] in Q. rewrite (object_is _ _ _ E) in Q. cbn [obind] in Q. destruct k.
  - unfold copy_data in Q. rewrite (read_right _ _ _ D) in Q. cbn [obind] in Q.
    destruct (sound_alloc (w_heap w) (all_owned (w_handles w)) B_data Sd) as (S1 & L1 & E1 & F1); [intros ? ? ? X; discriminate X|]. cbn [allocate fst snd] in *.
    destruct (make_argument_iterator (w_heap w ++ [Some (1, B_data)]) (length (w_heap w)) f) as [[[y|] h2]| |] eqn:M; cbn [obind add_made] in Q; try discriminate Q.
    destruct (Mk _ _ _ _ _ S1 E1 (proj1 L1) M) as (r & -> & Nr & Er). injection Q as <-.
    eexists. split; [apply last_object; reflexivity|]. cbn [i_data i_results]. split; [discriminate|]. split; [intros _; apply No; lia|]. exists r. split; [reflexivity|]. split; [exact Nr|].
    rewrite contents_body. exact Er.
  - destruct (used_up w i d E) as (U1 & U2 & U3).
    destruct (make_argument_iterator (w_heap w) d f) as [[[y|] h2]| |] eqn:M; cbn [obind add_made] in Q; try discriminate Q.
    destruct (Mk _ _ _ _ _ (sound_same _ _ _ U1 Sd) D (Nat.le_refl _) M) as (r & -> & Nr & Er). injection Q as <-.
    eexists. split; [apply last_object; apply set_object_length|]. cbn [i_data i_results]. split; [reflexivity|]. split; [discriminate|]. exists r. split; [reflexivity|]. split; [exact Nr|].
    rewrite contents_body. exact Er.
Qed.

(** The views of an object are of the definition that its results keep. *)
Lemma view_of : forall w i x r d c s w', reachable w -> is w i x -> results_of x = Some r -> contents w r = Some (B_results d c s) ->
  do_call w (K_view i) = Ok (A_done, w') -> new_object w w' (H_view d).
Proof.
  intros w i x r d c s w' H E Rx C Q. pose proof (reachable_right w H) as (Sd & G). rewrite contents_body in C. destruct (proj2 Sd _ _ _ _ C) as (-> & D & _).
  cbn [do_call] in Q. rewrite (object_is _ _ _ E) in Q. cbn [obind] in Q.
  destruct x as [p|p|[q|]|[q|] t|[q|] v|v p|e|t]; cbn [results_of] in Rx; try discriminate Rx; injection Rx as ->;
    rewrite (read_results_right _ _ _ _ _ C) in Q; cbn [obind] in Q; rewrite (read_right _ _ _ D) in Q; cbn [obind] in Q; unfold add_object in Q; injection Q as <-;
    apply last_object; reflexivity.
Qed.

Lemma subcommand_of : forall w i n r d c s b w' a, is w i (H_results (Some r)) -> contents w r = Some (B_results d c s) -> nth_error s n = Some b ->
  do_call w (K_subcommand i n) = Ok (a, w') -> new_object w w' (H_results (Some b)).
Proof.
  intros w i n r d c s b w' a E C N Q. rewrite contents_body in C. cbn [do_call] in Q. rewrite (object_is _ _ _ E) in Q. cbn [obind] in Q.
  rewrite (read_results_right _ _ _ _ _ C) in Q. cbn [obind] in Q. rewrite N in Q. destruct (retain (w_heap w) b); cbn [obind] in Q; try discriminate Q.
  unfold add_object in Q. injection Q as <- <-. apply last_object. reflexivity.
Qed.
Lemma next_of : forall w i it l w' a, reachable w -> is w i (H_iterator (Some it)) -> do_call w (K_next i l) = Ok (a, w') ->
  exists it', is w' i (H_iterator (Some it')) /\ i_data it' = i_data it /\ hd 0 (i_results it') = hd 0 (i_results it) /\
    is w' (length (w_handles w)) (H_view (i_data it)) /\ is w' (S (length (w_handles w))) (H_text (last (i_results it') 0)).
Proof.
  intros w i it l w' a H E Q. pose proof (reachable_right w H) as (Sd & G). pose proof (G i _ E) as Gi. cbn [good] in Gi.
  set (others := all_owned (set_object (w_handles w) i None)).
  assert (Oc : forall b, occ b (all_owned (w_handles w)) = occ b (impl_roots it ++ others)).
  { intros b. pose proof (all_owned_set _ _ _ None b E) as X. cbn [owned_if owned] in X. rewrite occ_nil in X. unfold others. rewrite occ_app. unfold impl_roots. lia. }
  destruct (steps_right l (w_heap w) others it (sound_same _ _ _ Oc Sd) Gi) as (it1 & h1 & St & S1 & L1 & G1 & D1 & T1).
  cbn [do_call] in Q. rewrite (object_is _ _ _ E) in Q. cbn [obind] in Q. rewrite St in Q. cbn [obind] in Q. destruct G1 as (G1a & G1b & _).
  rewrite G1a, (read_right _ _ _ G1b) in Q. cbn [obind] in Q. injection Q as <- <-. exists it1. unfold is. cbn [w_handles].
  pose proof (is_length _ _ _ E) as Li. split; [|split; [exact D1|split; [exact T1|split]]].
  - rewrite nth_error_app1 by (rewrite set_object_length; exact Li). rewrite (nth_set _ _ _ _ _ E), Nat.eqb_refl. reflexivity.
  - rewrite nth_error_app2 by (rewrite set_object_length; lia). rewrite set_object_length, Nat.sub_diag, D1. reflexivity.
  - rewrite nth_error_app2 by (rewrite set_object_length; lia). rewrite set_object_length. replace (S (length (w_handles w)) - length (w_handles w)) with 1 by lia. reflexivity.
Qed.
