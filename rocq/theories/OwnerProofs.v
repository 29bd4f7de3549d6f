(** Proofs for POwner.v: reference counts. *)
From Verif Require Import Base MOwner SOwner.

(* ------------------------------------------------------------------------ *)
(** ** The heap *)

Definition body (h : heap) (b : nat) : option block := match cell h b with Some (_, x) => Some x | None => None end.
Lemma contents_body : forall w b, contents w b = body (w_heap w) b.
Proof. intros w b. unfold contents, body, cell. destruct (nth_error (w_heap w) b) as [[[n x]|]|]; reflexivity. Qed.

Lemma put_length : forall h b c, length (put h b c) = length h.
Proof. induction h as [|x h IH]; intros [|b] c; cbn; auto. Qed.
Lemma cell_put : forall h b c a, b < length h -> cell (put h b c) a = if Nat.eqb a b then c else cell h a.
Proof.
  unfold cell. induction h as [|x h IH]; intros b c a L; [cbn in L; lia|]. destruct b as [|b].
  - destruct a; reflexivity.
  - destruct a as [|a]; [reflexivity|]. cbn. apply IH. cbn in L. lia.
Qed.
Lemma cell_some : forall h b n x, cell h b = Some (n, x) -> b < length h.
Proof. intros h b n x E. unfold cell in E. apply nth_error_Some. intros N. rewrite N in E. discriminate E. Qed.
Lemma body_cell : forall h b x, body h b = Some x -> exists n, cell h b = Some (n, x).
Proof. intros h b x E. unfold body in E. destruct (cell h b) as [[n y]|]; [|discriminate E]. injection E as ->. eauto. Qed.
Lemma cell_body : forall h b n x, cell h b = Some (n, x) -> body h b = Some x.
Proof. intros h b n x E. unfold body. rewrite E. reflexivity. Qed.
Lemma body_length : forall h b x, body h b = Some x -> b < length h.
Proof. intros h b x E. destruct (body_cell _ _ _ E) as (n & E1). eapply cell_some. exact E1. Qed.
Lemma cell_alloc : forall h c a, cell (h ++ [c]) a = if Nat.eqb a (length h) then c else cell h a.
Proof.
  intros h c a. unfold cell. destruct (Nat.eqb a (length h)) eqn:E.
  - apply Nat.eqb_eq in E. subst a. rewrite nth_error_app2, Nat.sub_diag by lia. reflexivity.
  - apply Nat.eqb_neq in E. destruct (Nat.lt_ge_cases a (length h)).
    + rewrite nth_error_app1 by lia. reflexivity.
    + rewrite (proj2 (nth_error_None _ _)) by (rewrite app_length; cbn; lia). rewrite (proj2 (nth_error_None h a)) by lia. reflexivity.
Qed.

(* ------------------------------------------------------------------------ *)
(** ** Counting *)

Definition occ (b : nat) (l : list nat) : nat := count_occ Nat.eq_dec l b.
Lemma occ_app : forall b l r, occ b (l ++ r) = occ b l + occ b r.
Proof. intros b l r. unfold occ. induction l as [|x l IH]; [reflexivity|]. cbn. destruct (Nat.eq_dec x b); lia. Qed.
Lemma occ_cons : forall b x l, occ b (x :: l) = (if Nat.eq_dec x b then 1 else 0) + occ b l.
Proof. intros b x l. unfold occ. cbn. destruct (Nat.eq_dec x b); lia. Qed.
Lemma occ_nil : forall b, occ b [] = 0.
Proof. reflexivity. Qed.
Lemma occ_in : forall b l, In b l <-> occ b l > 0.
Proof. intros b l. unfold occ. apply count_occ_In. Qed.

Definition cell_members (c : option (nat * block)) : list nat := match c with Some (_, x) => members x | None => [] end.
Lemma pointers_put : forall h b c a, b < length h ->
  occ a (pointers (put h b c)) + occ a (cell_members (cell h b)) = occ a (pointers h) + occ a (cell_members c).
Proof.
  unfold pointers, cell. induction h as [|x h IH]; intros b c a L; [cbn in L; lia|]. destruct b as [|b]; cbn [put flat_map nth_error].
  - rewrite !occ_app. unfold cell_members. lia.
  - rewrite !occ_app. specialize (IH b c a ltac:(cbn in L; lia)). lia.
Qed.
Lemma pointers_put_length : forall h b c, b < length h ->
  length (pointers (put h b c)) + length (cell_members (cell h b)) = length (pointers h) + length (cell_members c).
Proof.
  unfold pointers, cell. induction h as [|x h IH]; intros b c L; [cbn in L; lia|]. destruct b as [|b]; cbn [put flat_map nth_error].
  - rewrite !app_length. unfold cell_members. lia.
  - rewrite !app_length. specialize (IH b c ltac:(cbn in L; lia)). lia.
Qed.
Lemma pointers_alloc : forall h c a, occ a (pointers (h ++ [c])) = occ a (pointers h) + occ a (cell_members c).
Proof.
  intros h c a. unfold pointers. rewrite flat_map_app, occ_app. cbn [flat_map]. rewrite app_nil_r. reflexivity.
Qed.
Lemma pointers_in : forall h a x b, cell h a = Some x -> In b (members (snd x)) -> In b (pointers h).
Proof.
  intros h a [n x] b E I. unfold pointers. apply in_flat_map. exists (Some (n, x)). split; [|exact I].
  unfold cell in E. destruct (nth_error h a) as [c|] eqn:N; [|discriminate E]. subst c. eapply nth_error_In. exact N.
Qed.
Lemma in_pointers : forall h b, In b (pointers h) -> exists a n x, cell h a = Some (n, x) /\ In b (members x).
Proof.
  intros h b I. unfold pointers in I. apply in_flat_map in I. destruct I as ([[n x]|] & I & J); [|destruct J].
  apply In_nth_error in I. destruct I as (a & E). exists a, n, x. unfold cell. rewrite E. auto.
Qed.

(** The counts are right: [roots] are the pointers outside of the heap. *)
Definition counts (h : heap) (roots : list nat) : Prop := forall b,
  match cell h b with
  | Some (n, _) => n = occ b roots + occ b (pointers h) /\ n > 0
  | None => occ b roots + occ b (pointers h) = 0
  end.
Lemma counts_same : forall h r1 r2, (forall b, occ b r1 = occ b r2) -> counts h r1 -> counts h r2.
Proof. intros h r1 r2 E C b. specialize (C b). rewrite (E b) in C. exact C. Qed.
Lemma counts_live : forall h roots b, counts h roots -> In b roots \/ In b (pointers h) -> exists n x, cell h b = Some (n, x).
Proof.
  intros h roots b C I. specialize (C b). destruct (cell h b) as [[n x]|]; [eauto|]. exfalso. destruct I as [I|I]; apply occ_in in I; lia.
Qed.

Lemma retain_right : forall h roots b, counts h roots -> body h b <> None ->
  exists h', retain h b = Ok h' /\ counts h' (b :: roots) /\ length h' = length h /\ forall a, body h' a = body h a.
Proof.
  intros h roots b C L. unfold body in L. unfold retain. destruct (cell h b) as [[n x]|] eqn:E; [|congruence]. clear L.
  pose proof (cell_some _ _ _ _ E) as Lb. eexists. split; [reflexivity|]. split; [|split; [apply put_length|]].
  - intros a. rewrite cell_put by exact Lb. pose proof (pointers_put h b (Some (S n, x)) a Lb) as P. rewrite E in P. cbn [cell_members] in P.
    rewrite occ_cons. pose proof (C a) as Ca. destruct (Nat.eqb a b) eqn:Ab.
    + apply Nat.eqb_eq in Ab. subst a. rewrite E in Ca. destruct (Nat.eq_dec b b); [lia|congruence].
    + apply Nat.eqb_neq in Ab. destruct (Nat.eq_dec b a); [congruence|]. destruct (cell h a) as [[m y]|]; lia.
  - intros a. unfold body. rewrite cell_put by exact Lb. destruct (Nat.eqb a b) eqn:Ab; [|reflexivity]. apply Nat.eqb_eq in Ab. subst a. rewrite E. reflexivity.
Qed.
Lemma fresh_occ : forall h roots, counts h roots -> occ (length h) roots + occ (length h) (pointers h) = 0.
Proof.
  intros h roots C. specialize (C (length h)). destruct (cell h (length h)) as [[n x]|] eqn:E; [|exact C]. apply cell_some in E. lia.
Qed.
Lemma alloc_right : forall h roots x, counts h (members x ++ roots) ->
  counts (h ++ [Some (1, x)]) (length h :: roots).
Proof.
  intros h roots x C a. rewrite cell_alloc, pointers_alloc, occ_cons. cbn [cell_members]. pose proof (C a) as Ca. rewrite occ_app in Ca.
  destruct (Nat.eqb a (length h)) eqn:E.
  - apply Nat.eqb_eq in E. subst a. destruct (Nat.eq_dec (length h) (length h)); [|congruence].
    pose proof (fresh_occ _ _ C) as F. rewrite occ_app in F. lia.
  - apply Nat.eqb_neq in E. destruct (Nat.eq_dec (length h) a); [congruence|]. destruct (cell h a) as [[k y]|]; lia.
Qed.
Lemma put_right : forall h roots b n x y extra, counts h (extra ++ roots) -> cell h b = Some (n, x) -> members y = members x ++ extra ->
  counts (put h b (Some (n, y))) roots.
Proof.
  intros h roots b n x y extra C E M a. pose proof (cell_some _ _ _ _ E) as Lb. rewrite cell_put by exact Lb.
  pose proof (pointers_put h b (Some (n, y)) a Lb) as P. rewrite E in P. cbn [cell_members] in P. rewrite M, occ_app in P.
  pose proof (C a) as Ca. rewrite occ_app in Ca. destruct (Nat.eqb a b) eqn:Ab.
  - apply Nat.eqb_eq in Ab. subst a. rewrite E in Ca. lia.
  - destruct (cell h a) as [[m z]|]; lia.
Qed.

Lemma drop_right : forall fuel h ps roots, counts h (ps ++ roots) -> length ps + length (pointers h) <= fuel ->
  exists h', drop fuel h ps = Ok h' /\ counts h' roots /\ length h' = length h /\ forall a, body h' a = body h a \/ body h' a = None.
Proof.
  induction fuel as [|fuel IH]; intros h ps roots C L.
  - destruct ps; [|cbn in L; lia]. exists h. cbn. auto.
  - destruct ps as [|b r]; [exists h; cbn; auto|]. cbn [drop].
    pose proof (C b) as Cb. cbn [app] in Cb. rewrite occ_cons in Cb. destruct (Nat.eq_dec b b) as [_|Ne]; [|congruence].
    destruct (cell h b) as [[n x]|] eqn:E; [|lia]. pose proof (cell_some _ _ _ _ E) as Lb.
    destruct n as [|[|n]]; [lia| |].
    + destruct (IH (put h b None) (members x ++ r) roots) as (h' & D & C' & L' & B').
      * intros a. rewrite cell_put by exact Lb. pose proof (pointers_put h b None a Lb) as P. rewrite E in P. cbn [cell_members] in P. rewrite occ_nil in P.
        pose proof (C a) as Ca. cbn [app] in Ca. rewrite occ_cons in Ca. rewrite <- app_assoc, occ_app. destruct (Nat.eqb a b) eqn:Ab.
        -- apply Nat.eqb_eq in Ab. subst a. lia.
        -- apply Nat.eqb_neq in Ab. destruct (Nat.eq_dec b a); [congruence|]. destruct (cell h a) as [[m y]|]; lia.
      * pose proof (pointers_put_length h b None Lb) as P. rewrite E in P. cbn in P. rewrite app_length. cbn in L. lia.
      * exists h'. split; [exact D|]. split; [exact C'|]. split; [rewrite L'; apply put_length|]. intros a. destruct (B' a) as [B|B]; [|auto].
        rewrite B. unfold body. rewrite cell_put by exact Lb. destruct (Nat.eqb a b); auto.
    + destruct (IH (put h b (Some (S n, x))) r roots) as (h' & D & C' & L' & B').
      * intros a. rewrite cell_put by exact Lb. pose proof (pointers_put h b (Some (S n, x)) a Lb) as P. rewrite E in P. cbn [cell_members] in P.
        pose proof (C a) as Ca. cbn [app] in Ca. rewrite occ_cons in Ca. destruct (Nat.eqb a b) eqn:Ab.
        -- apply Nat.eqb_eq in Ab. subst a. lia.
        -- apply Nat.eqb_neq in Ab. destruct (Nat.eq_dec b a); [congruence|]. destruct (cell h a) as [[m y]|]; lia.
      * pose proof (pointers_put_length h b (Some (S n, x)) Lb) as P. rewrite E in P. cbn in P. cbn in L. lia.
      * exists h'. split; [exact D|]. split; [exact C'|]. split; [rewrite L'; apply put_length|]. intros a. destruct (B' a) as [B|B]; [|auto].
        rewrite B. left. unfold body. rewrite cell_put by exact Lb. destruct (Nat.eqb a b) eqn:Ab; [|reflexivity]. apply Nat.eqb_eq in Ab. subst a. rewrite E. reflexivity.
Qed.
Lemma release_right : forall h ps roots, counts h (ps ++ roots) ->
  exists h', release h ps = Ok h' /\ counts h' roots /\ length h' = length h /\ forall a, body h' a = body h a \/ body h' a = None.
Proof. intros h ps roots C. apply drop_right; [exact C|lia]. Qed.

(* ------------------------------------------------------------------------ *)
(** ** What is in the heap *)

(** Results are of the definition they keep, and sub-commands are made after their parents
    and have the same definition. *)
Definition typed (h : heap) : Prop := forall b d c s, body h b = Some (B_results d c s) ->
  c = d /\ body h d = Some B_data /\
  forall r, In r s -> b < r /\ exists c' s', body h r = Some (B_results d c' s').
(** Blocks do not change, except that they are released and results get more sub-commands. *)
Definition later (h h' : heap) : Prop := length h <= length h' /\
  forall b, b < length h -> match body h b, body h' b with
    | _, None => True
    | None, Some _ => False
    | Some x, Some y => grown x y
    end.
Definition sound (h : heap) (roots : list nat) : Prop := counts h roots /\ typed h.

Lemma grown_refl : forall x, grown x x.
Proof. intros [|d c s|t]; cbn; auto. repeat split. exists []. symmetry. apply app_nil_r. Qed.
Lemma grown_trans : forall x y z, grown x y -> grown y z -> grown x z.
Proof.
  intros [|d c s|t] [|d' c' s'|t'] [|d2 c2 s2|t2]; cbn; try congruence; try (intros; subst; congruence); try tauto.
  - intros (-> & -> & m1 & ->) (-> & -> & m2 & ->). repeat split. exists (m1 ++ m2). rewrite app_assoc. reflexivity.
Qed.
Lemma later_refl : forall h, later h h.
Proof. intros h. split; [lia|]. intros b _. destruct (body h b); [apply grown_refl|exact I]. Qed.
Lemma later_trans : forall a b c, later a b -> later b c -> later a c.
Proof.
  intros a b c (L1 & H1) (L2 & H2). split; [lia|]. intros x Lx. specialize (H1 x Lx). specialize (H2 x ltac:(lia)).
  destruct (body a x), (body b x), (body c x); try tauto. eapply grown_trans; eassumption.
Qed.
Lemma later_same : forall h h', length h' = length h -> (forall a, body h' a = body h a) -> later h h'.
Proof. intros h h' L B. split; [lia|]. intros b _. rewrite B. destruct (body h b); [apply grown_refl|exact I]. Qed.
Lemma later_less : forall h h', length h' = length h -> (forall a, body h' a = body h a \/ body h' a = None) -> later h h'.
Proof. intros h h' L B. split; [lia|]. intros b _. destruct (B b) as [-> | ->]; destruct (body h b); try exact I. apply grown_refl. Qed.
Lemma later_alloc : forall h c, later h (h ++ [c]).
Proof.
  intros h c. split; [rewrite app_length; lia|]. intros b L. unfold body. rewrite cell_alloc. destruct (Nat.eqb b (length h)) eqn:E; [apply Nat.eqb_eq in E; lia|].
  destruct (cell h b) as [[n x]|]; [apply grown_refl|exact I].
Qed.
Lemma later_get : forall h h' b x, later h h' -> body h b = Some x -> body h' b <> None -> exists y, body h' b = Some y /\ grown x y.
Proof.
  intros h h' b x (L & H) E N. specialize (H b (body_length _ _ _ E)). rewrite E in H. destruct (body h' b) as [y|]; [eauto|congruence].
Qed.
Lemma later_data : forall h h' b, later h h' -> body h b = Some B_data -> body h' b <> None -> body h' b = Some B_data.
Proof. intros h h' b L E N. destruct (later_get _ _ _ _ L E N) as (y & -> & G). cbn in G. subst y. reflexivity. Qed.
Lemma later_results : forall h h' b d c s, later h h' -> body h b = Some (B_results d c s) -> body h' b <> None ->
  exists more, body h' b = Some (B_results d c (s ++ more)).
Proof. intros h h' b d c s L E N. destruct (later_get _ _ _ _ L E N) as ([|d' c' s'|t] & -> & G); cbn in G; try discriminate G. destruct G as (-> & -> & m & ->). eauto. Qed.
Lemma later_values : forall h h' b t, later h h' -> body h b = Some (B_values t) -> body h' b <> None -> body h' b = Some (B_values t).
Proof. intros h h' b t L E N. destruct (later_get _ _ _ _ L E N) as (y & -> & G). cbn in G. subst y. reflexivity. Qed.
Lemma later_back : forall h h' b t, later h h' -> b < length h -> body h' b = Some (B_values t) -> body h b = Some (B_values t).
Proof.
  intros h h' b t (L & H) Lb E. specialize (H b Lb). rewrite E in H. destruct (body h b) as [[|d c s|u]|]; cbn in H; try contradiction; try discriminate H. congruence.
Qed.

Lemma sound_live : forall h roots b, sound h roots -> In b roots -> body h b <> None.
Proof. intros h roots b (C & _) I. destruct (counts_live h roots b C (or_introl I)) as (n & x & E). unfold body. rewrite E. discriminate. Qed.
Lemma sound_member : forall h roots a x b, sound h roots -> body h a = Some x -> In b (members x) -> body h b <> None.
Proof.
  intros h roots a x b (C & _) E I. destruct (body_cell _ _ _ E) as (n & Ec). destruct (counts_live h roots b C) as (m & y & E2).
  - right. eapply pointers_in; [exact Ec|exact I].
  - unfold body. rewrite E2. discriminate.
Qed.
Lemma sound_same : forall h r1 r2, (forall b, occ b r1 = occ b r2) -> sound h r1 -> sound h r2.
Proof. intros h r1 r2 E (C & T). split; [eapply counts_same; eassumption|exact T]. Qed.

Lemma typed_same : forall h h', (forall a, body h' a = body h a) -> typed h -> typed h'.
Proof.
  intros h h' B T b d c s E. rewrite B in E. destruct (T b d c s E) as (H1 & H2 & H3). rewrite B. split; [exact H1|]. split; [exact H2|].
  intros r I. destruct (H3 r I) as (L & c' & s' & E'). split; [exact L|]. exists c', s'. rewrite B. exact E'.
Qed.
Lemma typed_less : forall h h' roots, counts h' roots -> (forall a, body h' a = body h a \/ body h' a = None) -> typed h -> typed h'.
Proof.
  intros h h' roots C B T b d c s E.
  assert (E0 : body h b = Some (B_results d c s)) by (destruct (B b) as [X|X]; rewrite X in E; [exact E|discriminate E]).
  destruct (T b d c s E0) as (H1 & H2 & H3). destruct (body_cell _ _ _ E) as (n & Ec).
  assert (L : forall m, In m (d :: s) -> body h' m = body h m).
  { intros m I. destruct (B m) as [X|X]; [exact X|]. exfalso. destruct (counts_live h' roots m C) as (k & y & Em); [right; eapply pointers_in; [exact Ec|exact I]|].
    unfold body in X. rewrite Em in X. discriminate X. }
  split; [exact H1|]. split; [rewrite (L d (or_introl eq_refl)); exact H2|]. intros r I. destruct (H3 r I) as (Lr & c' & s' & E').
  split; [exact Lr|]. exists c', s'. rewrite (L r (or_intror I)). exact E'.
Qed.

Lemma sound_retain : forall h roots b, sound h roots -> body h b <> None ->
  exists h', retain h b = Ok h' /\ sound h' (b :: roots) /\ later h h' /\ forall a, body h' a = body h a.
Proof.
  intros h roots b (C & T) L. destruct (retain_right h roots b C L) as (h' & E & C' & Le & B). exists h'. split; [exact E|].
  split; [split; [exact C'|eapply typed_same; eassumption]|]. split; [apply later_same; assumption|exact B].
Qed.
Lemma sound_retain_if : forall h roots p, sound h roots -> (forall b, p = Some b -> body h b <> None) ->
  exists h', retain_if h p = Ok h' /\ sound h' (opt_list p ++ roots) /\ later h h' /\ forall a, body h' a = body h a.
Proof.
  intros h roots [b|] S L; cbn [retain_if opt_list app].
  - apply sound_retain; [exact S|apply L; reflexivity].
  - exists h. split; [reflexivity|]. split; [exact S|]. split; [apply later_refl|reflexivity].
Qed.
Lemma sound_release : forall h ps roots, sound h (ps ++ roots) ->
  exists h', release h ps = Ok h' /\ sound h' roots /\ later h h'.
Proof.
  intros h ps roots (C & T). destruct (release_right h ps roots C) as (h' & E & C' & L & B). exists h'. split; [exact E|].
  split; [split; [exact C'|eapply typed_less; eassumption]|apply later_less; assumption].
Qed.
(** A new block. *)
Lemma typed_alloc : forall h n x, typed h ->
  (forall d c s, x = B_results d c s -> c = d /\ body h d = Some B_data /\ s = []) ->
  typed (h ++ [Some (n, x)]).
Proof.
  intros h n x T X b d c s E.
  assert (Old : forall a y, body h a = Some y -> body (h ++ [Some (n, x)]) a = Some y).
  { intros a y Ea. pose proof (body_length _ _ _ Ea). unfold body. rewrite cell_alloc. destruct (Nat.eqb a (length h)) eqn:Eq; [apply Nat.eqb_eq in Eq; lia|]. exact Ea. }
  unfold body in E. rewrite cell_alloc in E. destruct (Nat.eqb b (length h)) eqn:Eb.
  - injection E as ->. destruct (X d c s eq_refl) as (-> & D & ->). split; [reflexivity|]. split; [apply Old; exact D|intros r []].
  - destruct (T b d c s E) as (H1 & H2 & H3). split; [exact H1|]. split; [apply Old; exact H2|]. intros r I. destruct (H3 r I) as (L & c' & s' & E').
    split; [exact L|]. exists c', s'. apply Old. exact E'.
Qed.
Lemma sound_alloc : forall h roots x, sound h (members x ++ roots) ->
  (forall d c s, x = B_results d c s -> c = d /\ body h d = Some B_data /\ s = []) ->
  sound (snd (allocate h x)) (fst (allocate h x) :: roots) /\ later h (snd (allocate h x)) /\
  body (snd (allocate h x)) (fst (allocate h x)) = Some x /\ length h <= fst (allocate h x).
Proof.
  intros h roots x (C & T) X. cbn [allocate fst snd]. split; [split; [apply alloc_right; exact C|apply typed_alloc; assumption]|].
  split; [apply later_alloc|]. split; [|lia]. unfold body. rewrite cell_alloc, Nat.eqb_refl. reflexivity.
Qed.

(* ------------------------------------------------------------------------ *)
(** ** Parsing *)

Lemma read_right : forall h b x, body h b = Some x -> read h b = Ok x.
Proof. intros h b x E. unfold read. unfold body in E. destruct (cell h b) as [[n y]|]; [|discriminate E]. injection E as ->. reflexivity. Qed.
Lemma read_results_right : forall h b d c s, body h b = Some (B_results d c s) -> read_results h b = Ok (d, c, s).
Proof. intros h b d c s E. unfold read_results. unfold body in E. destruct (cell h b) as [[n y]|]; [|discriminate E]. injection E as ->. reflexivity. Qed.

Lemma new_results_right : forall h roots d, sound h roots -> body h d = Some B_data ->
  exists r h', new_results h d d = Ok (r, h') /\ sound h' (r :: roots) /\ later h h' /\ body h' r = Some (B_results d d []) /\ length h <= r.
Proof.
  intros h roots d S D. unfold new_results. destruct (sound_retain h roots d S ltac:(rewrite D; discriminate)) as (h1 & -> & S1 & L1 & B1). cbn [obind].
  rewrite (read_right h1 d B_data) by (rewrite B1; exact D). cbn [obind].
  destruct (sound_alloc h1 roots (B_results d d []) S1) as (S2 & L2 & E2 & F2).
  { intros d' c' s' X. injection X as <- <- <-. split; [reflexivity|]. split; [rewrite B1; exact D|reflexivity]. }
  exists (fst (allocate h1 (B_results d d []))), (snd (allocate h1 (B_results d d []))). split; [reflexivity|]. split; [exact S2|].
  split; [eapply later_trans; eassumption|]. split; [exact E2|]. destruct L1 as (L1 & _). lia.
Qed.

(** An ArgumentIteratorImpl. *)
Definition good_impl (h : heap) (it : iter_impl) : Prop :=
  i_command it = i_data it /\ body h (i_data it) = Some B_data /\ i_results it <> [] /\
  forall r, In r (i_results it) -> exists c s, body h r = Some (B_results (i_data it) c s).
Definition impl_roots (it : iter_impl) : list nat := i_data it :: i_results it.

Lemma good_impl_later : forall h h' roots it, later h h' -> sound h' roots -> (forall b, In b (impl_roots it) -> In b roots) ->
  good_impl h it -> good_impl h' it.
Proof.
  intros h h' roots it L S R (G1 & G2 & G3 & G4). split; [exact G1|]. split; [|split; [exact G3|]].
  - eapply later_data; [exact L|exact G2|]. eapply sound_live; [exact S|]. apply R. left. reflexivity.
  - intros r I. destruct (G4 r I) as (c & s & E). destruct (later_results _ _ _ _ _ _ L E) as (m & E'); [eapply sound_live; [exact S|apply R; right; exact I]|]. eauto.
Qed.

Lemma new_iterator_right : forall h roots d, sound h (d :: roots) -> body h d = Some B_data ->
  exists it h', new_iterator h d = Ok (it, h') /\ sound h' (impl_roots it ++ roots) /\ later h h' /\ good_impl h' it /\ i_data it = d /\ length h <= hd 0 (i_results it).
Proof.
  intros h roots d S D. unfold new_iterator. destruct (new_results_right h (d :: roots) d S D) as (r & h1 & -> & S1 & L1 & E1 & F1). cbn [obind].
  exists (mk_impl d d [r]), h1. split; [reflexivity|]. split; [|split; [exact L1|split; [|split; [reflexivity|exact F1]]]].
  - eapply sound_same; [|exact S1]. intros b. unfold impl_roots. cbn [i_data i_results app]. rewrite !occ_cons. lia.
  - split; [reflexivity|]. cbn [i_data i_results i_command]. split; [|split; [discriminate|]].
    + eapply later_data; [exact L1|exact D|]. eapply sound_live; [exact S1|]. right. left. reflexivity.
    + intros r' [<-|[]]. eauto.
Qed.

Lemma last_in : forall (l : list nat) d, l <> [] -> In (last l d) l.
Proof. intros l d N. destruct (exists_last N) as (a & x & ->). rewrite last_last. apply in_or_app. right. left. reflexivity. Qed.

Lemma typed_put : forall h p n d c s r, typed h -> cell h p = Some (n, B_results d c s) -> p < r -> body h r = Some (B_results d d []) ->
  p <> r -> typed (put h p (Some (n, B_results d c (s ++ [r])))) /\ later h (put h p (Some (n, B_results d c (s ++ [r])))).
Proof.
  intros h p n d c s r T E Lr Er N. pose proof (cell_some _ _ _ _ E) as Lp.
  assert (B : forall a, body (put h p (Some (n, B_results d c (s ++ [r])))) a = if Nat.eqb a p then Some (B_results d c (s ++ [r])) else body h a).
  { intros a. unfold body. rewrite cell_put by exact Lp. destruct (Nat.eqb a p); reflexivity. }
  assert (Any : forall a d0 c0 s0, body h a = Some (B_results d0 c0 s0) -> exists c' s', body (put h p (Some (n, B_results d c (s ++ [r])))) a = Some (B_results d0 c' s')).
  { intros a d0 c0 s0 Ea. rewrite B. destruct (Nat.eqb a p) eqn:Eq; [|eauto]. apply Nat.eqb_eq in Eq. subst a. rewrite (cell_body _ _ _ _ E) in Ea. injection Ea as <- <- <-. eauto. }
  assert (Dt : forall a, body h a = Some B_data -> body (put h p (Some (n, B_results d c (s ++ [r])))) a = Some B_data).
  { intros a Ea. rewrite B. destruct (Nat.eqb a p) eqn:Eq; [|exact Ea]. apply Nat.eqb_eq in Eq. subst a. rewrite (cell_body _ _ _ _ E) in Ea. discriminate Ea. }
  split.
  - intros b d0 c0 s0 Eb. rewrite B in Eb. destruct (Nat.eqb b p) eqn:Eq.
    + apply Nat.eqb_eq in Eq. subst b. injection Eb as <- <- <-. destruct (T p d c s (cell_body _ _ _ _ E)) as (H1 & H2 & H3).
      split; [exact H1|]. split; [apply Dt; exact H2|]. intros r' I. apply in_app_or in I. destruct I as [I|[<-|[]]].
      * destruct (H3 r' I) as (L & c' & s' & E'). split; [exact L|]. eapply Any. exact E'.
      * split; [exact Lr|]. eapply Any. exact Er.
    + destruct (T b d0 c0 s0 Eb) as (H1 & H2 & H3). split; [exact H1|]. split; [apply Dt; exact H2|]. intros r' I. destruct (H3 r' I) as (L & c' & s' & E'). split; [exact L|]. eapply Any. exact E'.
  - split; [rewrite put_length; lia|]. intros b _. rewrite B. destruct (Nat.eqb b p) eqn:Eq.
    + apply Nat.eqb_eq in Eq. subst b. rewrite (cell_body _ _ _ _ E). cbn. repeat split. exists [r]. reflexivity.
    + destruct (body h b); [apply grown_refl|exact I].
Qed.

Lemma step_right : forall h roots it s, sound h (impl_roots it ++ roots) -> good_impl h it ->
  exists it' h', do_step h it s = Ok (it', h') /\ sound h' (impl_roots it' ++ roots) /\ later h h' /\ good_impl h' it' /\
    i_data it' = i_data it /\ hd 0 (i_results it') = hd 0 (i_results it).
Proof.
  intros h roots it s S G. pose proof G as (G1 & G2 & G3 & G4). destruct s as [|index]; cbn [do_step].
  - set (p := last (i_results it) 0). pose proof (last_in (i_results it) 0 G3) as Ip. fold p in Ip. destruct (G4 p Ip) as (c & s & Ep).
    rewrite (read_results_right _ _ _ _ _ Ep). cbn [obind]. rewrite G1.
    destruct (new_results_right h (impl_roots it ++ roots) (i_data it) S G2) as (r & h1 & -> & S1 & L1 & E1 & F1). cbn [obind].
    assert (Lp : p < length h) by (eapply body_length; exact Ep).
    destruct (later_results _ _ _ _ _ _ L1 Ep) as (m1 & Ep1).
    { eapply sound_live; [exact S1|]. right. apply in_or_app. left. right. exact Ip. }
    destruct (body_cell _ _ _ Ep1) as (n & Ec). rewrite Ec.
    set (h2 := put h1 p (Some (n, B_results (i_data it) c ((s ++ m1) ++ [r])))).
    destruct (typed_put h1 p n (i_data it) c (s ++ m1) r (proj2 S1) Ec) as (T2 & L2); [lia|exact E1|lia|]. fold h2 in T2, L2.
    assert (C2 : counts h2 (impl_roots it ++ roots)).
    { eapply (put_right h1 (impl_roots it ++ roots) p n _ _ [r]); [exact (proj1 S1)|exact Ec|]. cbn [members]. rewrite app_comm_cons. reflexivity. }
    assert (B2 : body h2 r <> None).
    { eapply (sound_member h2 (impl_roots it ++ roots) p); [split; [exact C2|exact T2]| |].
      - unfold h2, body. rewrite cell_put by (eapply cell_some; exact Ec). rewrite Nat.eqb_refl. reflexivity.
      - cbn [members]. right. apply in_or_app. right. left. reflexivity. }
    destruct (sound_retain h2 (impl_roots it ++ roots) r (conj C2 T2) B2) as (h3 & -> & S3 & L3 & B3). cbn [obind].
    assert (Ld : later h h3) by (eapply later_trans; [exact L1|eapply later_trans; eassumption]).
    assert (S3' : sound h3 (impl_roots (mk_impl (i_data it) (i_data it) (i_results it ++ [r])) ++ roots)).
    { eapply sound_same; [|exact S3]. intros b. unfold impl_roots. cbn [i_data i_results]. cbn [app]. rewrite !occ_cons, !occ_app, !occ_cons, occ_nil. lia. }
    exists (mk_impl (i_data it) (i_data it) (i_results it ++ [r])), h3. split; [reflexivity|]. split; [exact S3'|]. split; [exact Ld|]. split; [|split; [reflexivity|]].
    + destruct (good_impl_later h h3 _ it Ld S3) as (X1 & X2 & X3 & X4); [intros b I; right; apply in_or_app; left; exact I|exact G|].
      split; [reflexivity|]. cbn [i_data i_results]. split; [exact X2|]. split; [destruct (i_results it); discriminate|]. intros r' I. apply in_app_or in I. destruct I as [I|[<-|[]]]; [apply X4; exact I|].
      assert (L13 : later h1 h3) by (eapply later_trans; eassumption). destruct (later_results _ _ _ _ _ _ L13 E1) as (m & E'); [eapply sound_live; [exact S3|left; reflexivity]|]. eauto.
    + cbn [i_results]. destruct (i_results it); [congruence|reflexivity].
  - destruct (sound_release h (skipn (Datatypes.S index) (i_results it)) (i_data it :: firstn (Datatypes.S index) (i_results it) ++ roots)) as (h1 & -> & S1 & L1).
    { eapply sound_same; [|exact S]. intros b. unfold impl_roots. cbn [app]. rewrite occ_app, !occ_cons, !occ_app.
      assert (occ b (i_results it) = occ b (firstn (Datatypes.S index) (i_results it)) + occ b (skipn (Datatypes.S index) (i_results it))) by (rewrite <- occ_app, firstn_skipn; reflexivity). lia. }
    cbn [obind]. set (l := firstn (Datatypes.S index) (i_results it)) in *.
    assert (Nl : l <> []) by (unfold l; destruct (i_results it); [congruence|discriminate]).
    assert (Il : forall r, In r l -> In r (i_results it)) by (intros r I; rewrite <- (firstn_skipn (Datatypes.S index) (i_results it)); apply in_or_app; left; exact I).
    assert (El : forall r, In r l -> exists c s, body h1 r = Some (B_results (i_data it) c s)).
    { intros r I. destruct (G4 r (Il r I)) as (c & s & E). destruct (later_results _ _ _ _ _ _ L1 E) as (m & E'); [eapply sound_live; [exact S1|right; apply in_or_app; left; exact I]|]. eauto. }
    destruct (El _ (last_in l 0 Nl)) as (c & s & E). cbv zeta. rewrite (read_results_right _ _ _ _ _ E). cbn [obind].
    destruct (proj2 S1 _ _ _ _ E) as (-> & D1 & _).
    exists (mk_impl (i_data it) (i_data it) l), h1. split; [reflexivity|]. split; [|split; [exact L1|split; [|split; [reflexivity|]]]].
    + exact S1.
    + split; [reflexivity|]. split; [exact D1|]. split; [exact Nl|exact El].
    + cbn [i_results]. unfold l. destruct (i_results it); [congruence|reflexivity].
Qed.

Lemma steps_right : forall l h roots it, sound h (impl_roots it ++ roots) -> good_impl h it ->
  exists it' h', do_steps h it l = Ok (it', h') /\ sound h' (impl_roots it' ++ roots) /\ later h h' /\ good_impl h' it' /\
    i_data it' = i_data it /\ hd 0 (i_results it') = hd 0 (i_results it).
Proof.
  induction l as [|s l IH]; intros h roots it S G; cbn [do_steps].
  - exists it, h. split; [reflexivity|]. split; [exact S|]. split; [apply later_refl|]. auto.
  - destruct (step_right h roots it s S G) as (it1 & h1 & -> & S1 & L1 & G1 & D1 & T1). cbn [obind].
    destruct (IH h1 roots it1 S1 G1) as (it2 & h2 & -> & S2 & L2 & G2 & D2 & T2). exists it2, h2. split; [reflexivity|]. split; [exact S2|].
    split; [eapply later_trans; eassumption|]. split; [exact G2|]. split; congruence.
Qed.

(* ------------------------------------------------------------------------ *)
(** ** Objects *)

Definition has_results (h : heap) (b : nat) : Prop := exists d c s, body h b = Some (B_results d c s).
Definition good (h : heap) (x : handle) : Prop :=
  match x with
  | H_parser (Some d) => body h d = Some B_data
  | H_parser None => True
  | H_iterator (Some it) => good_impl h it
  | H_iterator None => True
  | H_results (Some r) => has_results h r
  | H_results None => True
  | H_value (Some r) t => has_results h r /\ (forall u, t = Some u -> u = r)
  | H_value None _ => True
  | H_values (Some r) (Some v) => has_results h r /\ body h v = Some (B_values r)
  | H_values None None => True
  | H_values _ _ => False
  | H_position v (Some r) => has_results h r /\ v < length h /\ (forall t, body h v = Some (B_values t) -> t = r)
  | H_position v None => v < length h
  | H_view _ | H_text _ => True
  end.
Lemma has_results_later : forall h h' r, later h h' -> body h' r <> None -> has_results h r -> has_results h' r.
Proof. intros h h' r L N (d & c & s & E). destruct (later_results _ _ _ _ _ _ L E N) as (m & E'). exists d, c. eauto. Qed.
Lemma good_later : forall h h' roots x, later h h' -> sound h' roots -> (forall b, In b (owned x) -> In b roots) -> good h x -> good h' x.
Proof.
  intros h h' roots x L S R G.
  assert (Lv : forall b, In b (owned x) -> body h' b <> None) by (intros b I; eapply sound_live; [exact S|apply R; exact I]).
  destruct x as [[d|]|[it|]|[r|]|[r|] t|[r|] [v|]|v [r|]|d|t]; cbn [good owned opt_list app] in *; try exact I; try contradiction.
  - eapply later_data; [exact L|exact G|apply Lv; left; reflexivity].
  - eapply good_impl_later; eassumption.
  - eapply has_results_later; [exact L|apply Lv; left; reflexivity|exact G].
  - destruct G as (G & T). split; [|exact T]. eapply has_results_later; [exact L|apply Lv; left; reflexivity|exact G].
  - destruct G as (G & V). split; [eapply has_results_later; [exact L|apply Lv; left; reflexivity|exact G]|]. eapply later_values; [exact L|exact V|apply Lv; right; left; reflexivity].
  - destruct G as (G & Lt & V). split; [eapply has_results_later; [exact L|apply Lv; left; reflexivity|exact G]|]. split; [destruct L; lia|].
    intros t E. apply V. eapply later_back; eassumption.
  - destruct L. lia.
Qed.

(** The objects of a program. *)
Definition all_owned (l : list (option handle)) : list nat := flat_map (fun x => match x with Some y => owned y | None => [] end) l.
Definition right (w : world) : Prop := sound (w_heap w) (all_owned (w_handles w)) /\
  forall i x, is w i x -> good (w_heap w) x.

Lemma all_owned_app : forall a b, all_owned (a ++ b) = all_owned a ++ all_owned b.
Proof. intros a b. unfold all_owned. apply flat_map_app. Qed.
Definition owned_if (x : option handle) : list nat := match x with Some y => owned y | None => [] end.
Lemma all_owned_set : forall l i x y b, nth_error l i = Some x ->
  occ b (all_owned (set_object l i y)) + occ b (owned_if x) = occ b (all_owned l) + occ b (owned_if y).
Proof.
  unfold all_owned. induction l as [|z l IH]; intros [|i] x y b E; cbn in E; try discriminate E; cbn [set_object flat_map]; rewrite !occ_app.
  - injection E as ->. unfold owned_if. lia.
  - specialize (IH i x y b E). lia.
Qed.
Lemma set_object_length : forall l i y, length (set_object l i y) = length l.
Proof. induction l as [|z l IH]; intros [|i] y; cbn; auto. Qed.
Lemma nth_set : forall l i x y k, nth_error l i = Some x -> nth_error (set_object l i y) k = if Nat.eqb k i then Some y else nth_error l k.
Proof.
  induction l as [|z l IH]; intros [|i] x y k E; cbn in E; try discriminate E; destruct k as [|k]; cbn; try reflexivity. eapply IH. exact E.
Qed.
Lemma owned_in : forall l i x b, nth_error l i = Some (Some x) -> In b (owned x) -> In b (all_owned l).
Proof. intros l i x b E I. unfold all_owned. apply in_flat_map. exists (Some x). split; [eapply nth_error_In; exact E|exact I]. Qed.

Lemma right_start : right no_world.
Proof.
  split.
  - split.
    + intros b. unfold cell. cbn. rewrite (proj2 (nth_error_None [] b)) by (cbn; lia). reflexivity.
    + intros b d c s E. unfold body, cell in E. destruct b; discriminate E.
  - intros i x E. unfold is in E. destruct i; discriminate E.
Qed.

(** The general step: the heap and the table after a call. *)
Lemma right_table : forall h h' l l', sound h' (all_owned l') -> later h h' ->
  (forall i x, nth_error l i = Some (Some x) -> good h x) ->
  (forall i x, nth_error l' i = Some (Some x) -> nth_error l i = Some (Some x) \/ good h' x) ->
  right (mk_world h' l').
Proof.
  intros h h' l l' S L G N. split; [exact S|]. intros i x E. unfold is in E. cbn [w_handles w_heap] in *. destruct (N i x E) as [O|O]; [|exact O].
  eapply good_later; [exact L|exact S| |eapply G; exact O]. intros b I. eapply owned_in; eassumption.
Qed.
Lemma nth_snoc : forall {A} (l r : list A) i x, nth_error (l ++ r) i = Some x -> nth_error l i = Some x \/ In x r.
Proof.
  intros A l r i x E. destruct (Nat.lt_ge_cases i (length l)).
  - left. rewrite nth_error_app1 in E by assumption. exact E.
  - right. rewrite nth_error_app2 in E by assumption. eapply nth_error_In. exact E.
Qed.
Lemma right_add : forall h h' l x, sound h' (owned x ++ all_owned l) -> later h h' ->
  (forall i y, nth_error l i = Some (Some y) -> good h y) -> good h' x -> right (mk_world h' (l ++ [Some x])).
Proof.
  intros h h' l x S L G Gx. eapply right_table; [|exact L|exact G|].
  - eapply sound_same; [|exact S]. intros b. rewrite all_owned_app, !occ_app. change (all_owned [Some x]) with (owned x ++ []). rewrite app_nil_r. lia.
  - intros i y E. apply nth_snoc in E. destruct E as [E|[E|[]]]; [auto|]. injection E as <-. auto.
Qed.
Lemma right_set : forall h h' l i old new, nth_error l i = Some old -> sound h' (all_owned (set_object l i new)) -> later h h' ->
  (forall i y, nth_error l i = Some (Some y) -> good h y) -> (forall y, new = Some y -> good h' y) -> right (mk_world h' (set_object l i new)).
Proof.
  intros h h' l i old new E S L G Gn. eapply right_table; [exact S|exact L|exact G|]. intros k y Ek. rewrite (nth_set _ _ _ _ _ E) in Ek.
  destruct (Nat.eqb k i); [injection Ek as ->; auto|auto].
Qed.

(* ------------------------------------------------------------------------ *)
(** ** Calls *)

Lemma copy_right : forall h roots x, sound h roots -> good h x -> copyable x -> (forall b, In b (owned x) -> body h b <> None) ->
  exists y h', copy_handle h x = Ok (y, h') /\ sound h' (owned y ++ roots) /\ later h h' /\ good h' y /\ kind y = kind x.
Proof.
  assert (Same : forall h roots x p, sound h roots -> good h x -> owned x = opt_list p -> (forall b, In b (owned x) -> body h b <> None) ->
    exists y h', (get h1 := retain_if h p; Ok (x, h1)) = Ok (y, h') /\ sound h' (owned y ++ roots) /\ later h h' /\ good h' y /\ kind y = kind x).
  { intros h roots x p Sd G O Lv. destruct (sound_retain_if h roots p Sd) as (h' & -> & S' & L & B).
    - intros b ->. apply Lv. rewrite O. left. reflexivity.
    - cbn [obind]. exists x, h'. rewrite <- O in S'. split; [reflexivity|]. split; [exact S'|]. split; [exact L|]. split; [|reflexivity].
      eapply good_later; [exact L|exact S'| |exact G]. intros b I. apply in_or_app. left. exact I. }
  intros h roots x Sd G Cp Lv. destruct x as [p|p|p|p t|p v|v p|d|t]; cbn [copy_handle].
  - destruct Cp as (N & _). cbn in N. congruence.
  - destruct Cp as (_ & N). cbn in N. congruence.
  - apply Same; try assumption. reflexivity.
  - apply Same; try assumption. reflexivity.
  - destruct v as [v|]; [|apply Same; try assumption; cbn; rewrite app_nil_r; reflexivity].
    destruct p as [r|]; [|destruct G]. destruct G as (G & V). rewrite (read_right _ _ _ V). cbn [obind retain_if].
    destruct (sound_retain h roots r Sd) as (h1 & -> & S1 & L1 & B1); [apply Lv; left; reflexivity|]. cbn [obind].
    destruct (sound_alloc h1 (r :: roots) (B_values r) S1) as (S2 & L2 & E2 & F2); [intros ? ? ? X; discriminate X|].
    destruct (allocate h1 (B_values r)) as [u h2] eqn:A. cbn [fst snd] in *. exists (H_values (Some r) (Some u)), h2. split; [reflexivity|].
    split; [|split; [eapply later_trans; eassumption|split; [|reflexivity]]].
    + eapply sound_same; [|exact S2]. intros b. cbn [owned opt_list app]. rewrite !occ_cons. lia.
    + split; [|exact E2]. eapply has_results_later; [exact (later_trans _ _ _ L1 L2)| |exact G]. eapply sound_live; [exact S2|]. right. left. reflexivity.
  - apply Same; try assumption. reflexivity.
  - exists (H_view d), h. split; [reflexivity|]. split; [exact Sd|]. split; [apply later_refl|]. split; [exact G|reflexivity].
  - exists (H_text t), h. split; [reflexivity|]. split; [exact Sd|]. split; [apply later_refl|]. split; [exact G|reflexivity].
Qed.

Lemma hd_in : forall (l : list nat) d, l <> [] -> In (hd d l) l.
Proof. intros [|x l] d N; [congruence|]. left. reflexivity. Qed.
Lemma swap_sound : forall h a b roots, sound h (a ++ b ++ roots) -> sound h (b ++ a ++ roots).
Proof. intros h a b roots Sd. eapply sound_same; [|exact Sd]. intros x. rewrite !occ_app. lia. Qed.

Lemma parse_right : forall h roots d p, sound h (d :: roots) -> body h d = Some B_data ->
  exists y h', parse_arguments h d p = Ok (y, h') /\ sound h' (owned_if y ++ roots) /\ later h h' /\ (forall x, y = Some x -> good h' x) /\
    (forall x, y = Some x -> exists r c s, x = H_results (Some r) /\ length h <= r /\ body h' r = Some (B_results d c s)).
Proof.
  intros h roots d p Sd D. unfold parse_arguments. rewrite (read_right _ _ _ D). cbn [obind].
  assert (Run : forall l, exists it h3, (get h1 := retain h d; get (it, h2) := new_iterator h1 d; do_steps h2 it l) = Ok (it, h3) /\
    sound h3 (impl_roots it ++ d :: roots) /\ later h h3 /\ good_impl h3 it /\ i_data it = d /\ length h <= hd 0 (i_results it)).
  { intros l. destruct (sound_retain h (d :: roots) d Sd ltac:(rewrite D; discriminate)) as (h1 & -> & S1 & L1 & B1). cbn [obind].
    destruct (new_iterator_right h1 (d :: roots) d S1 ltac:(rewrite B1; exact D)) as (it & h2 & -> & S2 & L2 & G2 & D2 & F2). cbn [obind].
    destruct (steps_right l h2 (d :: roots) it S2 G2) as (it3 & h3 & -> & S3 & L3 & G3 & D3 & T3). exists it3, h3. split; [reflexivity|]. split; [exact S3|].
    split; [eapply later_trans; [exact L1|]; eapply later_trans; eassumption|]. split; [exact G3|]. split; [congruence|]. rewrite T3. destruct L1 as (L1 & _). lia. }
  destruct p as [|l|l].
  - destruct (sound_release h [d] roots Sd) as (h1 & -> & S1 & L1). cbn [obind]. exists None, h1. split; [reflexivity|]. split; [exact S1|]. split; [exact L1|split; intros x X; discriminate X].
  - destruct (Run l) as (it & h3 & R & S3 & L3 & G3 & D3 & F3).
    destruct (retain h d) as [h1| |]; cbn [obind] in R |- *; try discriminate R.
    destruct (new_iterator h1 d) as [[it2 h2]| |]; cbn [obind] in R |- *; try discriminate R. rewrite R. cbn [obind].
    change (i_data it :: i_results it) with (impl_roots it).
    destruct (sound_release h3 (impl_roots it) (d :: roots) S3) as (h4 & -> & S4 & L4). cbn [obind].
    destruct (sound_release h4 [d] roots S4) as (h5 & -> & S5 & L5). cbn [obind]. exists None, h5. split; [reflexivity|]. split; [exact S5|].
    split; [eapply later_trans; [exact L3|eapply later_trans; eassumption]|split; intros x X; discriminate X].
  - destruct (Run l) as (it & h3 & R & S3 & L3 & G3 & D3 & F3).
    destruct (retain h d) as [h1| |]; cbn [obind] in R |- *; try discriminate R.
    destruct (new_iterator h1 d) as [[it2 h2]| |]; cbn [obind] in R |- *; try discriminate R. rewrite R. cbn [obind]. cbv zeta.
    change (i_data it :: i_results it) with (impl_roots it). set (top := hd 0 (i_results it)).
    pose proof G3 as (_ & _ & N & Rs). pose proof (hd_in (i_results it) 0 N) as It. fold top in It. destruct (Rs top It) as (c & s & Et).
    destruct (sound_retain h3 (impl_roots it ++ d :: roots) top S3 ltac:(rewrite Et; discriminate)) as (h4 & -> & S4 & L4 & B4). cbn [obind].
    destruct (sound_release h4 (impl_roots it) (d :: top :: roots)) as (h5 & -> & S5 & L5).
    { eapply sound_same; [|exact S4]. intros b. rewrite occ_cons, !occ_app, !occ_cons. lia. }
    cbn [obind]. destruct (sound_release h5 [d] (top :: roots) S5) as (h6 & -> & S6 & L6). cbn [obind].
    assert (L : later h3 h6) by (eapply later_trans; [exact L4|eapply later_trans; eassumption]).
    exists (Some (H_results (Some top))), h6. split; [reflexivity|]. split; [exact S6|]. split; [eapply later_trans; eassumption|].
    destruct (later_results _ _ _ _ _ _ L Et) as (m & Et'); [eapply sound_live; [exact S6|left; reflexivity]|].
    split; [|intros x X; injection X as <-; exists top, c, (s ++ m); rewrite <- D3; auto].
    intros x X. injection X as <-. cbn [good]. eapply has_results_later; [exact L|eapply sound_live; [exact S6|left; reflexivity]|]. exists (i_data it), c, s. exact Et.
Qed.
Lemma make_iterator_right : forall h roots d f, sound h (d :: roots) -> body h d = Some B_data ->
  exists y h', make_argument_iterator h d f = Ok (y, h') /\ sound h' (owned_if y ++ roots) /\ later h h' /\ (forall x, y = Some x -> good h' x).
Proof.
  intros h roots d f Sd D. unfold make_argument_iterator. rewrite (read_right _ _ _ D). cbn [obind]. destruct f.
  - destruct (sound_retain h (d :: roots) d Sd ltac:(rewrite D; discriminate)) as (h1 & -> & S1 & L1 & B1). cbn [obind].
    destruct (new_iterator_right h1 (d :: roots) d S1 ltac:(rewrite B1; exact D)) as (it & h2 & -> & S2 & L2 & G2 & _). cbn [obind].
    destruct (sound_release h2 [d] (impl_roots it ++ roots)) as (h3 & -> & S3 & L3).
    { eapply sound_same; [|exact S2]. intros b. cbn [app]. rewrite occ_cons, !occ_app, !occ_cons. lia. }
    cbn [obind]. exists (Some (H_iterator (Some it))), h3. split; [reflexivity|]. split; [exact S3|].
    split; [eapply later_trans; [exact L1|eapply later_trans; eassumption]|]. intros x X. injection X as <-. cbn [good].
    eapply good_impl_later; [exact L3|exact S3| |exact G2]. intros b I. apply in_or_app. left. exact I.
  - destruct (sound_release h [d] roots Sd) as (h1 & -> & S1 & L1). cbn [obind]. exists None, h1. split; [reflexivity|]. split; [exact S1|]. split; [exact L1|intros x X; discriminate X].
Qed.

(** The result of a call. *)
Definition went (w : world) (c : call) : Prop := exists a w', do_call w c = Ok (a, w') /\ right w' /\ later (w_heap w) (w_heap w') /\
  forall i x, is w i x -> ~ changes c i -> is w' i x.

Lemma object_is : forall w i x, is w i x -> object w i = Ok x.
Proof. intros w i x E. unfold object. rewrite E. reflexivity. Qed.
Lemma live_owned : forall w i x b, right w -> is w i x -> In b (owned x) -> body (w_heap w) b <> None.
Proof. intros w i x b (Sd & _) E I. eapply sound_live; [exact Sd|]. eapply owned_in; eassumption. Qed.
Lemma went_same : forall w c a, right w -> do_call w c = Ok (a, w) -> went w c.
Proof. intros w c a R E. exists a, w. split; [exact E|]. split; [exact R|]. split; [apply later_refl|auto]. Qed.
Lemma went_add : forall w c h' x, right w -> do_call w c = Ok (A_done, mk_world h' (w_handles w ++ [Some x])) ->
  sound h' (owned x ++ all_owned (w_handles w)) -> later (w_heap w) h' -> good h' x -> went w c.
Proof.
  intros w c h' x (Sd & G) E S' L Gx. eexists. eexists. split; [exact E|]. split; [eapply right_add; eassumption|]. split; [exact L|].
  intros i y Ey _. unfold is in *. cbn [w_handles]. rewrite nth_error_app1; [exact Ey|]. apply nth_error_Some. congruence.
Qed.
Lemma went_made : forall w c y h' l', right w -> do_call w c = add_made l' y h' -> sound h' (owned_if y ++ all_owned l') -> later (w_heap w) h' ->
  (forall x, y = Some x -> good h' x) ->
  (forall i x, nth_error l' i = Some (Some x) -> nth_error (w_handles w) i = Some (Some x) \/ x = H_parser None) ->
  (forall i x, is w i x -> ~ changes c i -> nth_error l' i = Some (Some x)) -> went w c.
Proof.
  intros w c y h' l' (Sd & G) E S' L Gy N O. destruct y as [x|]; cbn [add_made owned_if] in *; eexists; eexists; (split; [exact E|]); (split; [|split; [exact L|]]).
  - eapply (right_table (w_heap w) h' (w_handles w)); [|exact L|exact G|].
    + eapply sound_same; [|exact S']. intros b. rewrite all_owned_app, !occ_app. change (all_owned [Some x]) with (owned x ++ []). rewrite app_nil_r. lia.
    + intros i u Eu. apply nth_snoc in Eu. destruct Eu as [Eu|[Eu|[]]].
      * destruct (N i u Eu) as [Q| ->]; [auto|right; exact I].
      * injection Eu as <-. right. apply Gy. reflexivity.
  - intros i u Eu Nc. specialize (O i u Eu Nc). unfold is. cbn [w_handles]. rewrite nth_error_app1; [exact O|]. apply nth_error_Some. congruence.
  - eapply (right_table (w_heap w) h' (w_handles w)); [exact S'|exact L|exact G|]. intros i u Eu. destruct (N i u Eu) as [Q| ->]; [auto|right; exact I].
  - exact O.
Qed.
Lemma used_up : forall w i d, is w i (H_parser (Some d)) ->
  (forall b, occ b (all_owned (w_handles w)) = occ b (d :: all_owned (set_object (w_handles w) i (Some (H_parser None))))) /\
  (forall k x, nth_error (set_object (w_handles w) i (Some (H_parser None))) k = Some (Some x) -> nth_error (w_handles w) k = Some (Some x) \/ x = H_parser None) /\
  (forall k x, is w k x -> k <> i -> nth_error (set_object (w_handles w) i (Some (H_parser None))) k = Some (Some x)).
Proof.
  intros w i d E. split; [|split].
  - intros b. pose proof (all_owned_set _ _ _ (Some (H_parser None)) b E) as Q. cbn [owned_if owned opt_list] in Q. rewrite occ_nil, occ_cons, occ_nil in Q. rewrite occ_cons. lia.
  - intros k x Ek. rewrite (nth_set _ _ _ _ _ E) in Ek. destruct (Nat.eqb k i); [right; congruence|auto].
  - intros k x Ek N. rewrite (nth_set _ _ _ _ _ E). destruct (Nat.eqb k i) eqn:Q; [apply Nat.eqb_eq in Q; congruence|exact Ek].
Qed.
Lemma went_value : forall w c r h1 x, right w -> retain (w_heap w) r = Ok h1 -> owned x = [r] -> body (w_heap w) r <> None ->
  do_call w c = Ok (A_done, mk_world h1 (w_handles w ++ [Some x])) -> good (w_heap w) x -> went w c.
Proof.
  intros w c r h1 x R Re O B E Gx. destruct (sound_retain _ _ r (proj1 R) B) as (h2 & Re2 & S2 & L2 & B2). rewrite Re in Re2. injection Re2 as <-.
  eapply went_add; [exact R|exact E|rewrite O; exact S2|exact L2|]. eapply good_later; [exact L2|exact S2| |exact Gx]. rewrite O. intros b [<-|[]]. left. reflexivity.
Qed.
Lemma went_vector : forall w c r h1, right w -> retain (w_heap w) r = Ok h1 -> has_results (w_heap w) r ->
  do_call w c = Ok (A_done, mk_world (snd (allocate h1 (B_values r))) (w_handles w ++ [Some (H_values (Some r) (Some (fst (allocate h1 (B_values r)))))])) -> went w c.
Proof.
  intros w c r h1 R Re Hr E. assert (B : body (w_heap w) r <> None) by (destruct Hr as (d & cc & s & Er); rewrite Er; discriminate).
  destruct (sound_retain _ _ r (proj1 R) B) as (h2 & Re2 & S2 & L2 & B2). rewrite Re in Re2. injection Re2 as <-.
  destruct (sound_alloc h1 (r :: all_owned (w_handles w)) (B_values r) S2) as (S3 & L3 & E3 & _); [intros ? ? ? X; discriminate X|].
  assert (L : later (w_heap w) (snd (allocate h1 (B_values r)))) by (eapply later_trans; eassumption).
  eapply went_add; [exact R|exact E| |exact L|].
  - eapply sound_same; [|exact S3]. intros b. cbn [owned opt_list app]. rewrite !occ_cons. lia.
  - split; [|exact E3]. eapply has_results_later; [exact L| |exact Hr]. eapply sound_live; [exact S3|]. right. left. reflexivity.
Qed.
Lemma retain_live : forall h b, body h b <> None -> exists h', retain h b = Ok h'.
Proof. intros h b L. unfold body in L. unfold retain. destruct (cell h b) as [[n x]|]; [eauto|congruence]. Qed.
Lemma is_length : forall w i x, is w i x -> i < length (w_handles w).
Proof. intros w i x E. apply nth_error_Some. unfold is in E. congruence. Qed.

Lemma owns_owned : forall x b, owns x b <-> In b (owned x).
Proof.
  intros x b. split.
  - intros O. destruct O; cbn [owned opt_list app]; try (left; reflexivity).
    + right. exact H.
    + apply in_or_app. right. left. reflexivity.
  - intros H. destruct x as [p|[it|]|p|p t|p v|v p|d|t]; cbn [owned] in H.
    + destruct p; cbn in H; [destruct H as [<-|[]]; constructor|destruct H].
    + destruct H as [<-|H]; [constructor|apply own_current; exact H].
    + destruct H.
    + destruct p; cbn in H; [destruct H as [<-|[]]; constructor|destruct H].
    + destruct p; cbn in H; [destruct H as [<-|[]]; constructor|destruct H].
    + apply in_app_or in H. destruct H as [H|H].
      * destruct p; cbn in H; [destruct H as [<-|[]]; constructor|destruct H].
      * destruct v; cbn in H; [destruct H as [<-|[]]; constructor|destruct H].
    + destruct p; cbn in H; [destruct H as [<-|[]]; constructor|destruct H].
    + destruct H.
    + destruct H.
Qed.
Lemma kept_live : forall w b, right w -> kept w b -> body (w_heap w) b <> None.
Proof.
  intros w b R K. induction K as [i x b E O|a x b K IH C H].
  - eapply live_owned; [exact R|exact E|]. apply owns_owned. exact O.
  - rewrite contents_body in C. eapply sound_member; [exact (proj1 R)|exact C|]. destruct H; cbn [members]; [left; reflexivity|right; assumption].
Qed.
Lemma read_live : forall h b, body h b <> None -> exists x, read h b = Ok x.
Proof. intros h b N. destruct (body h b) as [x|] eqn:E; [|congruence]. exists x. apply read_right. exact E. Qed.

Lemma call_right : forall w c, right w -> proper w c -> went w c.
Proof.
  intros w c R P. pose proof R as (Sd & G). destruct c as [| |i|i|i j|i j|i|i k p|i k f|i st|i|i n|i|i|i|i|i|i|i|i]; cbn [proper] in P.
  - destruct (sound_alloc (w_heap w) (all_owned (w_handles w)) B_data Sd) as (S1 & L1 & E1 & _); [intros ? ? ? X; discriminate X|].
    eapply (went_add w K_parser _ (H_parser (Some (length (w_heap w))))); [exact R|reflexivity|exact S1|exact L1|exact E1].
  - eapply (went_add w K_results (w_heap w) (H_results None)); [exact R|reflexivity|exact Sd|apply later_refl|exact I].
  - destruct P as (x & E & Cp). destruct (copy_right (w_heap w) (all_owned (w_handles w)) x Sd (G i x E) Cp) as (y & h' & C & S' & L' & G' & _).
    { intros b Ib. eapply live_owned; eassumption. }
    eapply (went_add w (K_copy i) h' y); try eassumption. cbn [do_call]. rewrite (object_is _ _ _ E). cbn [obind]. rewrite C. reflexivity.
  - destruct P as (x & E). eexists. eexists. cbn [do_call]. rewrite (object_is _ _ _ E). cbn [obind]. split; [reflexivity|].
    assert (Ow : forall b, occ b (owned (moved_from x)) = 0) by (intros b; destruct x as [p|[it|]|p|p t|p v|v p|d|t]; reflexivity).
    split; [|split; [apply later_refl|]].
    + eapply (right_table (w_heap w) (w_heap w) (w_handles w)); [|apply later_refl|exact G|].
      * eapply sound_same; [|exact Sd]. intros b. rewrite all_owned_app, occ_app. change (all_owned [Some x]) with (owned x ++ []). rewrite app_nil_r.
        pose proof (all_owned_set (w_handles w) i (Some x) (Some (moved_from x)) b E) as Q. cbn [owned_if] in Q. rewrite Ow in Q. lia.
      * intros k y Ek. apply nth_snoc in Ek. destruct Ek as [Ek|[Ek|[]]].
        -- rewrite (nth_set _ _ _ _ _ E) in Ek. destruct (Nat.eqb k i); [|auto]. injection Ek as <-. right. pose proof (G i x E) as Gx.
           destruct x as [p|p|p|p t|p v|v p|d|t]; cbn [moved_from good] in *; try exact I. destruct p as [r|]; [apply Gx|exact Gx].
        -- injection Ek as <-. right. apply (G i x E).
    + intros k y Ey Nc. cbn [changes] in Nc. unfold is in *. cbn [w_handles]. rewrite nth_error_app1 by (rewrite set_object_length; apply nth_error_Some; congruence).
      rewrite (nth_set _ _ _ _ _ E). destruct (Nat.eqb k i) eqn:Q; [apply Nat.eqb_eq in Q; congruence|exact Ey].
  - destruct P as (x & y & Ex & Ey & K & Cp). destruct (copy_right (w_heap w) (all_owned (w_handles w)) y Sd (G j y Ey)) as (z & h1 & C & S1 & L1 & G1 & Kz).
    { unfold copyable in *. rewrite <- K. exact Cp. }
    { intros b Ib. eapply live_owned; eassumption. }
    destruct (sound_release h1 (owned x) (all_owned (set_object (w_handles w) i (Some z)))) as (h2 & Re & S2 & L2).
    { eapply sound_same; [|exact S1]. intros b. rewrite !occ_app. pose proof (all_owned_set (w_handles w) i (Some x) (Some z) b Ex) as Q. cbn [owned_if] in Q. lia. }
    eexists. eexists. cbn [do_call]. rewrite (object_is _ _ _ Ex), (object_is _ _ _ Ey). cbn [obind].
    replace (same_type x y) with true by (destruct x, y; try discriminate K; reflexivity). rewrite C. cbn [obind]. rewrite Re. cbn [obind]. split; [reflexivity|].
    assert (L : later (w_heap w) h2) by (eapply later_trans; eassumption). split; [|split; [exact L|]].
    + eapply right_set; [exact Ex|exact S2|exact L|exact G|]. intros u X. injection X as <-. eapply good_later; [exact L2|exact S2| |exact G1].
      intros b Ib. eapply (owned_in _ i z); [|exact Ib]. rewrite (nth_set _ _ _ _ _ Ex), Nat.eqb_refl. reflexivity.
    + intros k u Eu Nc. cbn [changes] in Nc. unfold is in *. cbn [w_handles]. rewrite (nth_set _ _ _ _ _ Ex). destruct (Nat.eqb k i) eqn:Q; [apply Nat.eqb_eq in Q; congruence|exact Eu].
  - destruct P as (x & y & Ex & Ey & K).
    assert (Ow : forall b, occ b (owned (moved_from y)) = 0) by (intros b; destruct y as [p|[it|]|p|p t|p v|v p|d|t]; reflexivity).
    set (l1 := set_object (w_handles w) j (Some (moved_from y))).
    assert (Ex1 : exists x1, nth_error l1 i = Some (Some x1) /\ kind x1 = kind y /\ good (w_heap w) x1).
    { unfold l1. rewrite (nth_set _ _ _ _ _ Ey). destruct (Nat.eqb i j).
      - exists (moved_from y). split; [reflexivity|]. split; [destruct y; reflexivity|]. pose proof (G j y Ey) as Gy.
        destruct y as [p|p|p|p t|p v|v p|d|t]; cbn [moved_from good] in *; try exact I. destruct p as [r|]; [apply Gy|exact Gy].
      - exists x. split; [exact Ex|]. split; [exact K|apply (G i x Ex)]. }
    destruct Ex1 as (x1 & Ex1 & K1 & _).
    destruct (sound_release (w_heap w) (owned x1) (all_owned (set_object l1 i (Some y)))) as (h2 & Re & S2 & L2).
    { eapply sound_same; [|exact Sd]. intros b. rewrite occ_app. pose proof (all_owned_set l1 i (Some x1) (Some y) b Ex1) as Q.
      pose proof (all_owned_set (w_handles w) j (Some y) (Some (moved_from y)) b Ey) as Q2. fold l1 in Q2. cbn [owned_if] in Q, Q2. rewrite Ow in Q2. lia. }
    eexists. eexists. cbn [do_call]. rewrite (object_is _ _ _ Ey). cbn [obind]. fold l1.
    rewrite (object_is (mk_world (w_heap w) l1) i x1 Ex1). cbn [obind].
    replace (same_type x1 y) with true by (destruct x1, y; try discriminate K1; reflexivity). rewrite Re. cbn [obind]. split; [reflexivity|].
    split; [|split; [exact L2|]].
    + eapply (right_table (w_heap w) h2 (w_handles w)); [exact S2|exact L2|exact G|]. intros k u Eu. rewrite (nth_set _ _ _ _ _ Ex1) in Eu. destruct (Nat.eqb k i).
      * injection Eu as <-. right. eapply good_later; [exact L2|exact S2| |apply (G j y Ey)]. intros b Ib. eapply (owned_in _ i y); [|exact Ib]. rewrite (nth_set _ _ _ _ _ Ex1), Nat.eqb_refl. reflexivity.
      * unfold l1 in Eu. rewrite (nth_set _ _ _ _ _ Ey) in Eu. destruct (Nat.eqb k j); [|auto]. injection Eu as <-. right. pose proof (G j y Ey) as Gy.
        destruct y as [p|p|p|p t|p v|v p|d|t]; cbn [moved_from good] in *; try exact I. destruct L2 as (L2 & _). destruct p as [r|]; [destruct Gy as (_ & Gy & _); lia|lia].
    + intros k u Eu Nc. cbn [changes] in Nc. unfold is in *. cbn [w_handles]. rewrite (nth_set _ _ _ _ _ Ex1). destruct (Nat.eqb k i) eqn:Q; [apply Nat.eqb_eq in Q; tauto|].
      unfold l1. rewrite (nth_set _ _ _ _ _ Ey). destruct (Nat.eqb k j) eqn:Q2; [apply Nat.eqb_eq in Q2; tauto|exact Eu].
  - destruct P as (x & E). destruct (sound_release (w_heap w) (owned x) (all_owned (set_object (w_handles w) i None))) as (h2 & Re & S2 & L2).
    { eapply sound_same; [|exact Sd]. intros b. rewrite occ_app. pose proof (all_owned_set (w_handles w) i (Some x) None b E) as Q. cbn [owned_if] in Q. rewrite occ_nil in Q. lia. }
    eexists. eexists. cbn [do_call]. rewrite (object_is _ _ _ E). cbn [obind]. rewrite Re. cbn [obind]. split; [reflexivity|]. split; [|split; [exact L2|]].
    + eapply right_set; [exact E|exact S2|exact L2|exact G|]. intros u X. discriminate X.
    + intros k u Eu Nc. cbn [changes] in Nc. unfold is in *. cbn [w_handles]. rewrite (nth_set _ _ _ _ _ E). destruct (Nat.eqb k i) eqn:Q; [apply Nat.eqb_eq in Q; congruence|exact Eu].
  - destruct P as ([d|] & E).
    2: { apply (went_same w _ A_thrown R). cbn [do_call]. rewrite (object_is _ _ _ E). reflexivity. }
    pose proof (G i _ E) as D. cbn [good] in D. destruct k.
    + destruct (sound_alloc (w_heap w) (all_owned (w_handles w)) B_data Sd) as (S1 & L1 & E1 & _); [intros ? ? ? X; discriminate X|].
      destruct (parse_right _ _ _ p S1 E1) as (y & h2 & Pa & S2 & L2 & G2 & _).
      eapply (went_made w (K_parse i true p) y h2 (w_handles w)); [exact R| |exact S2|eapply later_trans; eassumption|exact G2|auto|auto].
      cbn [do_call]. rewrite (object_is _ _ _ E). cbn [obind]. unfold copy_data. rewrite (read_right _ _ _ D). cbn [obind].
      cbn [allocate fst snd] in *. rewrite Pa. reflexivity.
    + destruct (used_up w i d E) as (U1 & U2 & U3).
      destruct (parse_right (w_heap w) _ d p (sound_same _ _ _ U1 Sd) D) as (y & h2 & Pa & S2 & L2 & G2 & _).
      eapply (went_made w (K_parse i false p) y h2 _); [exact R| |exact S2|exact L2|exact G2|exact U2|exact U3].
      cbn [do_call]. rewrite (object_is _ _ _ E). cbn [obind]. rewrite Pa. reflexivity.
  - destruct P as ([d|] & E).
    2: { apply (went_same w _ A_thrown R). cbn [do_call]. rewrite (object_is _ _ _ E). reflexivity. }
    pose proof (G i _ E) as D. cbn [good] in D. destruct k.
    + destruct (sound_alloc (w_heap w) (all_owned (w_handles w)) B_data Sd) as (S1 & L1 & E1 & _); [intros ? ? ? X; discriminate X|].
      destruct (make_iterator_right _ _ _ f S1 E1) as (y & h2 & Pa & S2 & L2 & G2).
      eapply (went_made w (K_iterator i true f) y h2 (w_handles w)); [exact R| |exact S2|eapply later_trans; eassumption|exact G2|auto|auto].
      cbn [do_call]. rewrite (object_is _ _ _ E). cbn [obind]. unfold copy_data. rewrite (read_right _ _ _ D). cbn [obind].
      cbn [allocate fst snd] in *. rewrite Pa. reflexivity.
    + destruct (used_up w i d E) as (U1 & U2 & U3).
      destruct (make_iterator_right (w_heap w) _ d f (sound_same _ _ _ U1 Sd) D) as (y & h2 & Pa & S2 & L2 & G2).
      eapply (went_made w (K_iterator i false f) y h2 _); [exact R| |exact S2|exact L2|exact G2|exact U2|exact U3].
      cbn [do_call]. rewrite (object_is _ _ _ E). cbn [obind]. rewrite Pa. reflexivity.
  - destruct P as ([it|] & E).
    2: { apply (went_same w _ A_thrown R). cbn [do_call]. rewrite (object_is _ _ _ E). reflexivity. }
    pose proof (G i _ E) as Gi. cbn [good] in Gi.
    set (others := all_owned (set_object (w_handles w) i None)).
    assert (Oc : forall b, occ b (all_owned (w_handles w)) = occ b (impl_roots it ++ others)).
    { intros b. pose proof (all_owned_set _ _ _ None b E) as Q. cbn [owned_if owned] in Q. rewrite occ_nil in Q. unfold others. rewrite occ_app. unfold impl_roots. lia. }
    destruct (steps_right st (w_heap w) others it (sound_same _ _ _ Oc Sd) Gi) as (it1 & h1 & St & S1 & L1 & G1 & _).
    eexists. eexists. cbn [do_call]. rewrite (object_is _ _ _ E). cbn [obind]. rewrite St. cbn [obind].
    destruct G1 as (G1a & G1b & G1c). rewrite G1a, (read_right _ _ _ G1b). cbn [obind]. split; [reflexivity|]. split; [|split; [exact L1|]].
    + eapply (right_table (w_heap w) h1 (w_handles w)); [|exact L1|exact G|].
      * eapply sound_same; [|exact S1]. intros b. rewrite all_owned_app, !occ_app.
        change (all_owned [Some (H_view (i_data it1)); Some (H_text (last (i_results it1) 0))]) with (@nil nat). rewrite occ_nil.
        pose proof (all_owned_set _ _ _ None b E) as Q. pose proof (all_owned_set _ _ _ (Some (H_iterator (Some it1))) b E) as Q2.
        cbn [owned_if owned] in Q, Q2. rewrite occ_nil in Q. fold others in Q. unfold impl_roots. lia.
      * intros k u Eu. apply nth_snoc in Eu. destruct Eu as [Eu|[Eu|[Eu|[]]]].
        -- rewrite (nth_set _ _ _ _ _ E) in Eu. destruct (Nat.eqb k i); [|auto]. injection Eu as <-. right. cbn [good]. split; [exact G1a|]. split; [exact G1b|exact G1c].
        -- injection Eu as <-. right. exact I.
        -- injection Eu as <-. right. exact I.
    + intros k u Eu Nc. cbn [changes] in Nc. unfold is in *. cbn [w_handles]. rewrite nth_error_app1 by (rewrite set_object_length; apply nth_error_Some; congruence).
      rewrite (nth_set _ _ _ _ _ E). destruct (Nat.eqb k i) eqn:Q; [apply Nat.eqb_eq in Q; congruence|exact Eu].
  - destruct P as ([it|] & E).
    2: { apply (went_same w _ A_thrown R). cbn [do_call]. rewrite (object_is _ _ _ E). reflexivity. }
    pose proof (G i _ E) as (_ & _ & N & Rs). destruct (Rs _ (last_in _ 0 N)) as (c & s & El).
    assert (B : body (w_heap w) (last (i_results it) 0) <> None) by (rewrite El; discriminate). destruct (retain_live _ _ B) as (h1 & Re).
    eapply (went_value w (K_current i) _ h1 (H_results (Some (last (i_results it) 0)))); [exact R|exact Re|reflexivity|exact B| |].
    + cbn [do_call]. rewrite (object_is _ _ _ E). cbn [obind]. rewrite Re. reflexivity.
    + exists (i_data it), c, s. exact El.
  - destruct P as (r & d & c & s & E & Co & Ln). rewrite contents_body in Co. destruct (nth_error s n) as [b|] eqn:Nb; [|apply nth_error_None in Nb; lia].
    destruct (proj2 Sd _ _ _ _ Co) as (_ & _ & T). destruct (T b (nth_error_In _ _ Nb)) as (_ & c' & s' & Eb).
    assert (B : body (w_heap w) b <> None) by (rewrite Eb; discriminate). destruct (retain_live _ _ B) as (h1 & Re).
    eapply (went_value w (K_subcommand i n) _ h1 (H_results (Some b))); [exact R|exact Re|reflexivity|exact B| |].
    + cbn [do_call]. rewrite (object_is _ _ _ E). cbn [obind]. rewrite (read_results_right _ _ _ _ _ Co). cbn [obind]. rewrite Nb, Re. reflexivity.
    + exists d, c', s'. exact Eb.
  - destruct P as (r & E). pose proof (G i _ E) as Gr. cbn [good] in Gr. pose proof Gr as (d & c & s & Er).
    assert (B : body (w_heap w) r <> None) by (rewrite Er; discriminate). destruct (retain_live _ _ B) as (h1 & Re).
    eapply (went_value w (K_value i) _ h1 (H_value (Some r) (Some r))); [exact R|exact Re|reflexivity|exact B| |].
    + cbn [do_call]. rewrite (object_is _ _ _ E). cbn [obind]. rewrite (read_results_right _ _ _ _ _ Er). cbn [obind]. rewrite Re. reflexivity.
    + split; [exact Gr|]. intros u X. injection X as <-. reflexivity.
  - destruct P as [(r & E)|(p & t & E)].
    + pose proof (G i _ E) as Gr. cbn [good] in Gr. pose proof Gr as (d & c & s & Er).
      destruct (retain_live (w_heap w) r ltac:(rewrite Er; discriminate)) as (h1 & Re).
      eapply (went_vector w (K_values i) r h1); [exact R|exact Re|exact Gr|]. cbn [do_call]. rewrite (object_is _ _ _ E). cbn [obind].
      rewrite (read_results_right _ _ _ _ _ Er). cbn [obind]. rewrite Re. reflexivity.
    + destruct p as [r|].
      2: { apply (went_same w _ A_thrown R). cbn [do_call]. rewrite (object_is _ _ _ E). reflexivity. }
      pose proof (G i _ E) as (Gr & T). pose proof Gr as (d & c & s & Er).
      destruct (retain_live (w_heap w) r ltac:(rewrite Er; discriminate)) as (h1 & Re).
      eapply (went_vector w (K_values i) r h1); [exact R|exact Re|exact Gr|]. cbn [do_call]. rewrite (object_is _ _ _ E). cbn [obind].
      destruct t as [t|]; [rewrite (T t eq_refl), (read_right _ _ _ Er); cbn [obind]|]; rewrite Re; reflexivity.
  - destruct P as (p & v & E). pose proof (G i _ E) as Gv. destruct p as [r|], v as [v|]; cbn [good] in Gv; try contradiction.
    + destruct Gv as (Gr & V). pose proof Gr as (d & c & s & Er). assert (B : body (w_heap w) r <> None) by (rewrite Er; discriminate). destruct (retain_live _ _ B) as (h1 & Re).
      eapply (went_value w (K_item i) _ h1 (H_value (Some r) (Some r))); [exact R|exact Re|reflexivity|exact B| |].
      * cbn [do_call]. rewrite (object_is _ _ _ E). cbn [obind]. destruct (body_cell _ _ _ V) as (m & ->). cbn [retain_if]. rewrite Re. reflexivity.
      * split; [exact Gr|]. intros u X. injection X as <-. reflexivity.
    + eapply (went_add w (K_item i) (w_heap w) (H_value None None)); [exact R| |exact Sd|apply later_refl|exact I].
      cbn [do_call]. rewrite (object_is _ _ _ E). reflexivity.
  - destruct P as (p & v & E). pose proof (G i _ E) as Gv. destruct p as [r|]; cbn [good] in Gv; [|contradiction].
    destruct Gv as (Gr & V). pose proof Gr as (d & c & s & Er). assert (B : body (w_heap w) r <> None) by (rewrite Er; discriminate). destruct (retain_live _ _ B) as (h1 & Re).
    eapply (went_value w (K_begin i) _ h1 (H_position v (Some r))); [exact R|exact Re|reflexivity|exact B| |].
    + cbn [do_call]. rewrite (object_is _ _ _ E). cbn [obind retain_if]. rewrite Re. reflexivity.
    + split; [exact Gr|]. split; [eapply body_length; exact V|]. intros t X. rewrite V in X. injection X as <-. reflexivity.
  - destruct P as (v & p & E & j & q & Ej). pose proof (G i _ E) as Gp. pose proof (G j _ Ej) as Gj. destruct q as [q|]; cbn [good] in Gj; [|contradiction].
    destruct Gj as (_ & V). destruct (body_cell _ _ _ V) as (m & Cv). destruct p as [r|]; cbn [good] in Gp.
    + destruct Gp as (Gr & _ & T). pose proof (T q V) as ->. pose proof Gr as (d & c & s & Er).
      assert (B : body (w_heap w) r <> None) by (rewrite Er; discriminate). destruct (retain_live _ _ B) as (h1 & Re).
      eapply (went_value w (K_deref i) _ h1 (H_value (Some r) (Some r))); [exact R|exact Re|reflexivity|exact B| |].
      * cbn [do_call]. rewrite (object_is _ _ _ E). cbn [obind]. rewrite Cv. cbn [retain_if]. rewrite Re. reflexivity.
      * split; [exact Gr|]. intros u X. injection X as <-. reflexivity.
    + eapply (went_add w (K_deref i) (w_heap w) (H_value None (Some q))); [exact R| |exact Sd|apply later_refl|exact I].
      cbn [do_call]. rewrite (object_is _ _ _ E). cbn [obind]. rewrite Cv. reflexivity.
  - destruct P as (p & [t|] & E).
    + eapply (went_add w (K_get i) (w_heap w) (H_text t)); [exact R| |exact Sd|apply later_refl|exact I]. cbn [do_call]. rewrite (object_is _ _ _ E). reflexivity.
    + apply (went_same w _ A_done R). cbn [do_call]. rewrite (object_is _ _ _ E). reflexivity.
  - assert (V : forall x r, is w i x -> has_results (w_heap w) r ->
      do_call w (K_view i) = (get (_, c, _) := read_results (w_heap w) r; get _ := read (w_heap w) c; add_object w (w_heap w) (H_view c)) -> went w (K_view i)).
    { intros x r E (d & c & s & Er) Q. destruct (proj2 Sd _ _ _ _ Er) as (-> & D & _).
      eapply (went_add w (K_view i) (w_heap w) (H_view d)); [exact R| |exact Sd|apply later_refl|exact I].
      rewrite Q, (read_results_right _ _ _ _ _ Er). cbn [obind]. rewrite (read_right _ _ _ D). reflexivity. }
    destruct P as [(r & E)|[(p & t & E)|(r & v & E)]]; pose proof (G i _ E) as Gx.
    + eapply V; [exact E|exact Gx|]. cbn [do_call]. rewrite (object_is _ _ _ E). reflexivity.
    + destruct p as [r|].
      * destruct Gx as (Gx & _). eapply V; [exact E|exact Gx|]. cbn [do_call]. rewrite (object_is _ _ _ E). reflexivity.
      * apply (went_same w _ A_thrown R). cbn [do_call]. rewrite (object_is _ _ _ E). reflexivity.
    + destruct v as [v|]; [|destruct Gx]. destruct Gx as (Gx & _). eapply V; [exact E|exact Gx|]. cbn [do_call]. rewrite (object_is _ _ _ E). reflexivity.
  - destruct P as (x & E & Rd). pose proof (G i _ E) as Gx.
    assert (K : forall b, kept w b -> exists y, read (w_heap w) b = Ok y) by (intros b K; apply read_live; apply kept_live; assumption).
    assert (Q : exists a, do_call w (K_read i) = Ok (a, w)).
    { cbn [do_call]. rewrite (object_is _ _ _ E). cbn [obind].
      destruct x as [[d|]|[it|]|[r|]|[r|] [t|]|p [v|]|v p|d|t]; cbn [readable good] in Rd, Gx; try (eexists; reflexivity); try contradiction.
      - rewrite (read_right _ _ _ Gx). eexists. reflexivity.
      - destruct Gx as (G1 & G2 & G3 & G4). rewrite G1, (read_right _ _ _ G2). cbn [obind]. destruct (G4 _ (last_in _ 0 G3)) as (c & s & El). rewrite (read_results_right _ _ _ _ _ El). eexists. reflexivity.
      - destruct Gx as (d & c & s & Er). rewrite (read_results_right _ _ _ _ _ Er). cbn [obind]. destruct (proj2 Sd _ _ _ _ Er) as (-> & D & _).
        rewrite (read_right _ _ _ D). eexists. reflexivity.
      - destruct Gx as ((d & c & s & Er) & T). rewrite (T t eq_refl), (read_right _ _ _ Er). eexists. reflexivity.
      - destruct (K t Rd) as (y & ->). eexists. reflexivity.
      - destruct p as [r|]; [|contradiction]. destruct Gx as ((d & c & s & Er) & V). destruct (body_cell _ _ _ V) as (m & ->). rewrite (read_right _ _ _ Er). eexists. reflexivity.
      - destruct (K d Rd) as (y & ->). eexists. reflexivity.
      - destruct (K t Rd) as (y & ->). eexists. reflexivity. }
    destruct Q as (a & Q). apply (went_same w _ a R Q).
Qed.

Lemma reachable_right : forall w, reachable w -> right w.
Proof.
  intros w H. induction H as [|w c a w' H IH P E]; [apply right_start|].
  destruct (call_right w c IH P) as (a2 & w2 & E2 & R2 & _). rewrite E in E2. injection E2 as -> ->. exact R2.
Qed.
Lemma calls_succeed : forall w c, reachable w -> proper w c -> exists a w', do_call w c = Ok (a, w').
Proof. intros w c H P. destruct (call_right w c (reachable_right w H) P) as (a & w' & E & _). eauto. Qed.

Lemma live_kept : forall w b, right w -> body (w_heap w) b <> None -> kept w b.
Proof.
  intros w b R.
  assert (Own : forall b, In b (all_owned (w_handles w)) -> kept w b).
  { intros c I. unfold all_owned in I. apply in_flat_map in I. destruct I as ([x|] & I & J); [|destruct J]. apply In_nth_error in I. destruct I as (i & E).
    eapply kept_owned; [exact E|]. apply owns_owned. exact J. }
  pose proof R as ((C & T) & G).
  assert (From : forall c, body (w_heap w) c <> None -> In c (all_owned (w_handles w)) \/
    exists a d e s, body (w_heap w) a = Some (B_results d e s) /\ (c = d \/ In c s)).
  { intros c L. specialize (C c). unfold body in L. destruct (cell (w_heap w) c) as [[n x]|]; [|congruence]. destruct C as (C & P).
    destruct (Nat.eq_dec (occ c (all_owned (w_handles w))) 0) as [Z|Z]; [|left; apply occ_in; lia]. right.
    destruct (in_pointers (w_heap w) c) as (a & m & y & Ea & I); [apply occ_in; lia|]. destruct y as [|d e s|t]; cbn [members] in I; [destruct I| |destruct I].
    exists a, d, e, s. split; [eapply cell_body; exact Ea|]. destruct I as [I|I]; auto. }
  assert (Res : forall n c d e s, c < n -> body (w_heap w) c = Some (B_results d e s) -> kept w c).
  { induction n as [|n IH]; intros c d e s L E; [lia|]. destruct (From c ltac:(rewrite E; discriminate)) as [I|(a & d' & e' & s' & Ea & I)]; [apply Own; exact I|].
    destruct (T a d' e' s' Ea) as (_ & D & Ss). destruct I as [->|I]; [congruence|]. destruct (Ss c I) as (La & _).
    eapply kept_held; [eapply (IH a); [lia|exact Ea]|rewrite contents_body; exact Ea|]. constructor. exact I. }
  intros L. destruct (From b L) as [I|(a & d & e & s & Ea & I)]; [apply Own; exact I|].
  eapply kept_held; [eapply (Res (S a) a); [lia|exact Ea]|rewrite contents_body; exact Ea|]. destruct I as [->|I]; constructor. exact I.
Qed.
Lemma live_iff : forall w b, reachable w -> (exists_ w b <-> kept w b).
Proof.
  intros w b H. unfold exists_. rewrite contents_body. split; [apply live_kept|apply kept_live]; apply reachable_right; exact H.
Qed.
Lemma nothing_left : forall w, reachable w -> (forall i x, ~ is w i x) -> forall b, ~ exists_ w b.
Proof. intros w H N b L. apply live_iff in L; [|exact H]. induction L as [i x b E O|a x b K IH C Ho]; [exact (N i x E)|exact IH]. Qed.

Lemma others_same : forall w c a w' i x, reachable w -> proper w c -> do_call w c = Ok (a, w') -> is w i x -> ~ changes c i -> is w' i x.
Proof.
  intros w c a w' i x H P E Ex N. destruct (call_right w c (reachable_right w H) P) as (a2 & w2 & E2 & _ & _ & O). rewrite E in E2. injection E2 as -> ->. apply O; assumption.
Qed.
Lemma blocks_grow : forall w c a w' b x y, reachable w -> proper w c -> do_call w c = Ok (a, w') ->
  contents w b = Some x -> contents w' b = Some y -> grown x y.
Proof.
  intros w c a w' b x y H P E Ex Ey. destruct (call_right w c (reachable_right w H) P) as (a2 & w2 & E2 & _ & L & _). rewrite E in E2. injection E2 as -> ->.
  rewrite contents_body in Ex, Ey. destruct L as (_ & L). specialize (L b (body_length _ _ _ Ex)). rewrite Ex, Ey in L. exact L.
Qed.

(** Reading. *)
Lemma read_answer : forall w i x a w', reachable w -> is w i x -> readable w x -> do_call w (K_read i) = Ok (a, w') ->
  w' = w /\ match refers w x with Some b => a = A_read b /\ exists_ w b | None => a = A_done \/ a = A_thrown end.
Proof.
  intros w i x a w' H E Rd D. pose proof (reachable_right w H) as (Sd & G). pose proof (G i x E) as Gx.
  cbn [do_call] in D. rewrite (object_is _ _ _ E) in D. cbn [obind] in D. unfold exists_.
  assert (Rl : forall b y, read (w_heap w) b = Ok y -> contents w b <> None).
  { intros b y Q. rewrite contents_body. unfold body. unfold read in Q. destruct (cell (w_heap w) b) as [[n z]|]; [discriminate|discriminate Q]. }
  destruct x as [[d|]|[it|]|[r|]|[r|] [t|]|p [v|]|v p|d|t]; cbn [readable good refers] in *; try contradiction;
    try (injection D as <- <-; auto; fail).
  - destruct (read (w_heap w) d) as [y| |] eqn:Q; cbn [obind] in D; try discriminate D. injection D as <- <-. split; [reflexivity|]. split; [reflexivity|]. eapply Rl. exact Q.
  - destruct (read (w_heap w) (i_data it)); cbn [obind] in D; try discriminate D. destruct (read (w_heap w) (i_command it)); cbn [obind] in D; try discriminate D.
    destruct Gx as (G1 & G2 & G3 & G4). destruct (G4 _ (last_in _ 0 G3)) as (c & s & El). rewrite (read_results_right _ _ _ _ _ El) in D. cbn [obind] in D. injection D as <- <-.
    split; [reflexivity|]. split; [reflexivity|]. rewrite contents_body, El. discriminate.
  - destruct Gx as (d & c & s & Er). rewrite (read_results_right _ _ _ _ _ Er) in D. cbn [obind] in D.
    destruct (read (w_heap w) d); cbn [obind] in D; try discriminate D. destruct (read (w_heap w) c); cbn [obind] in D; try discriminate D. injection D as <- <-.
    split; [reflexivity|]. split; [reflexivity|]. rewrite contents_body, Er. discriminate.
  - destruct (read (w_heap w) t) as [y| |] eqn:Q; cbn [obind] in D; try discriminate D. injection D as <- <-. split; [reflexivity|]. split; [reflexivity|]. eapply Rl. exact Q.
  - destruct (read (w_heap w) t) as [y| |] eqn:Q; cbn [obind] in D; try discriminate D. injection D as <- <-. split; [reflexivity|]. split; [reflexivity|]. eapply Rl. exact Q.
  - destruct p as [r|]; [|contradiction]. destruct Gx as (_ & V). destruct (body_cell _ _ _ V) as (m & Cv). rewrite Cv in D. rewrite contents_body, V.
    destruct (read (w_heap w) r) as [y| |] eqn:Q; cbn [obind] in D; try discriminate D. injection D as <- <-. split; [reflexivity|]. split; [reflexivity|]. eapply Rl. exact Q.
  - destruct (read (w_heap w) d) as [y| |] eqn:Q; cbn [obind] in D; try discriminate D. injection D as <- <-. split; [reflexivity|]. split; [reflexivity|]. eapply Rl. exact Q.
  - destruct (read (w_heap w) t) as [y| |] eqn:Q; cbn [obind] in D; try discriminate D. injection D as <- <-. split; [reflexivity|]. split; [reflexivity|]. eapply Rl. exact Q.
Qed.
