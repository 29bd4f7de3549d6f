(** The tokenizers in memory follow the plain tokenizers. *)
From Verif Require Import Base BaseProofs MOptIter MBuffer STok TokProofs SBuffer.
Open Scope nat_scope.

(* ------------------------------------------------------------------------ *)
(** ** Blocks *)

Lemma set_block_length : forall h b x, length (set_block h b x) = length h.
Proof. induction h as [|y r IH]; intros [|b] x; cbn; auto. Qed.
Lemma set_block_same : forall h b x, b < length h -> nth_error (set_block h b x) b = Some x.
Proof. induction h as [|y r IH]; intros [|b] x L; cbn in *; try lia; auto. apply IH. lia. Qed.
Lemma set_block_other : forall h b c x, c <> b -> nth_error (set_block h b x) c = nth_error h c.
Proof. induction h as [|y r IH]; intros [|b] [|c] x L; cbn in *; auto; try congruence. Qed.

Lemma block_lt : forall h b l, block h b = Some l -> b < length h.
Proof. intros h b l E. unfold block in E. apply nth_error_Some. destruct (nth_error h b); congruence. Qed.
Lemma block_set_same : forall h b l, b < length h -> block (set_block h b (Some l)) b = Some l.
Proof. intros. unfold block. rewrite set_block_same by assumption. reflexivity. Qed.
Lemma block_set_other : forall h b c x, c <> b -> block (set_block h b x) c = block h c.
Proof. intros. unfold block. rewrite set_block_other by assumption. reflexivity. Qed.
Lemma block_release : forall h b, block (release h b) b = None.
Proof.
  intros. unfold block, release. destruct (Nat.lt_ge_cases b (length h)) as [L|L].
  - rewrite set_block_same by exact L. reflexivity.
  - destruct (nth_error (set_block h b None) b) eqn:E; [|reflexivity].
    exfalso. assert (b < length (set_block h b None)) by (apply nth_error_Some; congruence). rewrite set_block_length in H. lia.
Qed.
Lemma block_alloc_same : forall h l, block (h ++ [Some l]) (length h) = Some l.
Proof. intros. unfold block. rewrite nth_error_app2 by lia. rewrite Nat.sub_diag. reflexivity. Qed.
Lemma block_alloc_other : forall h l b, b <> length h -> block (h ++ [Some l]) b = block h b.
Proof.
  intros. unfold block. destruct (Nat.lt_ge_cases b (length h)) as [L|L].
  - rewrite nth_error_app1 by exact L. reflexivity.
  - rewrite nth_error_app2 by exact L. destruct (b - length h) as [|n] eqn:E; [lia|]. cbn.
    replace (nth_error h b) with (@None (option (list str))) by (symmetry; apply nth_error_None; lia). destruct n; reflexivity.
Qed.

(* ------------------------------------------------------------------------ *)
(** ** One iterator *)

Lemma skipn_tail : forall {A} n (l : list A) a r, skipn n l = a :: r -> skipn (S n) l = r.
Proof.
  intros A. induction n as [|n IH]; intros [|x l] a r E; try discriminate E; [cbn in *; congruence|].
  change (skipn (S (S n)) (x :: l)) with (skipn (S n) l). apply (IH l a). exact E.
Qed.

Lemma firstn_more : forall {A} n (l : list A) a r, skipn n l = a :: r -> firstn (S n) l = firstn n l ++ [a].
Proof.
  intros A. induction n as [|n IH]; intros [|x l] a r E; try discriminate E; [cbn in *; congruence|].
  cbn [firstn app]. f_equal. apply (IH l a r). exact E.
Qed.

Record rep (h : blocks) (t : tokenizer) (it : opt_iter) : Prop := {
  rp_kind : tk_kind t = it_kind it;
  rp_pos : tk_pos t = it_pos it;
  rp_span : sp_block (tk_args t) = tk_all t;
  rp_list : exists l, block h (tk_all t) = Some l /\ sp_from (tk_args t) + sp_size (tk_args t) = length l /\
    it_args it = skipn (sp_from (tk_args t)) l
}.

Lemma rep_size : forall h t it, rep h t it -> sp_size (tk_args t) = length (it_args it).
Proof. intros h t it [_ _ _ (l & _ & E & ->)]. rewrite skipn_length. lia. Qed.
Lemma rep_at : forall h t it a r, rep h t it -> it_args it = a :: r -> sp_at h (tk_args t) 0 = Ok a.
Proof.
  intros h t it a r R E. pose proof (rep_size h t it R) as Z. rewrite E in Z. destruct R as [_ _ Sb (l & B & Le & Ea)].
  unfold sp_at. rewrite Z. cbn [length Nat.ltb Nat.leb]. rewrite Sb, B, Nat.add_0_r.
  rewrite Ea in E. rewrite <- (firstn_skipn (sp_from (tk_args t)) l) at 1. rewrite E.
  rewrite nth_error_app2 by (rewrite firstn_length; lia). rewrite firstn_length, Nat.min_l by lia. rewrite Nat.sub_diag. reflexivity.
Qed.
Lemma rep_pop : forall h t it a r, rep h t it -> it_args it = a :: r ->
  exists s, sp_pop (tk_args t) = Ok s /\ forall p, rep h (mk_tok (tk_kind t) (tk_all t) s p) (mk_iter (it_kind it) r p).
Proof.
  intros h t it a r R E. pose proof (rep_size h t it R) as Z. rewrite E in Z. cbn [length] in Z.
  unfold sp_pop. rewrite Z. eexists. split; [reflexivity|]. intros p. destruct R as [K P Sb (l & B & Le & Ea)].
  constructor; cbn; auto. exists l. split; [exact B|]. split; [lia|].
  rewrite Ea in E. symmetry. apply (skipn_tail _ _ a). exact E.
Qed.

Lemma rep_with : forall h t it p, rep h t it -> rep h (mk_tok (tk_kind t) (tk_all t) (tk_args t) p) (mk_iter (it_kind it) (it_args it) p).
Proof. intros h t it p [K P Sb L]. constructor; cbn; auto. Qed.

Lemma first_rep : forall h k all s args p, rep h (mk_tok k all s p) (mk_iter k args p) ->
  match (match k with KStandard => std_first args | KPrefix c => pre_first c args end) with
  | Ok (r, it') => exists t', tok_first h k all s = Ok (r, t') /\ rep h t' it' /\ tk_all t' = all
  | Bad => True
  end.
Proof.
  intros h k all s args p R.
  assert (Q : forall p', rep h (mk_tok k all s p') (mk_iter k args p')) by (intros p'; apply (rep_with _ _ _ p' R)).
  pose proof (rep_size _ _ _ R) as Z. cbn in Z. unfold tok_first. rewrite Z.
  destruct args as [|a r]; cbn [length Nat.eqb].
  - destruct k; cbn; eexists; (split; [reflexivity|split; [apply Q|reflexivity]]).
  - pose proof (rep_at _ _ _ a r R eq_refl) as Ra. cbn [tk_args] in Ra. rewrite Ra. cbn [rbind].
    unfold std_first, pre_first. destruct (Nat.leb_spec (length a) 2) as [L|L].
    { destruct k; eexists; (split; [reflexivity|split; [apply Q|reflexivity]]). }
    destruct a as [|c0 [|c1 a]]; cbn in L; try lia. cbn [nth_error of_option rbind].
    destruct k as [|c]; cbn [negb].
    + destruct (negb (Ascii.eqb c0 c_dash)); [eexists; split; [reflexivity|split; [apply Q|reflexivity]]|].
      destruct (negb (Ascii.eqb c1 c_dash)); [eexists; split; [reflexivity|split; [apply Q|reflexivity]]|].
      destruct (find_char c_eq (c0 :: c1 :: a)); eexists; (split; [reflexivity|split; [apply Q|reflexivity]]).
    + destruct (negb (Ascii.eqb c0 c)); [eexists; split; [reflexivity|split; [apply Q|reflexivity]]|].
      destruct (find_char c_eq (c0 :: c1 :: a)); eexists; (split; [reflexivity|split; [apply Q|reflexivity]]).
Qed.

Lemma next_rep : forall h t it r it', rep h t it -> it_next it = Ok (r, it') ->
  exists t', tok_next h t = Ok (r, t') /\ rep h t' it' /\ tk_all t' = tk_all t.
Proof.
  intros h [k all s p] [k' args p'] r it' R E. pose proof (rp_kind _ _ _ R) as Ek. pose proof (rp_pos _ _ _ R) as Ep.
  cbn in Ek, Ep. subst k' p'. unfold tok_next. cbn [tk_pos tk_args tk_kind tk_all].
  unfold it_next, std_next, pre_next in E. cbn [it_kind it_pos it_args] in E.
  destruct (pos_nonzero p) eqn:Np.
  - destruct args as [|a rest]; [destruct k; discriminate E|].
    destruct (rep_pop _ _ _ a rest R eq_refl) as (s' & Es & Q). cbn [tk_args tk_kind tk_all it_kind] in Es, Q.
    pose proof (rep_at _ _ _ a rest R eq_refl) as Ra. cbn [tk_args] in Ra. rewrite Ra, Es. cbn [rbind].
    pose proof (first_rep h k all s' rest p (Q p)) as F.
    destruct k as [|c].
    + destruct p as [n|].
      * destruct (n <? length a); [|rewrite E in F; exact F].
        destruct (nth_error a 1) as [c1|]; [|discriminate E]. cbn [of_option rbind].
        destruct (nth_error a n) as [c|]; [|discriminate E].
        destruct (negb (Ascii.eqb c1 c_dash)); [|rewrite E in F; exact F]. cbn [of_option rbind]. injection E as <- <-.
        eexists. split; [reflexivity|]. split; [|reflexivity]. apply (rep_with _ _ _ _ R).
      * rewrite E in F. exact F.
    + rewrite E in F. exact F.
  - pose proof (first_rep h k all s args p R) as F. destruct k; rewrite E in F; exact F.
Qed.

Lemma next_value_rep : forall h t it r it', rep h t it -> it_next_value it = Ok (r, it') ->
  exists t', tok_next_value h t = Ok (r, t') /\ rep h t' it' /\ tk_all t' = tk_all t.
Proof.
  intros h [k all s p] [k' args p'] r it' R E. pose proof (rp_kind _ _ _ R) as Ek. pose proof (rp_pos _ _ _ R) as Ep.
  cbn in Ek, Ep. subst k' p'. unfold tok_next_value. cbn [tk_pos tk_args tk_kind tk_all].
  pose proof (rep_size _ _ _ R) as Z. cbn in Z. rewrite Z.
  unfold it_next_value, std_next_value, pre_next_value in E. cbn [it_kind it_pos it_args] in E.
  destruct args as [|a rest]; cbn [length Nat.eqb].
  { destruct k; injection E as <- <-; eexists; (split; [reflexivity|split; [exact R|reflexivity]]). }
  destruct (rep_pop _ _ _ a rest R eq_refl) as (s' & Es & Q). cbn [tk_args tk_kind tk_all it_kind] in Es, Q.
  pose proof (rep_at _ _ _ a rest R eq_refl) as Ra. cbn [tk_args] in Ra. rewrite Ra, Es. cbn [rbind].
  destruct p as [n|].
  - destruct (n <=? length a); [|destruct k; discriminate E].
    destruct k; injection E as <- <-; eexists; (split; [reflexivity|split; [apply (rep_with _ _ _ Npos R)|reflexivity]]).
  - pose proof (rep_size _ _ _ (Q Npos)) as Z'. cbn in Z'. rewrite Z'.
    destruct rest as [|b rest]; cbn [length Nat.eqb].
    + destruct k; injection E as <- <-; eexists; (split; [reflexivity|split; [apply Q|reflexivity]]).
    + pose proof (rep_at _ _ _ b rest (Q Npos) eq_refl) as Rb. cbn [tk_args] in Rb. rewrite Rb. cbn [rbind].
      destruct k; injection E as <- <-; eexists; (split; [reflexivity|split; [apply Q|reflexivity]]).
Qed.

Lemma current_rep : forall h t it, rep h t it ->
  match tok_current t, it_current it with
  | None, None => True
  | Some v, Some s => view_text h v = Some s /\ fst v = tk_all t
  | _, _ => False
  end.
Proof.
  intros h t it R. pose proof (rep_size _ _ _ R) as Z. unfold tok_current, it_current. rewrite Z.
  destruct (it_args it) as [|a r] eqn:E; cbn; [exact Logic.I|].
  pose proof (rep_at _ _ _ a r R E) as Ra. unfold sp_at in Ra. unfold view_text. cbn [fst snd].
  destruct (0 <? sp_size (tk_args t)); [|discriminate Ra]. rewrite Nat.add_0_r in Ra.
  destruct (block h (sp_block (tk_args t))) as [l|]; [|discriminate Ra].
  destruct (nth_error l (sp_from (tk_args t))); [|discriminate Ra]. injection Ra as ->. split; [reflexivity|apply (rp_span _ _ _ R)].
Qed.

(** Calls that may move the arguments. *)
Record frame (h : blocks) (t : tokenizer) (h' : blocks) (t' : tokenizer) : Prop := {
  fr_length : length h <= length h';
  fr_all : tk_all t' = tk_all t \/ length h <= tk_all t';
  fr_other : forall b, b <> tk_all t -> b < length h -> block h' b = block h b;
  fr_live : forall b, block h' b <> None -> b = tk_all t' \/ (b < length h /\ b <> tk_all t)
}.
Lemma frame_refl : forall h t, frame h t h t.
Proof.
  intros. constructor; auto. intros b N. destruct (Nat.eq_dec b (tk_all t)) as [->|D]; [auto|right].
  destruct (block h b) eqn:E; [|congruence]. apply block_lt in E. auto.
Qed.
Lemma frame_trans : forall h t h1 t1 h2 t2, tk_all t < length h -> frame h t h1 t1 -> frame h1 t1 h2 t2 -> frame h t h2 t2.
Proof.
  intros h t h1 t1 h2 t2 Lt [L1 A1 O1 V1] [L2 A2 O2 V2]. constructor.
  - lia.
  - destruct A2 as [->|A2]; [exact A1|right; lia].
  - intros b D Lb. rewrite O2; [apply O1; assumption| |lia]. destruct A1 as [->|A1]; [exact D|lia].
  - intros b N. destruct (V2 b N) as [->|(Lb & D)]; [auto|]. rewrite O2 in N by assumption.
    destruct (V1 b N) as [->|X]; [congruence|auto].
Qed.

Lemma index_rep : forall h t it, rep h t it -> args_index h t = Ok (sp_from (tk_args t)).
Proof.
  intros h t it [_ _ _ (l & B & E & _)]. unfold args_index. rewrite B. cbn [of_option rbind].
  replace (sp_size (tk_args t) <=? length l) with true by (symmetry; apply Nat.leb_le; lia).
  f_equal. lia.
Qed.

(** Replacing the block by one with the same consumed part. *)
Lemma insert_rep : forall h t it l j new, rep h t it -> block h (tk_all t) = Some l -> sp_from (tk_args t) <= j <= length l ->
  let b := length h in
  exists h', vec_insert h (tk_all t) j new = Ok (b, h') /\ length h' = S (length h) /\
    block h' b = Some (firstn j l ++ new ++ skipn j l) /\
    (forall c, c <> tk_all t -> c <> b -> block h' c = block h c) /\ block h' (tk_all t) = None.
Proof.
  intros h t it l j new R B J b. unfold vec_insert. rewrite B. cbn [of_option rbind].
  replace (j <=? length l) with true by (symmetry; apply Nat.leb_le; lia). unfold allocate, release.
  rewrite set_block_length. eexists. split; [reflexivity|].
  pose proof (block_lt _ _ _ B) as Lt. split; [rewrite app_length, set_block_length; cbn; lia|].
  assert (Lb : length (set_block h (tk_all t) None) = b) by apply set_block_length.
  split; [rewrite <- Lb; apply block_alloc_same|]. split.
  - intros c D1 D2. rewrite block_alloc_other by congruence. apply block_set_other. exact D1.
  - rewrite block_alloc_other by (unfold b in Lb; lia). apply block_release.
Qed.

Lemma set_nth_app : forall l1 x l2 y, set_nth (l1 ++ x :: l2) (length l1) y = l1 ++ y :: l2.
Proof. induction l1 as [|z r IH]; intros; cbn; [reflexivity|]. f_equal. apply IH. Qed.
Lemma nth_app : forall {A} (l1 : list A) x l2, nth_error (l1 ++ x :: l2) (length l1) = Some x.
Proof. intros A l1 x l2. rewrite nth_error_app2 by lia. rewrite Nat.sub_diag. reflexivity. Qed.

Lemma split_rep : forall h t it it', rep h t it -> split_concatenated_flags it = Ok it' ->
  exists h' t', tok_split h t = Ok (h', t') /\ rep h' t' it' /\ frame h t h' t' /\
    ((forall a r k c, it_args it = a :: r -> it_pos it = At (S k) -> nth_error a 1 = Some c -> S k < length a -> c = c_dash) -> h' = h /\ t' = t).
Proof.
  intros h [k all s p] [k' args p'] it' R E. pose proof (rp_kind _ _ _ R) as Ek. pose proof (rp_pos _ _ _ R) as Ep.
  cbn in Ek, Ep. subst k' p'. unfold tok_split. cbn [tk_pos tk_args tk_kind tk_all].
  unfold split_concatenated_flags in E. cbn [it_kind it_pos it_args] in E |- *.
  assert (Same : it' = mk_iter k args p -> exists h' t', Ok (h, mk_tok k all s p) = Ok (h', t') /\ rep h' t' it' /\ frame h (mk_tok k all s p) h' t' /\
    ((forall a r k c, args = a :: r -> p = At (S k) -> nth_error a 1 = Some c -> S k < length a -> c = c_dash) -> h' = h /\ t' = mk_tok k all s p)).
  { intros ->. exists h, (mk_tok k all s p). split; [reflexivity|]. split; [exact R|]. split; [apply frame_refl|auto]. }
  destruct (pos_nonzero p) eqn:Np; [|apply Same; congruence].
  destruct args as [|a rest]; [discriminate E|].
  pose proof (rep_at _ _ _ a rest R eq_refl) as Ra. cbn [tk_args] in Ra. rewrite Ra. cbn [rbind].
  destruct p as [n|]; [|apply Same; congruence].
  destruct (Nat.leb_spec (length a) n) as [Ln|Ln]; [apply Same; congruence|].
  destruct (nth_error a 1) as [c1|] eqn:E1; [|discriminate E]. cbn [of_option rbind].
  destruct (Ascii.eqb c1 c_dash) eqn:Ec; [apply Same; congruence|].
  injection E as <-. rewrite (index_rep _ _ _ R). cbn [rbind tk_args].
  destruct (rp_list _ _ _ R) as (l & B & Le & Ea). cbn [tk_args tk_all it_args] in B, Le, Ea.
  set (i := sp_from s) in *. pose proof (rep_size _ _ _ R) as Z. cbn in Z.
  assert (Dl : l = firstn i l ++ a :: rest) by (rewrite Ea; symmetry; apply firstn_skipn).
  assert (Li : length (firstn i l) = i) by (rewrite firstn_length; lia).
  set (fl := c_dash :: skipn n a : str). change (c_dash :: skipn n a) with fl.
  pose (nw := [fl] : list str). change [fl] with nw.
  destruct (insert_rep h _ _ l (S i) nw R B) as (h1 & V & L1 & B1 & O1 & N1); [cbn [tk_args]; fold i; lia|].
  cbn [tk_all] in V, O1, N1. rewrite V. cbn [rbind]. rewrite B1. cbn [of_option rbind].
  assert (D1 : firstn (S i) l ++ nw ++ skipn (S i) l = firstn i l ++ a :: fl :: rest).
  { rewrite (skipn_tail i l a rest) by (symmetry; exact Ea).
    rewrite (firstn_more i l a rest) by (symmetry; exact Ea). rewrite <- app_assoc. reflexivity. }
  rewrite D1 in B1. rewrite D1. replace (nth_error (firstn i l ++ a :: fl :: rest) i) with (Some a) by (rewrite <- Li at 2; symmetry; apply nth_app). cbn [of_option rbind].
  replace (set_nth (firstn i l ++ a :: fl :: rest) i (firstn n a)) with (firstn i l ++ firstn n a :: fl :: rest) by (rewrite <- Li at 3; symmetry; apply set_nth_app). unfold span_from.
  pose proof (block_lt _ _ _ B1) as Lb1.
  rewrite block_set_same by exact Lb1. cbn [of_option rbind].
  replace (i <=? length (firstn i l ++ firstn n a :: fl :: rest)) with true
    by (symmetry; apply Nat.leb_le; rewrite app_length, Li; lia).
  cbn [rbind]. eexists _, _. split; [reflexivity|]. split; [|split].
  - constructor; cbn; auto. eexists. split; [apply block_set_same; exact Lb1|]. split.
    + rewrite app_length, Li. cbn. lia.
    + rewrite skipn_app, Li, Nat.sub_diag. rewrite (skipn_all2 (firstn i l)) by lia. reflexivity.
  - constructor; cbn [tk_all].
    + rewrite set_block_length. lia.
    + right. lia.
    + intros b D Lb. rewrite block_set_other by lia. apply O1; [exact D|lia].
    + intros b Nb. destruct (Nat.eq_dec b (length h)) as [->|D]; [auto|right]. rewrite block_set_other in Nb by exact D.
      destruct (Nat.eq_dec b all) as [->|D2]; [congruence|]. rewrite O1 in Nb by assumption.
      destruct (block h b) eqn:Eb; [|congruence]. apply block_lt in Eb. auto.
  - intros H. exfalso. destruct n as [|n]; [discriminate Np|]. rewrite (H a rest n c1 eq_refl eq_refl E1 Ln) in Ec.
    rewrite Ascii.eqb_refl in Ec. discriminate Ec.
Qed.

Lemma kind_split : forall h t it, rep h t it ->
  forall it1, match it_kind it with KStandard => split_concatenated_flags it | KPrefix _ => Ok it end = Ok it1 ->
  exists h1 t1, match tk_kind t with KStandard => tok_split h t | KPrefix _ => Ok (h, t) end = Ok (h1, t1) /\
    rep h1 t1 it1 /\ frame h t h1 t1 /\
    ((it_kind it = KStandard -> forall a r k c, it_args it = a :: r -> it_pos it = At (S k) -> nth_error a 1 = Some c -> S k < length a -> c = c_dash) -> h1 = h /\ t1 = t).
Proof.
  intros h t it R it1 E. rewrite (rp_kind _ _ _ R). destruct (it_kind it).
  - destruct (split_rep h t it it1 R E) as (h1 & t1 & X1 & X2 & X3 & X4). exists h1, t1. split; [exact X1|]. split; [exact X2|]. split; [exact X3|]. intros Q; apply X4; exact (Q eq_refl).
  - injection E as <-. exists h, t. split; [reflexivity|]. split; [exact R|]. split; [apply frame_refl|auto].
Qed.

Lemma remaining_rep : forall h t it r it', rep h t it -> it_remaining it = Ok (r, it') ->
  exists s h' t', tok_remaining h t = Ok (s, h', t') /\ rep h' t' it' /\ frame h t h' t' /\
    sp_read h' s = Some r /\ sp_block s = tk_all t' /\
    ((it_kind it = KStandard -> forall a r k c, it_args it = a :: r -> it_pos it = At (S k) -> nth_error a 1 = Some c -> S k < length a -> c = c_dash) -> h' = h /\ t' = t).
Proof.
  intros h t it r it' R E. unfold tok_remaining.
  assert (E1 : exists it1, match it_kind it with KStandard => split_concatenated_flags it | KPrefix _ => Ok it end = Ok it1 /\ remaining_tail it1 = Ok (r, it')).
  { unfold it_remaining, std_remaining in E. destruct (it_kind it); [|eauto]. destruct (split_concatenated_flags it); [eauto|discriminate E]. }
  destruct E1 as (it1 & E1 & E2). destruct (kind_split h t it R it1 E1) as (h1 & t1 & X1 & R1 & F1 & S1). rewrite X1. cbn [rbind].
  unfold remaining_tail in E2. rewrite (rp_pos _ _ _ R1). destruct (pos_nonzero (it_pos it1)) eqn:Np.
  - unfold subspan1 in E2. destruct (it_args it1) as [|a rest] eqn:Ea; [discriminate E2|]. injection E2 as <- <-.
    destruct (rep_pop _ _ _ a rest R1 Ea) as (s & Es & Q). rewrite Es. cbn [rbind]. exists s, h1, t1.
    split; [reflexivity|]. split; [exact R1|]. split; [exact F1|]. specialize (Q Npos).
    pose proof (rp_span _ _ _ Q) as Sb. cbn in Sb. destruct (rp_list _ _ _ Q) as (l & B & Le & El). cbn in B, Le, El.
    split; [|split; [exact Sb|exact S1]]. unfold sp_read. rewrite Sb, B.
    replace (sp_from s + sp_size s <=? length l) with true by (symmetry; apply Nat.leb_le; lia).
    rewrite firstn_all2; [f_equal; symmetry; exact El|]. rewrite skipn_length. lia.
  - injection E2 as <- <-. exists (tk_args t1), h1, t1.
    split; [reflexivity|]. split; [exact R1|]. split; [exact F1|].
    pose proof (rp_span _ _ _ R1) as Sb. destruct (rp_list _ _ _ R1) as (l & B & Le & El).
    split; [|split; [exact Sb|exact S1]]. unfold sp_read. rewrite Sb, B.
    replace (sp_from (tk_args t1) + sp_size (tk_args t1) <=? length l) with true by (symmetry; apply Nat.leb_le; lia).
    rewrite firstn_all2; [f_equal; symmetry; exact El|]. rewrite skipn_length. lia.
Qed.

Lemma insert_call_rep : forall h t it new it', rep h t it -> it_insert it new = Ok it' ->
  exists h' t', tok_insert h t new = Ok (h', t') /\ rep h' t' it' /\ frame h t h' t'.
Proof.
  intros h t it new it' R E. unfold tok_insert.
  assert (E1 : exists it1, match it_kind it with KStandard => split_concatenated_flags it | KPrefix _ => Ok it end = Ok it1 /\ insert_tail it1 new = Ok it').
  { unfold it_insert, std_insert in E. destruct (it_kind it); [|eauto]. destruct (split_concatenated_flags it); [eauto|discriminate E]. }
  destruct E1 as (it1 & E1 & E2). destruct (kind_split h t it R it1 E1) as (h1 & t1 & X1 & R1 & F1 & _). rewrite X1. cbn [rbind].
  rewrite (index_rep _ _ _ R1). cbn [rbind].
  destruct (rp_list _ _ _ R1) as (l & B & Le & Ea). set (i := sp_from (tk_args t1)) in *.
  set (j := if pos_nonzero (tk_pos t1) then S i else i).
  pose proof (rep_size _ _ _ R1) as Z. unfold insert_tail in E2. rewrite <- (rp_pos _ _ _ R1) in E2.
  assert (J : i <= j <= length l /\ it_kind it' = it_kind it1 /\ it_pos it' = it_pos it1 /\ it_args it' = skipn i (firstn j l ++ new ++ skipn j l) /\ length l = i + length (it_args it1)).
  { assert (Ll : length l = i + length (it_args it1)) by lia.
    assert (Li : length (firstn i l) = i) by (rewrite firstn_length; lia). unfold j. destruct (pos_nonzero (tk_pos t1)).
    - destruct (it_args it1) as [|a rest] eqn:Ei; [discriminate E2|]. injection E2 as <-. cbn [it_kind it_pos it_args].
      split; [cbn in Ll; lia|]. split; [reflexivity|]. split; [apply (rp_pos _ _ _ R1)|]. split; [|exact Ll].
      rewrite (skipn_tail i l a rest) by (symmetry; exact Ea). rewrite (firstn_more i l a rest) by (symmetry; exact Ea).
      rewrite <- app_assoc. rewrite skipn_app, Li, Nat.sub_diag. rewrite (skipn_all2 (firstn i l)) by lia. reflexivity.
    - injection E2 as <-. cbn [it_kind it_pos it_args].
      split; [lia|]. split; [reflexivity|]. split; [apply (rp_pos _ _ _ R1)|]. split; [|exact Ll].
      rewrite skipn_app, Li, Nat.sub_diag. rewrite (skipn_all2 (firstn i l)) by lia. cbn [skipn app]. rewrite <- Ea. reflexivity. }
  clear E2. destruct J as (J1 & J2 & J3 & J4 & J5).
  destruct (insert_rep h1 t1 it1 l j new R1 B J1) as (h2 & V & L2 & B2 & O2 & N2). rewrite V. cbn [rbind].
  unfold span_from. rewrite B2. cbn [of_option rbind].
  assert (Lj : length (firstn j l ++ new ++ skipn j l) = length l + length new).
  { rewrite !app_length, firstn_length, skipn_length. lia. }
  replace (i <=? length (firstn j l ++ new ++ skipn j l)) with true by (symmetry; apply Nat.leb_le; rewrite Lj; lia).
  cbn [rbind]. eexists h2, _. split; [reflexivity|]. split.
  - constructor; cbn [tk_kind tk_pos tk_args tk_all sp_block sp_from sp_size]; [rewrite J2; apply R1|rewrite J3; apply R1|reflexivity|].
    eexists. split; [exact B2|]. split; [lia|exact J4].
  - apply (frame_trans h t h1 t1); [destruct (rp_list _ _ _ R) as (l0 & B0 & _); eapply block_lt; exact B0|exact F1|].
    constructor; cbn [tk_all].
    + lia.
    + right. lia.
    + intros b D Lb. apply O2; [exact D|lia].
    + intros b Nb. destruct (Nat.eq_dec b (length h1)) as [->|D]; [auto|right].
      destruct (Nat.eq_dec b (tk_all t1)) as [->|D2]; [congruence|]. rewrite O2 in Nb by assumption.
      destruct (block h1 b) eqn:Eb; [|congruence]. apply block_lt in Eb. auto.
Qed.

Lemma copy_rep : forall h t it, rep h t it ->
  exists h' t', tok_copy h t = Ok (h', t') /\ rep h' t' it /\ tk_all t' = length h /\ length h' = S (length h) /\
    (forall b, b <> length h -> block h' b = block h b).
Proof.
  intros h t it R. unfold tok_copy. destruct (rp_list _ _ _ R) as (l & B & Le & Ea). rewrite B. cbn [of_option rbind].
  rewrite (index_rep _ _ _ R). cbn [rbind]. unfold allocate. unfold span_from. rewrite block_alloc_same. cbn [of_option rbind].
  replace (sp_from (tk_args t) <=? length l) with true by (symmetry; apply Nat.leb_le; lia). cbn [rbind].
  eexists _, _. split; [reflexivity|]. split; [|split; [reflexivity|split; [rewrite app_length; cbn; lia|intros b D; apply block_alloc_other; exact D]]].
  constructor; cbn; [apply R|apply R|reflexivity|]. exists l. split; [apply block_alloc_same|]. split; [lia|exact Ea].
Qed.

Lemma rep_frame : forall h h' t it, rep h t it -> block h' (tk_all t) = block h (tk_all t) -> rep h' t it.
Proof. intros h h' t it [K P Sb (l & B & X)] E. constructor; auto. exists l. rewrite E. auto. Qed.

Lemma make_rep : forall h k args,
  exists h' t', tok_make h k args = Ok (h', t') /\ rep h' t' (it_start k args) /\ tk_all t' = S (length h) /\ length h' = S (S (length h)) /\
    (forall b, b <> tk_all t' -> block h' b = block h b).
Proof.
  intros h k args. unfold tok_make, allocate, span_from. rewrite block_alloc_same. cbn [of_option rbind Nat.leb].
  set (h1 := h ++ [Some args]). set (t := mk_tok k (length h) (mk_span (length h) 0 (length args - 0)) (At 0)).
  assert (R : rep h1 t (it_start k args)).
  { constructor; cbn; try reflexivity. exists args. split; [apply block_alloc_same|]. split; [lia|reflexivity]. }
  assert (L1 : length h1 = S (length h)) by (unfold h1; rewrite app_length; cbn; lia).
  destruct (copy_rep h1 t _ R) as (h2 & t2 & E & R2 & A2 & L2 & O2). rewrite E. cbn [rbind].
  eexists _, _. split; [reflexivity|]. unfold tok_destroy, release. cbn [tk_all t].
  split; [|split; [lia|split; [rewrite set_block_length; lia|]]].
  - eapply rep_frame; [exact R2|]. apply block_set_other. cbn. lia.
  - intros b D. cbn. destruct (Nat.eq_dec b (length h)) as [->|D2].
    + replace (block h (length h)) with (@None (list str)).
      * apply block_release.
      * destruct (block h (length h)) eqn:Eb; [|reflexivity]. apply block_lt in Eb. lia.
    + rewrite block_set_other by exact D2. rewrite O2 by lia. apply block_alloc_other. exact D2.
Qed.

(* ------------------------------------------------------------------------ *)
(** ** All iterators *)

Lemma set_iter_length : forall l i x, length (set_iter_at l i x) = length l.
Proof. induction l as [|y r IH]; intros [|i] x; cbn; auto. Qed.
Lemma set_iter_same : forall l i x, i < length l -> nth_error (set_iter_at l i x) i = Some x.
Proof. induction l as [|y r IH]; intros [|i] x L; cbn in *; try lia; auto. apply IH. lia. Qed.
Lemma set_iter_other : forall l i j x, j <> i -> nth_error (set_iter_at l i x) j = nth_error l j.
Proof. induction l as [|y r IH]; intros [|i] [|j] x L; cbn in *; auto; try congruence. Qed.
Lemma replace_length : forall p i x, i < length p -> length (replace p i x) = length p.
Proof. intros. unfold replace. rewrite app_length. cbn [length]. rewrite firstn_length, skipn_length. lia. Qed.
Lemma replace_same : forall p i x, i < length p -> nth_error (replace p i x) i = Some x.
Proof.
  intros p i x L. unfold replace. assert (E : length (firstn i p) = i) by (rewrite firstn_length; lia).
  rewrite nth_error_app2 by lia. rewrite E, Nat.sub_diag. reflexivity.
Qed.
Lemma replace_other : forall p i j x, i < length p -> j <> i -> nth_error (replace p i x) j = nth_error p j.
Proof.
  induction p as [|y r IH]; intros [|i] [|j] x L D; cbn in *; try lia; try reflexivity.
  apply IH; [lia|congruence].
Qed.

Record linked (w : world) (p : plain_world) : Prop := {
  lk_length : length (w_iters w) = length p;
  lk_none : forall i, nth_error p i = Some None -> nth_error (w_iters w) i = Some None;
  lk_some : forall i it, nth_error p i = Some (Some it) -> wf_iter it /\
    exists t, nth_error (w_iters w) i = Some (Some t) /\ rep (w_blocks w) t it;
  lk_apart : forall i j b, owns w i b -> owns w j b -> i = j;
  lk_owned : forall b, block (w_blocks w) b <> None -> exists i, owns w i b
}.

Lemma linked_iter : forall w p i t, linked w p -> nth_error (w_iters w) i = Some (Some t) -> exists it, nth_error p i = Some (Some it).
Proof.
  intros w p i t Lk E. assert (L : i < length p) by (rewrite <- (lk_length _ _ Lk); apply nth_error_Some; congruence).
  apply nth_error_Some in L. destruct (nth_error p i) as [[it|]|] eqn:Ep; [eauto| |congruence].
  rewrite (lk_none _ _ Lk _ Ep) in E. discriminate E.
Qed.

(** An iterator changes; its block may move. *)
Lemma linked_put : forall w p i t it h' t' it', linked w p -> nth_error (w_iters w) i = Some (Some t) -> nth_error p i = Some (Some it) ->
  rep (w_blocks w) t it -> rep h' t' it' -> wf_iter it' -> frame (w_blocks w) t h' t' ->
  linked (mk_world h' (set_iter_at (w_iters w) i (Some t'))) (replace p i (Some it')).
Proof.
  intros w p i t it h' t' it' Lk Et Ei R R' W' F.
  assert (Lw : i < length (w_iters w)) by (apply nth_error_Some; congruence).
  assert (Lp : i < length p) by (apply nth_error_Some; congruence).
  assert (Own : forall j u, j <> i -> nth_error (w_iters w) j = Some (Some u) -> tk_all u <> tk_all t /\ tk_all u < length (w_blocks w) /\ block h' (tk_all u) = block (w_blocks w) (tk_all u)).
  { intros j u D Eu. destruct (linked_iter _ _ _ _ Lk Eu) as (ju & Ej). destruct (lk_some _ _ Lk _ _ Ej) as (_ & u' & Eu' & Ru).
    rewrite Eu in Eu'. injection Eu' as <-. destruct (rp_list _ _ _ Ru) as (l & B & _). pose proof (block_lt _ _ _ B) as Lb.
    assert (N : tk_all u <> tk_all t).
    { intros X. apply D. apply (lk_apart _ _ Lk j i (tk_all t)); [exists u; auto|exists t; auto]. }
    split; [exact N|]. split; [exact Lb|]. apply (fr_other _ _ _ _ F); assumption. }
  assert (O : forall j b, owns (mk_world h' (set_iter_at (w_iters w) i (Some t'))) j b -> (j = i /\ b = tk_all t') \/ (j <> i /\ owns w j b)).
  { intros j b (u & Eu & <-). cbn [w_iters] in Eu. destruct (Nat.eq_dec j i) as [->|D].
    - rewrite set_iter_same in Eu by exact Lw. injection Eu as <-. auto.
    - rewrite set_iter_other in Eu by exact D. right. split; [exact D|]. exists u. auto. }
  constructor; cbn [w_iters w_blocks].
  - rewrite set_iter_length, replace_length by exact Lp. apply Lk.
  - intros j Ej. destruct (Nat.eq_dec j i) as [->|D]; [rewrite replace_same in Ej by exact Lp; discriminate Ej|].
    rewrite replace_other in Ej by assumption. rewrite set_iter_other by exact D. apply (lk_none _ _ Lk). exact Ej.
  - intros j jt Ej. destruct (Nat.eq_dec j i) as [->|D].
    + rewrite replace_same in Ej by exact Lp. injection Ej as <-. split; [exact W'|]. exists t'. rewrite set_iter_same by exact Lw. auto.
    + rewrite replace_other in Ej by assumption. destruct (lk_some _ _ Lk _ _ Ej) as (W & u & Eu & Ru). split; [exact W|].
      exists u. rewrite set_iter_other by exact D. split; [exact Eu|]. eapply rep_frame; [exact Ru|]. apply (Own j u D Eu).
  - intros j k b Oj Ok. apply O in Oj. apply O in Ok.
    assert (X : forall j, j <> i -> owns w j (tk_all t') -> False).
    { intros j0 D (u & Eu & Eb). destruct (Own j0 u D Eu) as (N & L & _). destruct (fr_all _ _ _ _ F) as [Q|Q]; [congruence|lia]. }
    destruct Oj as [(-> & ->)|(Dj & Oj)], Ok as [(-> & Eb)|(Dk & Ok)]; [reflexivity| | |apply (lk_apart _ _ Lk j k b); assumption].
    + exfalso. eapply X; eassumption.
    + subst b. exfalso. eapply X; eassumption.
  - intros b Nb. destruct (fr_live _ _ _ _ F b Nb) as [->|(Lb & D)].
    + exists i, t'. cbn [w_iters]. rewrite set_iter_same by exact Lw. auto.
    + rewrite (fr_other _ _ _ _ F) in Nb by assumption. destruct (lk_owned _ _ Lk b Nb) as (j & u & Eu & Eb).
      assert (Dj : j <> i) by (intros ->; congruence). exists j, u. cbn [w_iters]. rewrite set_iter_other by exact Dj. auto.
Qed.

Lemma nth_last : forall {A} (l : list A) x j y, nth_error (l ++ [x]) j = Some y ->
  (j < length l /\ nth_error l j = Some y) \/ (j = length l /\ y = x).
Proof.
  intros A l x j y E. destruct (Nat.lt_ge_cases j (length l)) as [L|L].
  - left. rewrite nth_error_app1 in E by exact L. auto.
  - right. rewrite nth_error_app2 in E by exact L. destruct (j - length l) as [|k] eqn:D; cbn in E.
    + injection E as ->. split; [lia|reflexivity].
    + destruct k; discriminate E.
Qed.
Lemma nth_new : forall {A} (l : list A) x, nth_error (l ++ [x]) (length l) = Some x.
Proof. intros. rewrite nth_error_app2 by lia. rewrite Nat.sub_diag. reflexivity. Qed.
Lemma nth_old : forall {A} (l : list A) x j y, nth_error l j = Some y -> nth_error (l ++ [x]) j = Some y.
Proof. intros A l x j y E. rewrite nth_error_app1; [exact E|]. apply nth_error_Some. congruence. Qed.

(** A new iterator. *)
Lemma linked_add : forall w p h' t' it', linked w p -> rep h' t' it' -> wf_iter it' -> length (w_blocks w) <= tk_all t' ->
  (forall b, b <> tk_all t' -> block h' b = block (w_blocks w) b) ->
  linked (mk_world h' (w_iters w ++ [Some t'])) (p ++ [Some it']).
Proof.
  intros w p h' t' it' Lk R' W' Lt O.
  assert (Old : forall j u, nth_error (w_iters w) j = Some (Some u) -> tk_all u < length (w_blocks w)).
  { intros j u Eu. destruct (linked_iter _ _ _ _ Lk Eu) as (ju & Ej). destruct (lk_some _ _ Lk _ _ Ej) as (_ & u' & Eu' & Ru).
    rewrite Eu in Eu'. injection Eu' as <-. destruct (rp_list _ _ _ Ru) as (l & B & _). exact (block_lt _ _ _ B). }
  assert (Q : forall j b, owns (mk_world h' (w_iters w ++ [Some t'])) j b -> (j = length p /\ b = tk_all t') \/ (owns w j b /\ b < length (w_blocks w))).
  { intros j b (u & Eu & <-). cbn [w_iters] in Eu. destruct (nth_last _ _ _ _ Eu) as [(L & E)|(-> & E)].
    - right. split; [exists u; auto|]. eapply Old. exact E.
    - injection E as ->. left. split; [apply (lk_length _ _ Lk)|reflexivity]. }
  constructor; cbn [w_iters w_blocks].
  - rewrite !app_length, (lk_length _ _ Lk). reflexivity.
  - intros j Ej. destruct (nth_last _ _ _ _ Ej) as [(L & E)|(_ & E)]; [|discriminate E]. apply nth_old. apply (lk_none _ _ Lk). exact E.
  - intros j jt Ej. destruct (nth_last _ _ _ _ Ej) as [(L & E)|(-> & E)].
    + destruct (lk_some _ _ Lk _ _ E) as (W & u & Eu & Ru). split; [exact W|]. exists u. split; [apply nth_old; exact Eu|].
      eapply rep_frame; [exact Ru|]. apply O. pose proof (Old _ _ Eu). lia.
    + injection E as ->. split; [exact W'|]. exists t'. rewrite <- (lk_length _ _ Lk), nth_new. auto.
  - intros j k b Oj Ok. apply Q in Oj. apply Q in Ok.
    destruct Oj as [(-> & ->)|(Oj & Lj)], Ok as [(-> & Eb)|(Ok & Lk')]; [reflexivity|lia|lia|apply (lk_apart _ _ Lk j k b); assumption].
  - intros b Nb. destruct (Nat.eq_dec b (tk_all t')) as [->|D].
    + exists (length (w_iters w)), t'. cbn [w_iters]. rewrite nth_new. auto.
    + rewrite O in Nb by exact D. destruct (lk_owned _ _ Lk b Nb) as (j & u & Eu & Eb). exists j, u. cbn [w_iters]. split; [apply nth_old; exact Eu|exact Eb].
Qed.

(** An iterator is destroyed. *)
Lemma linked_destroy : forall w p i t, linked w p -> nth_error (w_iters w) i = Some (Some t) ->
  linked (mk_world (tok_destroy (w_blocks w) t) (set_iter_at (w_iters w) i None)) (replace p i None).
Proof.
  intros w p i t Lk Et.
  assert (Lw : i < length (w_iters w)) by (apply nth_error_Some; congruence).
  assert (Lp : i < length p) by (rewrite <- (lk_length _ _ Lk); exact Lw).
  assert (O : forall j b, owns (mk_world (tok_destroy (w_blocks w) t) (set_iter_at (w_iters w) i None)) j b -> j <> i /\ owns w j b).
  { intros j b (u & Eu & <-). cbn [w_iters] in Eu. destruct (Nat.eq_dec j i) as [->|D].
    - rewrite set_iter_same in Eu by exact Lw. discriminate Eu.
    - rewrite set_iter_other in Eu by exact D. split; [exact D|]. exists u. auto. }
  assert (Own : forall j u, j <> i -> nth_error (w_iters w) j = Some (Some u) -> tk_all u <> tk_all t).
  { intros j u D Eu X. apply D. apply (lk_apart _ _ Lk j i (tk_all t)); [exists u; auto|exists t; auto]. }
  constructor; cbn [w_iters w_blocks].
  - rewrite set_iter_length, replace_length by exact Lp. apply Lk.
  - intros j Ej. destruct (Nat.eq_dec j i) as [->|D]; [apply set_iter_same; exact Lw|].
    rewrite replace_other in Ej by assumption. rewrite set_iter_other by exact D. apply (lk_none _ _ Lk). exact Ej.
  - intros j jt Ej. destruct (Nat.eq_dec j i) as [->|D]; [rewrite replace_same in Ej by exact Lp; discriminate Ej|].
    rewrite replace_other in Ej by assumption. destruct (lk_some _ _ Lk _ _ Ej) as (W & u & Eu & Ru). split; [exact W|].
    exists u. rewrite set_iter_other by exact D. split; [exact Eu|]. eapply rep_frame; [exact Ru|]. unfold tok_destroy, release.
    apply block_set_other. apply (Own j); assumption.
  - intros j k b Oj Ok. apply O in Oj. apply O in Ok. apply (lk_apart _ _ Lk j k b); tauto.
  - intros b Nb. destruct (Nat.eq_dec b (tk_all t)) as [->|D].
    + exfalso. apply Nb. unfold tok_destroy. apply block_release.
    + unfold tok_destroy, release in Nb. rewrite block_set_other in Nb by exact D. destruct (lk_owned _ _ Lk b Nb) as (j & u & Eu & Eb).
      assert (Dj : j <> i) by (intros ->; congruence). exists j, u. cbn [w_iters]. rewrite set_iter_other by exact Dj. auto.
Qed.

(** The same block, only the iterator changes. *)
Lemma frame_same : forall h t t', tk_all t' = tk_all t -> frame h t h t'.
Proof.
  intros h t t' E. pose proof (frame_refl h t) as F. constructor; [apply F|auto|apply F|]. rewrite E. apply F.
Qed.

(* ------------------------------------------------------------------------ *)
(** ** One call *)

Lemma iter_at_some : forall w i t, nth_error (w_iters w) i = Some (Some t) -> iter_at w i = Ok t.
Proof. intros w i t E. unfold iter_at. rewrite E. reflexivity. Qed.

(** What a call does, given the plain iterators. *)
Lemma call_linked : forall w p c, linked w p -> proper p c ->
  exists a w' b p', do_call w c = Ok (a, w') /\ plain_call p c b p' /\ shows (w_blocks w') a b /\ linked w' p' /\
    (forall i j, owns w i j -> ~ moves p i c -> owns w' i j /\ block (w_blocks w') j = block (w_blocks w) j) /\
    (forall i v, c = CCurrent i -> a = AView (Some v) -> owns w' i (fst v)) /\
    (forall i s, c = CRemaining i -> a = ASpan s -> owns w' i (sp_block s)).
Proof.
  intros w p c Lk Pr.
  assert (Lt : forall i j, owns w i j -> j < length (w_blocks w)).
  { intros i j (u & Eu & <-). destruct (linked_iter _ _ _ _ Lk Eu) as (ju & Ej). destruct (lk_some _ _ Lk _ _ Ej) as (_ & u' & Eu' & Ru).
    rewrite Eu in Eu'. injection Eu' as <-. destruct (rp_list _ _ _ Ru) as (l & B & _). exact (block_lt _ _ _ B). }
  assert (Other : forall i t h' t', nth_error (w_iters w) i = Some (Some t) -> frame (w_blocks w) t h' t' ->
    forall k j, k <> i -> owns w k j -> owns (mk_world h' (set_iter_at (w_iters w) i (Some t'))) k j /\ block h' j = block (w_blocks w) j).
  { intros i t h' t' Et F k j D Ok. pose proof (Lt _ _ Ok) as Lj. assert (Nj : j <> tk_all t).
    { intros ->. apply D. apply (lk_apart _ _ Lk k i (tk_all t)); [exact Ok|exists t; auto]. }
    split; [|apply (fr_other _ _ _ _ F); assumption]. destruct Ok as (u & Eu & Eb). exists u. cbn [w_iters]. rewrite set_iter_other by exact D. auto. }
  assert (Self : forall i t h' t', nth_error (w_iters w) i = Some (Some t) -> owns (mk_world h' (set_iter_at (w_iters w) i (Some t'))) i (tk_all t')).
  { intros i t h' t' Et. exists t'. cbn [w_iters]. rewrite set_iter_same; [auto|]. apply nth_error_Some. congruence. }
  assert (Mine : forall i t t', nth_error (w_iters w) i = Some (Some t) -> tk_all t' = tk_all t ->
    forall k j, owns w k j -> owns (mk_world (w_blocks w) (set_iter_at (w_iters w) i (Some t'))) k j /\ block (w_blocks w) j = block (w_blocks w) j).
  { intros i t t' Et E k j Ok. destruct (Nat.eq_dec k i) as [->|D]; [|exact (Other i t _ t' Et (frame_same _ _ _ E) k j D Ok)].
    split; [|reflexivity]. destruct Ok as (u & Eu & Eb). rewrite Et in Eu. injection Eu as <-. rewrite <- Eb, <- E. eapply Self. exact Et. }
  destruct c as [k args|i|i|i|i|i|i|i new].
  - destruct (make_rep (w_blocks w) k args) as (h' & t' & E & R & A & L & O). unfold do_call. rewrite E. cbn [rbind].
    eexists _, _, _, _. split; [reflexivity|]. split; [constructor|]. split; [constructor|]. split.
    + apply linked_add; [exact Lk|exact R|apply start_wf|lia|exact O].
    + split; [|split; discriminate]. intros i j Oi _. pose proof (Lt _ _ Oi). split; [|apply O; lia].
      destruct Oi as (u & Eu & Eb). exists u. split; [apply nth_old; exact Eu|exact Eb].
  - destruct Pr as (it & Ei). destruct (lk_some _ _ Lk _ _ Ei) as (W & t & Et & R).
    destruct (copy_rep _ _ _ R) as (h' & t' & E & R' & A & L & O). unfold do_call. rewrite (iter_at_some _ _ _ Et). cbn [rbind]. rewrite E. cbn [rbind].
    eexists _, _, _, _. split; [reflexivity|]. split; [econstructor; exact Ei|]. split; [constructor|]. split.
    + apply linked_add; [exact Lk|exact R'|exact W|lia|intros b D; apply O; lia].
    + split; [|split; discriminate]. intros i0 j Oi _. pose proof (Lt _ _ Oi). split; [|apply O; lia].
      destruct Oi as (u & Eu & Eb). exists u. split; [apply nth_old; exact Eu|exact Eb].
  - destruct Pr as (it & Ei). destruct (lk_some _ _ Lk _ _ Ei) as (W & t & Et & R).
    unfold do_call. rewrite (iter_at_some _ _ _ Et). cbn [rbind].
    eexists _, _, _, _. split; [reflexivity|]. split; [econstructor; exact Ei|]. split; [constructor|]. split.
    + apply linked_destroy; assumption.
    + split; [|split; discriminate]. intros k j Ok Nm. assert (D : k <> i) by (intros ->; apply Nm; constructor).
      split.
      * destruct Ok as (u & Eu & Eb). exists u. cbn [w_iters]. rewrite set_iter_other by exact D. auto.
      * cbn [w_blocks]. unfold tok_destroy, release. apply block_set_other. intros ->. apply D.
        apply (lk_apart _ _ Lk k i (tk_all t)); [exact Ok|exists t; auto].
  - destruct Pr as (it & Ei). destruct (lk_some _ _ Lk _ _ Ei) as (W & t & Et & R).
    destruct (next_wf it W) as (r & it' & En & W' & _). destruct (next_rep _ _ _ _ _ R En) as (t' & E & R' & A).
    unfold do_call. rewrite (iter_at_some _ _ _ Et). cbn [rbind]. rewrite E. cbn [rbind].
    eexists _, _, _, _. split; [reflexivity|]. split; [econstructor; [exact Ei|exact En]|]. split; [constructor|]. split.
    + eapply linked_put; try eassumption. apply frame_same. exact A.
    + split; [|split; discriminate]. intros k j Ok _. eapply Mine; eassumption.
  - destruct Pr as (it & Ei). destruct (lk_some _ _ Lk _ _ Ei) as (W & t & Et & R).
    destruct (next_value_wf it W) as (r & it' & En & W' & _). destruct (next_value_rep _ _ _ _ _ R En) as (t' & E & R' & A).
    unfold do_call. rewrite (iter_at_some _ _ _ Et). cbn [rbind]. rewrite E. cbn [rbind].
    eexists _, _, _, _. split; [reflexivity|]. split; [econstructor; [exact Ei|exact En]|]. split; [constructor|]. split.
    + eapply linked_put; try eassumption. apply frame_same. exact A.
    + split; [|split; discriminate]. intros k j Ok _. eapply Mine; eassumption.
  - destruct Pr as (it & Ei). destruct (lk_some _ _ Lk _ _ Ei) as (W & t & Et & R).
    unfold do_call. rewrite (iter_at_some _ _ _ Et). cbn [rbind].
    pose proof (current_rep _ _ _ R) as C.
    eexists _, w, _, p. split; [reflexivity|]. split; [econstructor; exact Ei|]. split; [|split; [exact Lk|split; [auto|split; [|discriminate]]]].
    + destruct (tok_current t), (it_current it); try contradiction; constructor. apply C.
    + intros i0 v X Y. injection X as <-. injection Y as Y. rewrite Y in C. destruct (it_current it); [|contradiction].
      exists t. split; [exact Et|]. symmetry. apply C.
  - destruct Pr as (it & Ei). destruct (lk_some _ _ Lk _ _ Ei) as (W & t & Et & R).
    destruct (remaining_wf it W) as (r & it' & En & W' & _).
    destruct (remaining_rep _ _ _ _ _ R En) as (s & h' & t' & E & R' & F & Sr & Sb & Q).
    unfold do_call. rewrite (iter_at_some _ _ _ Et). cbn [rbind]. rewrite E. cbn [rbind].
    eexists _, _, _, _. split; [reflexivity|]. split; [econstructor; [exact Ei|exact En]|]. split; [constructor; exact Sr|]. split.
    + eapply linked_put; eassumption.
    + split; [|split; [discriminate|]].
      * intros k j Ok Nm. destruct (Nat.eq_dec k i) as [->|D]; [|eapply Other; eassumption].
        destruct Q as (-> & ->).
        { intros K a rest n c Ea Ep Ec Ln. destruct (Ascii.ascii_dec c c_dash) as [|Dc]; [assumption|]. exfalso. apply Nm. constructor.
          exists it, a, rest, n, c. repeat (split; [assumption|]). assumption. }
        eapply Mine; [exact Et|reflexivity|exact Ok].
      * intros i0 s0 X Y. injection X as <-. injection Y as <-. rewrite Sb. eapply Self. exact Et.
  - destruct Pr as (it & Ei). destruct (lk_some _ _ Lk _ _ Ei) as (W & t & Et & R).
    destruct (insert_wf it new W) as (it' & En & W' & _).
    destruct (insert_call_rep _ _ _ _ _ R En) as (h' & t' & E & R' & F).
    unfold do_call. rewrite (iter_at_some _ _ _ Et). cbn [rbind]. rewrite E. cbn [rbind].
    eexists _, _, _, _. split; [reflexivity|]. split; [econstructor; [exact Ei|exact En]|]. split; [constructor|]. split.
    + eapply linked_put; eassumption.
    + split; [|split; discriminate]. intros k j Ok Nm. assert (D : k <> i) by (intros ->; apply Nm; constructor). eapply Other; eassumption.
Qed.

Lemma plain_proper : forall p c b p', plain_call p c b p' -> proper p c.
Proof. intros p c b p' P. destruct P; cbn; eauto. Qed.
Lemma plain_unique : forall p c b p' b2 p2, plain_call p c b p' -> plain_call p c b2 p2 -> b2 = b /\ p2 = p'.
Proof.
  intros p c b p' b2 p2 P Q. destruct P; inversion Q; subst; split; try reflexivity; try congruence;
    repeat match goal with H : nth_error ?p ?i = Some (Some ?a), H2 : nth_error ?p ?i = Some (Some ?b) |- _ => rewrite H in H2; injection H2 as <- end; congruence.
Qed.

Lemma linked_start : linked no_world [].
Proof.
  constructor; cbn.
  - reflexivity.
  - intros [|i] E; discriminate E.
  - intros [|i] it E; discriminate E.
  - intros [|i] j b (t & E & _); discriminate E.
  - intros [|b] N; exfalso; apply N; reflexivity.
Qed.

Lemma step_linked : forall w p c a w' b p', linked w p -> do_call w c = Ok (a, w') -> plain_call p c b p' ->
  shows (w_blocks w') a b /\ linked w' p' /\
    (forall i j, owns w i j -> ~ moves p i c -> owns w' i j /\ block (w_blocks w') j = block (w_blocks w) j) /\
    (forall i v, c = CCurrent i -> a = AView (Some v) -> owns w' i (fst v)) /\
    (forall i s, c = CRemaining i -> a = ASpan s -> owns w' i (sp_block s)).
Proof.
  intros w p c a w' b p' Lk D P. destruct (call_linked w p c Lk (plain_proper _ _ _ _ P)) as (a2 & w2 & b2 & p2 & D2 & P2 & R).
  rewrite D in D2. injection D2 as <- <-. destruct (plain_unique _ _ _ _ _ _ P P2) as (-> & ->). exact R.
Qed.

Lemma in_step_linked : forall w p, in_step w p -> linked w p.
Proof.
  intros w p S. induction S as [|w p c a w' b p' S IH D P _]; [exact linked_start|].
  apply (step_linked _ _ _ _ _ _ _ IH D P).
Qed.

(** C81: every call is right. *)
Lemma calls_right : forall w p c, in_step w p -> proper p c ->
  exists a w' b p', do_call w c = Ok (a, w') /\ plain_call p c b p' /\ shows (w_blocks w') a b /\ in_step w' p'.
Proof.
  intros w p c S Pr. destruct (call_linked w p c (in_step_linked _ _ S) Pr) as (a & w' & b & p' & D & P & Sh & _).
  exists a, w', b, p'. split; [exact D|]. split; [exact P|]. split; [exact Sh|]. eapply in_step_call; eassumption.
Qed.

(** C81: nothing changes the arguments of another iterator, nor moves them. *)
Lemma calm_block : forall i j w p w' p', calm i w p w' p' -> linked w p -> owns w i j ->
  block (w_blocks w') j = block (w_blocks w) j /\ linked w' p' /\ owns w' i j.
Proof.
  intros i j w p w' p' C. induction C as [w p|w p c a w1 b p1 w' p' D P Nm C IH]; intros Lk O; [auto|].
  destruct (step_linked _ _ _ _ _ _ _ Lk D P) as (_ & Lk1 & K & _). destruct (K i j O Nm) as (O1 & B1).
  destruct (IH Lk1 O1) as (B2 & Lk2 & O2). split; [congruence|auto].
Qed.

Lemma view_kept : forall i w p w1 v w' p1 b p', in_step w p -> do_call w (CCurrent i) = Ok (AView (Some v), w1) ->
  plain_call p (CCurrent i) b p1 -> calm i w1 p1 w' p' -> view_text (w_blocks w') v = view_text (w_blocks w1) v /\ view_text (w_blocks w1) v <> None.
Proof.
  intros i w p w1 v w' p1 b p' S D P C. destruct (step_linked _ _ _ _ _ _ _ (in_step_linked _ _ S) D P) as (Sh & Lk1 & _ & O & _).
  destruct (calm_block _ _ _ _ _ _ C Lk1 (O _ _ eq_refl eq_refl)) as (B & _). unfold view_text at 1. rewrite B. split; [reflexivity|].
  inversion Sh; subst. congruence.
Qed.
Lemma span_kept : forall i w p w1 s w' p1 b p', in_step w p -> do_call w (CRemaining i) = Ok (ASpan s, w1) ->
  plain_call p (CRemaining i) b p1 -> calm i w1 p1 w' p' -> sp_read (w_blocks w') s = sp_read (w_blocks w1) s /\ sp_read (w_blocks w1) s <> None.
Proof.
  intros i w p w1 s w' p1 b p' S D P C. destruct (step_linked _ _ _ _ _ _ _ (in_step_linked _ _ S) D P) as (Sh & Lk1 & _ & _ & O).
  destruct (calm_block _ _ _ _ _ _ C Lk1 (O _ _ eq_refl eq_refl)) as (B & _). unfold sp_read at 1. rewrite B. split; [reflexivity|].
  inversion Sh; subst. congruence.
Qed.

(** C81: one block for each iterator. *)
Lemma blocks_owned : forall w p, in_step w p ->
  (forall b, block (w_blocks w) b <> None <-> exists i, owns w i b) /\
  (forall i j b, owns w i b -> owns w j b -> i = j) /\
  (forall i, (exists b, owns w i b) <-> (exists it, nth_error p i = Some (Some it))).
Proof.
  intros w p S. pose proof (in_step_linked _ _ S) as Lk. split; [|split].
  - intros b. split; [apply Lk|]. intros (i & t & Et & <-). destruct (linked_iter _ _ _ _ Lk Et) as (it & Ei).
    destruct (lk_some _ _ Lk _ _ Ei) as (_ & u & Eu & R). rewrite Et in Eu. injection Eu as <-. destruct (rp_list _ _ _ R) as (l & B & _). congruence.
  - apply Lk.
  - intros i. split.
    + intros (b & t & Et & _). eapply linked_iter; eassumption.
    + intros (it & Ei). destruct (lk_some _ _ Lk _ _ Ei) as (_ & u & Eu & R). exists (tk_all u), u. auto.
Qed.

Lemma current_kept : forall i w p v w' w1 p', in_step w p ->
  do_call w (CCurrent i) = Ok (AView (Some v), w1) -> calm i w1 p w' p' ->
  exists text, plain_call p (CCurrent i) (PText (Some text)) p /\ view_text (w_blocks w') v = Some text.
Proof.
  intros i w p v w' w1 p' S D C. pose proof (in_step_linked _ _ S) as Lk.
  unfold do_call, iter_at in D. destruct (nth_error (w_iters w) i) as [[t|]|] eqn:Et; try discriminate D. cbn [rbind] in D.
  destruct (linked_iter _ _ _ _ Lk Et) as (it & Ei). injection D as Ev <-.
  assert (D : do_call w (CCurrent i) = Ok (AView (Some v), w)).
  { unfold do_call. rewrite (iter_at_some _ _ _ Et). cbn [rbind]. rewrite Ev. reflexivity. }
  destruct (view_kept i w p w v w' p _ p' S D (plain_current p i it Ei) C) as (V & _).
  destruct (step_linked _ _ _ _ _ _ _ Lk D (plain_current p i it Ei)) as (Sh & _).
  pose proof (plain_current p i it Ei) as P. inversion Sh; subst. exists s. split; [congruence|congruence].
Qed.

Lemma remaining_kept : forall i w p s w' w1 b p1 p', in_step w p ->
  do_call w (CRemaining i) = Ok (ASpan s, w1) -> plain_call p (CRemaining i) b p1 -> calm i w1 p1 w' p' ->
  exists l, b = PTexts l /\ sp_read (w_blocks w') s = Some l.
Proof.
  intros i w p s w' w1 b p1 p' S D P C. destruct (span_kept _ _ _ _ _ _ _ _ _ S D P C) as (V & _).
  destruct (step_linked _ _ _ _ _ _ _ (in_step_linked _ _ S) D P) as (Sh & _). inversion Sh; subst. exists l. split; [reflexivity|congruence].
Qed.

Lemma all_released : forall w p, in_step w p -> Forall (eq None) p -> forall b, block (w_blocks w) b = None.
Proof.
  intros w p S A b. destruct (blocks_owned _ _ S) as (X & _ & Z). destruct (block (w_blocks w) b) eqn:B; [|reflexivity]. exfalso.
  destruct (proj1 (X b)) as (i & O); [congruence|]. destruct (proj1 (Z i) (ex_intro _ b O)) as (it & Ei).
  rewrite Forall_forall in A. apply nth_error_In in Ei. apply A in Ei. discriminate Ei.
Qed.
