(** Proofs about the order of the words of a command line (C86). *)
From Verif Require Import Base BaseProofs MStrings MOptIter MData MCounter MValues MParser
  SIndex SDef SValues SCounter SParser SStep SLook SEquiv SApi SLine SOrder
  LineProofs LineProofs2 LineProofs3.
Open Scope nat_scope.

Definition target (ch : change) : N :=
  match ch with Assigned i _ _ | Appended i _ _ | Cleared i => i end.
Definition hits (id : N) (ch : change) : bool := N.eqb (target ch) id.

Lemma history_hits_from : forall id h s, fold_left (effect id) h s = fold_left (effect id) (filter (hits id) h) s.
Proof.
  intros id. induction h as [|ch h IH]; intros s; [reflexivity|]. cbn [filter fold_left].
  unfold hits at 1. destruct (N.eqb (target ch) id) eqn:E; [apply IH|].
  rewrite IH. f_equal. destruct ch; cbn [target] in E; cbn [effect]; rewrite E; reflexivity.
Qed.
Lemma history_hits : forall id h h', filter (hits id) h = filter (hits id) h' -> history h id = history h' id.
Proof. intros id h h' E. unfold history. rewrite (history_hits_from id h), (history_hits_from id h'), E. reflexivity. Qed.

Lemma option_target : forall o v ch, option_change o v = Some ch -> target ch = o_value_id o.
Proof. intros o v ch E. unfold option_change in E. destruct (o_operation o); try discriminate; injection E as <-; reflexivity. Qed.

(** The changes of [id] come from the words that concern it. *)
Lemma meant_argument : forall c id, existsb (fun a => N.eqb (a_value_id a) id) (c_arguments c) = true ->
  forall ws got, filter (hits id) (meant got ws) = filter (hits id) (meant got (filter (concerns c id) ws)).
Proof.
  intros c id Ea. induction ws as [|[o v|t] ws IH]; intros got; [reflexivity| |].
  - cbn [filter concerns meant]. destruct (option_change o v) as [ch|] eqn:Eo.
    + destruct (N.eqb (o_value_id o) id) eqn:Ei.
      * cbn [meant]. rewrite Eo. cbn [app filter]. rewrite IH. reflexivity.
      * cbn [app filter]. unfold hits at 1. rewrite (option_target _ _ _ Eo), Ei. apply IH.
    + cbn [app]. apply IH.
  - cbn [filter concerns]. rewrite Ea. cbn [meant]. destruct got as [|a got]; [reflexivity|].
    cbn [filter]. rewrite IH. reflexivity.
Qed.

Lemma meant_other : forall c id, existsb (fun a => N.eqb (a_value_id a) id) (c_arguments c) = false ->
  forall ws got, length got = length (positionals ws) -> (forall a, In a got -> In a (c_arguments c)) ->
  filter (hits id) (meant got ws) = filter (hits id) (meant [] (filter (concerns c id) ws)).
Proof.
  intros c id Ea. induction ws as [|[o v|t] ws IH]; intros got L I; [reflexivity| |].
  - cbn [positionals flat_map app] in L. cbn [filter concerns meant]. destruct (option_change o v) as [ch|] eqn:Eo.
    + destruct (N.eqb (o_value_id o) id) eqn:Ei.
      * cbn [meant]. rewrite Eo. cbn [app filter]. rewrite (IH got L I). reflexivity.
      * cbn [app filter]. unfold hits at 1. rewrite (option_target _ _ _ Eo), Ei. apply IH; assumption.
    + cbn [app]. apply IH; assumption.
  - cbn [filter concerns]. rewrite Ea. cbn [meant]. destruct got as [|a got]; [discriminate L|].
    cbn [filter]. unfold hits at 1. cbn [target].
    assert (X : N.eqb (a_value_id a) id = false).
    { destruct (N.eqb (a_value_id a) id) eqn:E; [|reflexivity].
      assert (Y : existsb (fun a => N.eqb (a_value_id a) id) (c_arguments c) = true)
        by (apply existsb_exists; exists a; split; [apply I; left; reflexivity|exact E]). congruence. }
    rewrite X. apply IH; [injection L as L; exact L|intros b Hb; apply I; right; exact Hb].
Qed.

Lemma meant_reordered : forall c init ws ws' got, reordered c ws ws' -> length got = length (positionals ws) ->
  (forall a, In a got -> In a (c_arguments c)) ->
  forall id, history (init ++ meant got ws) id = history (init ++ meant got ws') id.
Proof.
  intros c init ws ws' got (Ep & Ef) L I id. apply history_hits. rewrite !filter_app. f_equal.
  destruct (existsb (fun a => N.eqb (a_value_id a) id) (c_arguments c)) eqn:Ea.
  - rewrite (meant_argument c id Ea ws), (meant_argument c id Ea ws'), Ef. reflexivity.
  - rewrite (meant_other c id Ea ws got L I), (meant_other c id Ea ws' got), Ef; [reflexivity| |exact I]. rewrite <- Ep. exact L.
Qed.

(** For a value without arguments it does not matter who gets them. *)
Lemma meant_separate : forall c init ws ws' got got' id, reordered c ws ws' -> length got = length (positionals ws) ->
  length got' = length (positionals ws') ->
  (forall a, In a got -> In a (c_arguments c)) -> (forall a, In a got' -> In a (c_arguments c)) ->
  (forall a, In a (c_arguments c) -> id <> a_value_id a) ->
  history (init ++ meant got ws) id = history (init ++ meant got' ws') id.
Proof.
  intros c init ws ws' got got' id (Ep & Ef) L L' I I' Na. apply history_hits. rewrite !filter_app. f_equal.
  assert (Ea : existsb (fun a => N.eqb (a_value_id a) id) (c_arguments c) = false).
  { destruct (existsb _ _) eqn:E; [|reflexivity]. apply existsb_exists in E. destruct E as (a & Ia & E).
    apply N.eqb_eq in E. destruct (Na a Ia (eq_sym E)). }
  rewrite (meant_other c id Ea ws got L I), (meant_other c id Ea ws' got' L' I'), Ef. reflexivity.
Qed.

Lemma reordered_sym : forall c ws ws', reordered c ws ws' -> reordered c ws' ws.
Proof. intros c ws ws' (A & B). split; [symmetry; exact A|]. intros id. symmetry. apply B. Qed.
Lemma all_reordered_sym : forall s s', all_reordered s s' -> all_reordered s' s.
Proof.
  intros s s' F. induction F as [|x y s s' (E & R) F IH]; constructor; [|exact IH].
  split; [symmetry; exact E|]. rewrite <- E. apply reordered_sym. exact R.
Qed.

Lemma order_length : forall ks (l : list arg_data), length ks = length l -> length (order (combine ks l)) = N.to_nat (sum ks).
Proof.
  induction ks as [|k ks IH]; intros [|a l] E; try discriminate; [reflexivity|].
  cbn [combine order flat_map fst snd]. rewrite app_length, repeat_length.
  change (flat_map _ (combine ks l)) with (order (combine ks l)). rewrite IH by (injection E as E; exact E).
  change (sum (k :: ks)) with (k + sum ks)%N. lia.
Qed.
Lemma order_in : forall ks l a, In a (order (combine ks l)) -> In a l.
Proof.
  intros ks l a I. apply in_flat_map in I. destruct I as ((k & b) & I & R). apply repeat_spec in R. cbn in R. subst.
  exact (in_combine_r _ _ _ _ I).
Qed.

Lemma alone : forall cfg only c pl ws subs e, reading cfg only c pl ws subs e -> c_commands c = [] -> subs = [].
Proof.
  intros cfg only c pl ws subs e Rd. induction Rd; intros Cm; try reflexivity; try (apply IHRd; exact Cm).
  match goal with F : first_named _ _ _ _ |- _ => destruct F as (b & a0 & X & _) end.
  rewrite Cm in X. destruct b; discriminate.
Qed.

Lemma front_no_positionals : forall cfg only c pl ws subs e, reading cfg only c pl ws subs e ->
  forall front d w, (c, ws) :: subs = front ++ [(d, w)] -> Forall (fun sg => positionals (snd sg) = []) front.
Proof.
  assert (X : forall cfg only c pl ws subs e, reading cfg only c pl ws subs e -> subs <> [] -> positionals ws = []).
  { intros cfg only c pl ws subs e R. induction R; intros N; try reflexivity; try (cbn; apply IHR; exact N).
    destruct N. eapply alone; eassumption. }
  intros cfg only c pl ws subs e R. induction R; intros front c1 w1 E.
  all: destruct front as [|(c2 & w2) front]; [constructor|].
  all: cbn [app] in E; injection E as <- <- E.
  all: try (destruct front; discriminate).
  - assert (N : subs <> []) by (rewrite E; destruct front; discriminate).
    destruct N. eapply alone; eassumption.
  - assert (N : subs <> []) by (rewrite E; destruct front; discriminate).
    constructor; [cbn; exact (X _ _ _ _ _ _ _ R N)|].
    specialize (IHR ((c, ws) :: front) c1 w1). cbn [app] in IHR. rewrite E in IHR. specialize (IHR eq_refl).
    inversion IHR; assumption.
  - assert (N : subs <> []) by (rewrite E; destruct front; discriminate).
    constructor; [cbn; exact (X _ _ _ _ _ _ _ R N)|].
    specialize (IHR ((c, ws) :: front) c1 w1). cbn [app] in IHR. rewrite E in IHR. specialize (IHR eq_refl).
    inversion IHR; assumption.
  - constructor; [reflexivity|]. exact (IHR front c1 w1 E).
Qed.

(** Histories with the same effect. *)
Definition same_effect (hs hs' : list (cmd_data * list change)) : Prop :=
  Forall2 (fun x y => fst x = fst y /\ forall id, history (snd x) id = history (snd y) id) hs hs'.

Lemma same_effect_sym : forall a b, same_effect a b -> same_effect b a.
Proof.
  intros a b F. induction F as [|x y a b (E & R) F IH]; constructor; [|exact IH]. split; [symmetry; exact E|].
  intros id. symmetry. apply R.
Qed.
Lemma same_effect_trans : forall a b c, same_effect a b -> same_effect b c -> same_effect a c.
Proof.
  intros a b c F. revert c. induction F as [|x y a b (E & R) F IH]; intros c G; inversion G as [|y' z b' c' (E' & R') G' ]; subst; constructor.
  - split; [congruence|]. intros id. rewrite R. apply R'.
  - apply IH. exact G'.
Qed.

Lemma tells_effect : forall hs hs', same_effect hs hs' -> forall outer rc stop l left,
  tells outer rc stop l hs left -> tells outer rc stop l hs' left.
Proof.
  intros hs hs' F. induction F as [|(c & h) (c' & h') hs hs' (E & R) F IH]; intros outer rc stop l left T; [exact T|].
  cbn [fst snd] in E, R. cbn [tells] in T |- *. destruct T as (A & B & T). split; [congruence|].
  split; [intros id; rewrite B; apply R|].
  destruct hs as [|x hs], hs' as [|y hs']; try (inversion F; fail); [exact T|].
  destruct T as (T1 & T2 & T3 & s & Es & T). repeat (split; [assumption|]). exists s. split; [exact Es|]. apply IH. exact T.
Qed.
Lemma tells_same : forall hs hs' outer rc stop rc' stop' l left left',
  tells outer rc stop l hs left -> tells outer rc' stop' l hs' left' -> same_effect hs hs' /\ left = left'.
Proof.
  induction hs as [|(c & h) hs IH]; intros [|(c' & h') hs'] outer rc stop rc' stop' l left left' T T'; try (destruct T; fail); try (destruct T'; fail).
  cbn [tells] in T, T'. destruct T as (A & B & T), T' as (A' & B' & T').
  assert (X : c = c' /\ forall id, history h id = history h' id)
    by (split; [congruence|]; intros id; rewrite <- B; apply B').
  destruct hs as [|x hs], hs' as [|y hs'].
  - destruct T as (_ & _ & _ & <-), T' as (_ & _ & _ & <-). split; [|reflexivity]. repeat constructor; apply X.
  - exfalso. destruct T as (_ & _ & E & _), T' as (_ & _ & _ & s & E' & _). congruence.
  - exfalso. destruct T' as (_ & _ & E & _), T as (_ & _ & _ & s & E' & _). congruence.
  - destruct T as (_ & _ & _ & s & E & T), T' as (_ & _ & _ & s' & E' & T'). assert (s = s') by congruence. subst s'.
    destruct (IH _ _ _ _ _ _ _ _ _ T T') as (S & L). split; [|exact L]. constructor; [exact X|exact S].
Qed.

Lemma passed_reordered : forall front front', all_reordered front front' ->
  Forall (fun sg => positionals (snd sg) = []) front -> forall init, same_effect (passed init front) (passed init front').
Proof.
  intros front front' F. induction F as [|(c & w) (c' & w') front front' (E & R) F IH]; intros N init; [constructor|].
  inversion N as [|? ? N1 N2]; subst. cbn [fst snd] in *. subst c'. cbn [passed]. constructor; [|apply IH; exact N2].
  split; [reflexivity|]. cbn [snd]. apply (meant_reordered c); [exact R| |intros a []]. rewrite N1. reflexivity.
Qed.

Lemma begin_reordered : forall front front' init, all_reordered front front' -> begin init front = begin init front'.
Proof. intros front front' init F. inversion F; reflexivity. Qed.

Lemma split_reordered : forall front c w segs', all_reordered (front ++ [(c, w)]) segs' ->
  exists front' w', segs' = front' ++ [(c, w')] /\ all_reordered front front' /\ reordered c w w'.
Proof.
  induction front as [|x front IH]; intros c w segs' F; cbn [app] in F.
  - inversion F as [|? (c' & w') ? l (E & R) F']; subst. inversion F'; subst. cbn [fst snd] in *. subst c'.
    exists [], w'. split; [reflexivity|]. split; [constructor|exact R].
  - inversion F as [|? y ? l XR F']; subst. destruct (IH _ _ _ F') as (front' & w' & -> & Fr & R).
    exists (y :: front'), w'. split; [reflexivity|]. split; [constructor; assumption|exact R].
Qed.

Lemma acceptable_reordered : forall cfg only top pl ws subs e segs' init hs, reading cfg only top pl ws subs e ->
  all_reordered ((top, ws) :: subs) segs' -> all_acceptable init ((top, ws) :: subs) hs ->
  exists hs', all_acceptable init segs' hs' /\ same_effect hs hs'.
Proof.
  intros cfg only top pl ws subs e segs' init hs Rd F (front & c & w & h & E & A & ->).
  rewrite E in F. destruct (split_reordered _ _ _ _ F) as (front' & w' & -> & Fr & R).
  pose proof (front_no_positionals _ _ _ _ _ _ _ Rd _ _ _ E) as N.
  destruct A as (A1 & A2 & (ks & Fk & ->) & A4). destruct Fk as (L1 & L2 & Fk).
  assert (Lg : length (order (combine ks (c_arguments c))) = length (positionals w)) by (rewrite order_length by exact L1; lia).
  assert (Ig : forall a, In a (order (combine ks (c_arguments c))) -> In a (c_arguments c)) by (intros a; apply order_in).
  pose proof (meant_reordered c (begin init front) w w' _ R Lg Ig) as Hh.
  exists (passed init front' ++ [(c, begin init front' ++ meant (order (combine ks (c_arguments c))) w')]).
  rewrite <- (begin_reordered _ _ init Fr). destruct R as (Rp & Rf). split.
  - exists front', c, w'. eexists. split; [reflexivity|]. rewrite <- (begin_reordered _ _ init Fr). split; [|reflexivity].
    unfold acceptable. rewrite <- Rp. split; [exact A1|]. split; [exact A2|]. split.
    + exists ks. split; [exact (conj L1 (conj L2 Fk))|reflexivity].
    + intros o Io Oo. rewrite <- Hh. apply A4; assumption.
  - apply Forall2_app; [apply passed_reordered; assumption|]. repeat constructor. exact Hh.
Qed.

Section Order.
Variables (p q : parser_data).
Hypothesis H : finish_parser p = Val q.
Let cfg := d_settings q.
Let top := d_command q.
Hypothesis Rg : regular cfg top.

Lemma succeeds_refuses : forall args hs left m hs' left', succeeds cfg top args hs left ->
  refuses cfg top args m hs' left' -> False.
Proof.
  intros args hs left m hs' left' (st & (f & E) & _ & T) (evs & st' & _ & _ & R). destruct (s_auto_exit cfg).
  - destruct R as (f' & E'). pose proof (run_one q args _ _ _ _ E E' ltac:(discriminate) ltac:(discriminate)). discriminate.
  - destruct R as ((f' & E') & T'). pose proof (run_one q args _ _ _ _ E E' ltac:(discriminate) ltac:(discriminate)) as X. injection X as ->.
    apply tells_result in T, T'. destruct T, T'; congruence.
Qed.

Lemma refuses_one : forall args m hs left m' hs' left', refuses cfg top args m hs left ->
  refuses cfg top args m' hs' left' -> m = m' /\ last (map fst hs) top = last (map fst hs') top.
Proof.
  intros args m hs left m' hs' left' (evs & st & _ & Ev & R) (evs' & st' & _ & Ev' & R').
  assert (X : st = st').
  { destruct (s_auto_exit cfg).
    - destruct R as (f & E), R' as (f' & E').
      pose proof (run_one q args _ _ _ _ E E' ltac:(discriminate) ltac:(discriminate)) as X. injection X as X. exact X.
    - destruct R as ((f & E) & _), R' as ((f' & E') & _).
      pose proof (run_one q args _ _ _ _ E E' ltac:(discriminate) ltac:(discriminate)) as X. injection X as X. exact X. }
  subst st'. rewrite Ev in Ev'. apply app_inj_tail in Ev'. destruct Ev' as (_ & X). injection X as A B. auto.
Qed.

Lemma succeeds_accepted : forall args ws subs e left hs, reading cfg false top (Fresh args) ws subs e ->
  all_foreseen cfg ((top, ws) :: subs) -> left_of e = Some left -> forall left0, succeeds cfg top args hs left0 ->
  left0 = left /\ exists hs0, all_acceptable (at_first top) ((top, ws) :: subs) hs0 /\ same_effect hs0 hs.
Proof.
  intros args ws subs e left hs Rd Fs El left0 S. destruct Rg as (Sd & Hn & Hi & Ig & One).
  destruct (room_or q ws subs) as [Rm|(front & c & b & t & a & E & M)].
  2:{ exfalso. destruct (line_surplus p q H Sd Hn Hi Ig One args ws subs e Rd Fs _ _ _ _ _ E M) as (hs' & pl & _ & _ & _ & R).
      exact (succeeds_refuses _ _ _ _ _ _ S R). }
  destruct (line_judged p q H Sd Hn Hi Ig One args ws subs e Rd Fs left El Rm) as [(hs0 & A)|(f & c & w & h & m & _ & _ & _ & R)];
    [|destruct (succeeds_refuses _ _ _ _ _ _ S R)].
  pose proof (line_success p q H Sd Hn Hi Ig One args ws subs e Rd Fs left hs0 El A) as S0.
  destruct S as (st & (f & E) & _ & T), S0 as (st0 & (f0 & E0) & _ & T0).
  pose proof (run_one q args _ _ _ _ E E0 ltac:(discriminate) ltac:(discriminate)) as X. injection X as <-.
  destruct (tells_same _ _ _ _ _ _ _ _ _ _ T0 T) as (Se & ->). split; [reflexivity|]. exists hs0. auto.
Qed.

Lemma order_success : forall args ws subs e args' ws' subs' e' left hs left0,
  reading cfg false top (Fresh args) ws subs e -> all_foreseen cfg ((top, ws) :: subs) -> left_of e = Some left ->
  reading cfg false top (Fresh args') ws' subs' e' -> all_foreseen cfg ((top, ws') :: subs') -> left_of e' = Some left ->
  all_reordered ((top, ws) :: subs) ((top, ws') :: subs') ->
  succeeds cfg top args hs left0 -> succeeds cfg top args' hs left0.
Proof.
  intros args ws subs e args' ws' subs' e' left hs left0 Rd Fs El Rd' Fs' El' Ro S.
  destruct (succeeds_accepted _ _ _ _ _ _ Rd Fs El _ S) as (-> & hs0 & A & Se).
  destruct (acceptable_reordered _ _ _ _ _ _ _ _ _ _ Rd Ro A) as (hs1 & A1 & Se1).
  destruct Rg as (Sd & Hn & Hi & Ig & One).
  destruct (line_success p q H Sd Hn Hi Ig One args' ws' subs' e' Rd' Fs' left hs1 El' A1) as (st & P & Q & T).
  exists st. split; [exact P|]. split; [exact Q|].
  exact (tells_effect _ _ (same_effect_trans _ _ _ (same_effect_sym _ _ Se1) Se) _ _ _ _ _ T).
Qed.

Lemma first_split : forall (P : opt_data -> Prop) l b o a b' o' a', l = b ++ o :: a -> l = b' ++ o' :: a' ->
  P o -> (forall x, In x b -> ~ P x) -> P o' -> (forall x, In x b' -> ~ P x) -> o = o'.
Proof.
  intros P l b o a b' o' a' E E' Po Pb Po' Pb'. subst l. revert b' E' Pb'.
  induction b as [|x b IH]; intros [|x' b'] E' Pb'; cbn [app] in E'; injection E' as E1 E2; subst.
  - reflexivity.
  - destruct (Pb' _ (or_introl eq_refl) Po).
  - destruct (Pb _ (or_introl eq_refl) Po').
  - apply (IH (fun y I => Pb y (or_intror I)) b' E2). intros y I. apply Pb'. right. exact I.
Qed.

Lemma shortfall_one : forall c h h' k m m', (forall o, In o (c_options c) -> (lacks h o <-> lacks h' o)) ->
  shortfall c h k m -> shortfall c h' k m' -> m = m'.
Proof.
  intros c h h' k m m' Eq S S'.
  destruct S as [(b & o & a & E & L & Nb & ->)|[(N & Rq & ->)|(N & Rq & Ns & ->)]],
    S' as [(b' & o' & a' & E' & L' & Nb' & ->)|[(N' & Rq' & ->)|(N' & Rq' & Ns' & ->)]]; try reflexivity; try congruence.
  - assert (I : In o (c_options c)) by (rewrite E; apply in_elt).
    f_equal. f_equal. f_equal. apply (first_split (lacks h) _ _ _ _ _ _ _ E E' L Nb).
    + apply Eq; [rewrite E'; apply in_elt|exact L'].
    + intros x Ix Lx. apply (Nb' x Ix). apply Eq; [rewrite E'; apply in_or_app; left; exact Ix|exact Lx].
  - exfalso. assert (I : In o (c_options c)) by (rewrite E; apply in_elt). apply (N' o I). apply Eq; assumption.
  - exfalso. assert (I : In o (c_options c)) by (rewrite E; apply in_elt). apply (N' o I). apply Eq; assumption.
  - exfalso. assert (I : In o' (c_options c)) by (rewrite E'; apply in_elt). apply (N o' I). apply Eq; assumption.
  - exfalso. assert (I : In o' (c_options c)) by (rewrite E'; apply in_elt). apply (N o' I). apply Eq; assumption.
Qed.

Lemma order_refused : forall args ws subs e args' ws' subs' e' left m hs left0,
  reading cfg false top (Fresh args) ws subs e -> all_foreseen cfg ((top, ws) :: subs) -> left_of e = Some left ->
  reading cfg false top (Fresh args') ws' subs' e' -> all_foreseen cfg ((top, ws') :: subs') -> left_of e' = Some left ->
  all_reordered ((top, ws) :: subs) ((top, ws') :: subs') ->
  room ((top, ws) :: subs) -> Forall (fun sg => separate (fst sg)) ((top, ws) :: subs) ->
  refuses cfg top args m hs left0 ->
  exists hs', last (map fst hs') top = last (map fst hs) top /\ refuses cfg top args' m hs' left.
Proof.
  intros args ws subs e args' ws' subs' e' left m hs left0 Rd Fs El Rd' Fs' El' Ro Rm Sp R.
  pose proof Rg as (Sd & Hn & Hi & Ig & One).
  assert (Rm' : room ((top, ws') :: subs')).
  { intros front' c w' E. rewrite E in Ro. apply all_reordered_sym in Ro. destruct (split_reordered _ _ _ _ Ro) as (front & w & E' & _ & (Ep & _)).
    rewrite Ep. exact (Rm _ _ _ E'). }
  destruct (line_judged p q H Sd Hn Hi Ig One args ws subs e Rd Fs left El Rm) as [(hs0 & A)|(f & c & w & h & m0 & E & Sf & Sh & R0)].
  { destruct (succeeds_refuses _ _ _ _ _ _ (line_success p q H Sd Hn Hi Ig One args ws subs e Rd Fs left hs0 El A) R). }
  destruct (refuses_one _ _ _ _ _ _ _ R R0) as (<- & El0).
  destruct (line_judged p q H Sd Hn Hi Ig One args' ws' subs' e' Rd' Fs' left El' Rm') as [(hs1 & A)|(f' & c' & w' & h' & m1 & E' & Sf' & Sh' & R1)].
  { destruct (acceptable_reordered _ _ _ _ _ _ _ _ _ _ Rd' (all_reordered_sym _ _ Ro) A) as (hs2 & A2 & _).
    destruct (succeeds_refuses _ _ _ _ _ _ (line_success p q H Sd Hn Hi Ig One args ws subs e Rd Fs left hs2 El A2) R). }
  fold top in E, E', Sf, Sf'.
  rewrite E in Ro. destruct (split_reordered _ _ _ _ Ro) as (f1 & w1 & E1 & Fr & R2).
  rewrite E1 in E'. apply app_inj_tail in E'. destruct E' as (<- & X). injection X as <- <-.
  assert (m = m1).
  { pose proof R2 as (Ep & _). rewrite <- Ep in Sh'. apply (shortfall_one c h h' _ _ _) with (2 := Sh) (3 := Sh').
    intros o Io. unfold lacks.
    destruct Sf as (f2 & c2 & w2 & got & E2 & L2 & I2 & X2). rewrite E in E2. apply app_inj_tail in E2. destruct E2 as (<- & E2).
    injection E2 as <- <-. apply app_inj_tail in X2. destruct X2 as (_ & X2). injection X2 as ->.
    destruct Sf' as (f3 & c3 & w3 & got' & E3 & L3 & I3 & X3). rewrite E1 in E3. apply app_inj_tail in E3. destruct E3 as (<- & E3).
    injection E3 as <- <-. apply app_inj_tail in X3. destruct X3 as (_ & X3). injection X3 as ->.
    rewrite <- (begin_reordered _ _ _ Fr).
    rewrite (meant_separate c (begin (at_first top) f) w w1 got got' (o_value_id o) R2 L2 L3 I2 I3); [reflexivity|].
    intros a Ia. rewrite E in Sp. rewrite Forall_app in Sp. destruct Sp as (_ & Sp). inversion Sp as [|? ? S1 _]; subst.
    exact (S1 o a Io Ia). }
  subst m1. eexists. split; [|exact R1]. rewrite El0, !map_app. cbn [map fst]. rewrite !last_last. reflexivity.
Qed.

Lemma filter_none : forall (f : word -> bool) l, (forall w, In w l -> f w = false) -> filter f l = [].
Proof.
  intros f. induction l as [|x l IH]; intros N; [reflexivity|]. cbn [filter]. rewrite (N x (or_introl eq_refl)).
  apply IH. intros w I. apply N. right. exact I.
Qed.

Lemma independent_swap : forall c a x y b, independent c x y -> reordered c (a ++ x ++ y ++ b) (a ++ y ++ x ++ b).
Proof.
  intros c a x y b (P & I). split.
  - rewrite !positionals_app. f_equal. rewrite !app_assoc. f_equal. destruct P as [-> | ->]; rewrite ?app_nil_r; reflexivity.
  - intros id. rewrite !filter_app. f_equal. rewrite !app_assoc. f_equal.
    destruct (existsb (concerns c id) x) eqn:E.
    + apply existsb_exists in E. destruct E as (w & Iw & E).
      rewrite (filter_none (concerns c id) y), app_nil_r; [reflexivity|]. intros w' Iw'. exact (I id w w' Iw Iw' E).
    + rewrite (filter_none (concerns c id) x), app_nil_r; [reflexivity|]. intros w Iw.
      destruct (concerns c id w) eqn:Ew; [|reflexivity].
      assert (existsb (concerns c id) x = true) by (apply existsb_exists; exists w; auto). congruence.
Qed.

Lemma reordered_refl : forall c ws, reordered c ws ws.
Proof. intros. split; reflexivity. Qed.
Lemma all_reordered_refl : forall s, all_reordered s s.
Proof. induction s; constructor; auto. split; [reflexivity|apply reordered_refl]. Qed.

Lemma last_option_app : forall front c a b, no_last_option (front ++ [(c, a)]) -> no_last_option [(c, b)] ->
  no_last_option (front ++ [(c, a ++ b)]).
Proof.
  intros front c a b N M c' w o v I J. apply in_app_or in I. destruct I as [I|[I|[]]].
  - apply (N c' w o v); [apply in_or_app; left; exact I|exact J].
  - injection I as <- <-. apply in_app_or in J. destruct J as [J|J].
    + apply (N c a o v); [apply in_or_app; right; left; reflexivity|exact J].
    + apply (M c b o v); [left; reflexivity|exact J].
Qed.

Lemma four_parts : forall front c a wa x wx y wy b wb wsa subsa subsb e,
  reading cfg false top (Fresh a) wsa subsa AtEnd -> (top, wsa) :: subsa = front ++ [(c, wa)] ->
  reading cfg false c (Fresh x) wx [] AtEnd -> reading cfg false c (Fresh y) wy [] AtEnd ->
  reading cfg false c (Fresh b) wb subsb e ->
  no_last_option ((top, wsa) :: subsa) -> no_last_option [(c, wx)] -> no_last_option [(c, wy)] ->
  exists ws subs, reading cfg false top (Fresh (a ++ x ++ y ++ b)) ws subs e /\
    (top, ws) :: subs = front ++ (c, wa ++ wx ++ wy ++ wb) :: subsb.
Proof.
  intros front c a wa x wx y wy b wb wsa subsa subsb e Ra Ea Rx Ry Rb Na Nx Ny.
  destruct (line_app _ _ _ _ _ _ _ _ _ _ _ _ Ra Na Ea Rx) as (w1 & s1 & R1 & E1). rewrite Ea in Na.
  assert (N1 : no_last_option ((top, w1) :: s1)) by (rewrite E1; apply last_option_app; assumption).
  destruct (line_app _ _ _ _ _ _ _ _ _ _ _ _ R1 N1 E1 Ry) as (w2 & s2 & R2 & E2). rewrite E1 in N1.
  assert (N2 : no_last_option ((top, w2) :: s2)) by (rewrite E2; apply last_option_app; assumption).
  destruct (line_app _ _ _ _ _ _ _ _ _ _ _ _ R2 N2 E2 Rb) as (w3 & s3 & R3 & E3).
  exists w3, s3. rewrite <- !app_assoc in R3. rewrite <- !app_assoc in E3. auto.
Qed.

Lemma swap_success : forall front c a wa x wx y wy b wb wsa subsa subsb e left hs left0,
  reading cfg false top (Fresh a) wsa subsa AtEnd -> (top, wsa) :: subsa = front ++ [(c, wa)] ->
  reading cfg false c (Fresh x) wx [] AtEnd -> reading cfg false c (Fresh y) wy [] AtEnd ->
  reading cfg false c (Fresh b) wb subsb e ->
  no_last_option ((top, wsa) :: subsa) -> no_last_option [(c, wx)] -> no_last_option [(c, wy)] ->
  left_of e = Some left -> all_foreseen cfg (front ++ (c, wa ++ wx ++ wy ++ wb) :: subsb) -> independent c wx wy ->
  succeeds cfg top (a ++ x ++ y ++ b) hs left0 -> succeeds cfg top (a ++ y ++ x ++ b) hs left0.
Proof.
  intros front c a wa x wx y wy b wb wsa subsa subsb e left hs left0 Ra Ea Rx Ry Rb Na Nx Ny El Fs In S.
  destruct (four_parts _ _ _ _ _ _ _ _ _ _ _ _ _ _ Ra Ea Rx Ry Rb Na Nx Ny) as (ws & subs & R & E).
  destruct (four_parts _ _ _ _ _ _ _ _ _ _ _ _ _ _ Ra Ea Ry Rx Rb Na Ny Nx) as (ws' & subs' & R' & E').
  refine (order_success _ _ _ _ _ _ _ _ _ _ _ R _ El R' _ El _ S).
  - rewrite E. exact Fs.
  - rewrite E'. unfold all_foreseen in Fs |- *. rewrite Forall_app in Fs |- *. destruct Fs as (F1 & F2). split; [exact F1|].
    inversion F2 as [|? ? F3 F4]; subst. constructor; [|exact F4]. cbn [fst snd] in F3 |- *.
    rewrite !Forall_app in F3 |- *. tauto.
  - rewrite E, E'. apply Forall2_app; [apply all_reordered_refl|]. constructor; [|apply all_reordered_refl].
    split; [reflexivity|]. apply independent_swap. exact In.
Qed.
End Order.

Lemma independent_sym : forall c x y, independent c x y -> independent c y x.
Proof.
  intros c x y (P & I). split; [tauto|]. intros id w w' Iw Iw' E. destruct (concerns c id w') eqn:E'; [|reflexivity].
  rewrite (I id w' w Iw' Iw E') in E. discriminate.
Qed.
