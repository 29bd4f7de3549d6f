(** Proofs about extended definitions (C87). *)
From Coq Require Import Permutation.
From Verif Require Import Base BaseProofs MStrings MOptIter MData MCounter MValues MParser
  SStrings SIndex SDef SValues SCounter SParser SStep SLook SEquiv SApi SLine SOrder SAdd
  LineProofs LineProofs2 LineProofs3 OrderProofs.
Open Scope nat_scope.

Lemma like_length : forall A B (R : A -> B -> Prop) l l', Forall2 R l l' -> length l = length l'.
Proof. intros A B R l l' F. induction F; cbn; congruence. Qed.

Lemma folded_more : forall (b b' : bool) x y, (b = true -> b' = true) -> folded b x = folded b y -> folded b' x = folded b' y.
Proof. intros [|] b' x y M E; [rewrite (M eq_refl); exact E|]. unfold folded in E. rewrite E. reflexivity. Qed.
Lemma folded_app : forall b x y, folded b (x ++ y) = folded b x ++ folded b y.
Proof. intros [|] x y; [|reflexivity]. unfold folded, SStrings.lower. apply map_app. Qed.
Lemma begins_more : forall (b b' : bool) x y, (b = true -> b' = true) -> begins_with (folded b x) (folded b y) ->
  begins_with (folded b' x) (folded b' y).
Proof.
  intros [|] b' x y M E; [rewrite (M eq_refl); exact E|]. unfold folded in E. destruct E as (r & ->). rewrite folded_app.
  exists (folded b' r). reflexivity.
Qed.
Lemma folded_eq_sign : forall b, folded b ["="%char] = ["="%char].
Proof. intros [|]; reflexivity. Qed.

Section Add.
Variables (cfg cfg' : settings).
Hypothesis Ls : like_style cfg cfg'.
Let ci := s_case_insensitive cfg'.
Let ci0 := s_case_insensitive cfg.
Let full := with_abbreviations false cfg.

Definition pair_of (c : cmd_data) (opts : list opt_data) (o o' : opt_data) : Prop := In (o, o') (combine (c_options c) opts).

Lemma paired : forall (R : opt_data -> opt_data -> Prop) l l' o, Forall2 R l l' -> In o l ->
  exists o', In (o, o') (combine l l') /\ R o o'.
Proof.
  intros R l l' o F. induction F as [|x y l l' Rxy F IH]; intros I; [destruct I|]. destruct I as [->|I].
  - exists y. split; [left; reflexivity|exact Rxy].
  - destruct (IH I) as (o' & Io & Ro). exists o'. split; [right; exact Io|exact Ro].
Qed.
Lemma combine_rel : forall A B (R : A -> B -> Prop) l l' x y, Forall2 R l l' -> In (x, y) (combine l l') -> R x y.
Proof.
  intros A B R l l' x y F. induction F as [|a b l l' Rab F IH]; intros I; [destruct I|].
  destruct I as [I|I]; [injection I as <- <-; exact Rab|exact (IH I)].
Qed.
Lemma combine_map : forall A B (f : A -> N) (g : B -> N) l l' x y, In (x, y) (combine l l') ->
  In (f x, g y) (combine (map f l) (map g l')).
Proof.
  intros A B f g. induction l as [|a l IH]; intros [|b l'] x y I; cbn in *; try tauto.
  destruct I as [I|I]; [injection I as <- <-; left; reflexivity|right; apply IH; exact I].
Qed.

(** Flags that are written in full select the corresponding option. *)
Lemma full_chooses : forall c c' opts extra t o, extended_by ci c c' opts extra -> chooses full c t o ->
  exists o', pair_of c opts o o' /\ like_option o o' /\ In o' (c_options c') /\ chooses cfg' c' t o'.
Proof.
  intros c c' opts extra t o (_ & _ & _ & Fo & Pm & _ & _ & _ & Nx & Sf) ((_ & St) & S).
  cbn [full with_abbreviations s_case_insensitive s_abbreviations] in S, St. fold ci0 in S, St.
  destruct Ls as (_ & Ec). fold ci ci0 in Ec. fold ci in Sf.
  assert (Dp : dependable cfg' c' t).
  { split; [exact Sf|]. intros Ci. destruct ci0 eqn:E0; [apply St; reflexivity|].
    assert (Z : forall s, is_flag_of false (c_options c) s o -> SStrings.safe s).
    { intros s (f & (Io & If) & E). unfold folded in E. subst s. apply (Sf Ci).
      destruct (paired _ _ _ _ Fo Io) as (o' & Ip & (Ef & _)). apply in_flat_map. exists o'. split; [|rewrite <- Ef; exact If].
      apply (Permutation_in _ Pm). apply in_or_app. left. exact (in_combine_r _ _ _ _ Ip). }
    destruct S as [[Fl|(A & _)]|(Nn & s & Es & Ln & [Fl|(A & _)] & Ar)]; try discriminate A; [exact (Z _ Fl)|].
    subst t. intros x Ix. apply in_app_or in Ix. destruct Ix as [Ix|[<-|[]]]; [exact (Z _ Fl x Ix)|reflexivity]. }
  assert (X : forall s, is_flag_of ci0 (c_options c) s o -> exists o', pair_of c opts o o' /\ like_option o o' /\ In o' (c_options c') /\
    is_flag_of ci (c_options c') s o').
  { intros s (f & (Io & If) & E). destruct (paired _ _ _ _ Fo Io) as (o' & Ip & Lo). exists o'. split; [exact Ip|]. split; [exact Lo|].
    assert (Io' : In o' (c_options c')).
    { apply (Permutation_in _ Pm). apply in_or_app. left. exact (in_combine_r _ _ _ _ Ip). }
    split; [exact Io'|]. exists f. split; [split; [exact Io'|]|exact (folded_more _ _ _ _ Ec E)]. destruct Lo as (<- & _). exact If. }
  destruct S as [[Fl|(A & _)]|(Nn & s & Es & Ln & [Fl|(A & _)] & Ar)]; try discriminate A.
  - destruct (X _ Fl) as (o' & P1 & P2 & P3 & P4). exists o'. do 3 (split; [assumption|]). split; [exact Dp|].
    left. left. exact P4.
  - destruct (X _ Fl) as (o' & P1 & P2 & P3 & P4). exists o'. do 3 (split; [assumption|]). split; [exact Dp|].
    right. fold ci. split.
    + destruct Fl as (f & (Io & If) & E). apply (folded_more _ ci _ _ Ec) in E.
      assert (Ic : In f (all_flags (c_options c))) by (apply in_flat_map; exists o; auto).
      assert (Y : forall f' o1, declared (c_options c') f' o1 -> ~ begins_with (folded ci f') (folded ci t)).
      { intros f' o1 (I1 & I2). subst t. rewrite folded_app, folded_eq_sign, <- E.
        apply Nx; [exact Ic|]. apply in_flat_map. exists o1. auto. }
      intros o1 [(f' & D1 & E1)|(_ & f' & D1 & B1 & _)]; apply (Y f' o1 D1); [|exact B1].
      exists []. rewrite app_nil_r. exact E1.
    + exists s. do 2 (split; [assumption|]). split; [left; exact P4|]. destruct P2 as (_ & <- & _). exact Ar.
Qed.

Inductive word_like (c : cmd_data) (opts : list opt_data) : word -> word -> Prop :=
| like_optional : forall o o' v, pair_of c opts o o' -> like_option o o' -> word_like c opts (Optional o v) (Optional o' v)
| like_positional : forall t, word_like c opts (Positional t) (Positional t).

Definition seg_like (sg sg' : cmd_data * list word) : Prop :=
  exists opts extra, extended_by ci (fst sg) (fst sg') opts extra /\ Forall2 (word_like (fst sg) opts) (snd sg) (snd sg').

Lemma forall2_split : forall (R : cmd_data -> cmd_data -> Prop) l l' b d a, Forall2 R l l' -> l = b ++ d :: a ->
  exists b' d' a', l' = b' ++ d' :: a' /\ Forall2 R b b' /\ R d d' /\ Forall2 R a a'.
Proof.
  intros R l l' b d a F E. subst l. apply Forall2_app_inv_l in F. destruct F as (b' & r & Fb & Fr & ->).
  inversion Fr as [|? d' ? a' Rd Ra]; subst. exists b', d', a'. auto.
Qed.

Lemma extends_name : forall c c', extends ci c c' -> c_name c = c_name c'.
Proof. intros c c' E. inversion E as [? ? ? ? X _]; subst. apply X. Qed.

Lemma first_named_like : forall c c' t d, names_apart ci0 ci c -> Forall2 (extends ci) (c_commands c) (c_commands c') ->
  first_named full c t d -> exists d', extends ci d d' /\ first_named cfg' c' t d'.
Proof.
  intros c c' t d Ap F (b & a & E & En & Nb). destruct (forall2_split _ _ _ _ _ _ F E) as (b' & d' & a' & E' & Fb & Ed & _).
  cbn [full with_abbreviations s_case_insensitive] in En, Nb. destruct Ls as (_ & Ec). fold ci0 in En, Nb, Ec. fold ci in Ec.
  exists d'. split; [exact Ed|]. exists b', a'. split; [exact E'|]. fold ci. rewrite <- (extends_name _ _ Ed).
  split; [exact (folded_more _ _ _ _ Ec En)|].
  assert (Nb' : forall z, In z b -> folded ci (c_name z) <> folded ci t).
  { intros z Iz Q. apply (Nb z Iz). rewrite <- En. apply Ap.
    - rewrite E. apply in_or_app. left. exact Iz.
    - rewrite E. apply in_or_app. right. left. reflexivity.
    - rewrite Q. symmetry. exact (folded_more _ _ _ _ Ec En). }
  intros x I. clear - Fb I Nb'. induction Fb as [|y x' b b' Ry Fb IH]; [destruct I|].
  destruct I as [<-|I]; [rewrite <- (extends_name _ _ Ry); apply Nb'; left; reflexivity|].
  apply IH; [|exact I]. intros z Iz. apply Nb'. right. exact Iz.
Qed.

Lemma takes_like : forall o o' pl v pl', like_option o o' -> takes (s_style full) o pl v pl' -> takes (s_style cfg') o' pl v pl'.
Proof.
  intros o o' pl v pl' (_ & _ & Lc & Lo & _) T. destruct Ls as (Es & _). rewrite <- Es.
  unfold takes, takes_value in *. rewrite <- Lc, <- Lo. exact T.
Qed.

Lemma reading_like : forall only c pl ws subs e, reading full only c pl ws subs e -> left_of e <> None ->
  (forall x, within c x -> names_apart ci0 ci x) ->
  forall c' opts extra, extended_by ci c c' opts extra -> Forall2 (extends ci) (c_commands c) (c_commands c') ->
  exists ws' subs' e', reading cfg' only c' pl ws' subs' e' /\ left_of e' = left_of e /\
    Forall2 (word_like c opts) ws ws' /\ Forall2 seg_like subs subs'.
Proof.
  pose proof Ls as (Es & Ec).
  intros only c pl ws subs e R. induction R; intros Le Ap c' opts extra X Cs; try (destruct (Le eq_refl); fail).
  - exists [], [], AtEnd. split; [apply rd_end; assumption|]. repeat constructor.
  - exists [], [], AtEnd. split; [apply rd_end_only; assumption|]. repeat constructor.
  - destruct (IHR Le Ap c' opts extra X Cs) as (ws' & subs' & e' & R' & L' & F' & S').
    exists (Positional t :: ws'), subs', e'. split; [|split; [exact L'|split; [|exact S']]].
    + apply rd_positional with pl'; [|rewrite H0 in Cs; inversion Cs; reflexivity|exact R'].
      unfold plain in *. cbn [full with_abbreviations s_style] in H. rewrite <- Es. exact H.
    + constructor; [apply like_positional|exact F'].
  - destruct H as (Tk & Lk & Ch). destruct (full_chooses _ _ _ _ _ _ X Ch) as (o' & P1 & P2 & P3 & P4).
    destruct (IHR Le Ap c' opts extra X Cs) as (ws' & subs' & e' & R' & L' & F' & S').
    exists (Optional o' v :: ws'), subs', e'. split; [|split; [exact L'|split; [|exact S']]].
    + apply rd_option with t pl' pl''; [|exact (takes_like _ _ _ _ _ P2 H0)|destruct P2 as (_ & _ & _ & _ & <- & _); assumption|exact R'].
      cbn [full with_abbreviations s_style] in Tk, Lk. rewrite Es in Tk, Lk. split; [exact Tk|]. split; assumption.
    + constructor; [apply like_optional; assumption|exact F'].
  - destruct H as (Tk & Lk & Ch). destruct (full_chooses _ _ _ _ _ _ X Ch) as (o' & P1 & P2 & P3 & P4).
    destruct (IHR Le Ap c' opts extra X Cs) as (ws' & subs' & e' & R' & L' & F' & S').
    exists (Optional o' v :: ws'), subs', e'. split; [|split; [exact L'|split; [|exact S']]].
    + apply rd_last_option with t pl' pl''; [|exact (takes_like _ _ _ _ _ P2 H0)|destruct P2 as (_ & _ & _ & _ & <- & _); assumption|exact R'].
      cbn [full with_abbreviations s_style] in Tk, Lk. rewrite Es in Tk, Lk. split; [exact Tk|]. split; assumption.
    + constructor; [apply like_optional; assumption|exact F'].
  - destruct H as (Tk & Lk & Ch). destruct (full_chooses _ _ _ _ _ _ X Ch) as (o' & P1 & P2 & P3 & P4).
    exists [Optional o' v], [], (AtLast o' (left_at pl'')). split; [|split; [reflexivity|split; [|constructor]]].
    + apply rd_last_argument with t pl'; [|exact (takes_like _ _ _ _ _ P2 H0)|destruct P2 as (_ & _ & _ & _ & <- & _); assumption].
      cbn [full with_abbreviations s_style] in Tk, Lk. rewrite Es in Tk, Lk. split; [exact Tk|]. split; assumption.
    + constructor; [apply like_optional; assumption|constructor].
  - destruct (first_named_like _ _ _ _ (Ap _ (within_top _)) Cs H0) as (d' & Ed & Fn). inversion Ed as [? ? opts' extra' Xd Csd]; subst.
    assert (Apd : forall x, within d x -> names_apart ci0 ci x).
    { intros x Wx. apply Ap. destruct H0 as (b & a & E & _). clear - Wx E. induction Wx as [|y z _ IW Iz].
      - apply within_sub with c; [apply within_top|]. rewrite E. apply in_or_app. right. left. reflexivity.
      - apply within_sub with y; assumption. }
    destruct (IHR Le Apd d' opts' extra' Xd Csd) as (ws' & subs' & e' & R' & L' & F' & S').
    exists [], ((d', ws') :: subs'), e'. split; [|split; [exact L'|split; [constructor|]]].
    + apply rd_command with t pl'; [|exact Fn|exact R'].
      unfold plain in *. cbn [full with_abbreviations s_style] in H. rewrite <- Es. exact H.
    + constructor; [|exact S']. exists opts', extra'. auto.
Qed.

(** Histories of corresponding values. *)
Inductive change_like (vs : list (N * N)) : change -> change -> Prop :=
| like_assigned : forall i i' t b b', In (i, i') vs -> change_like vs (Assigned i t b) (Assigned i' t b')
| like_appended : forall i i' t b b', In (i, i') vs -> change_like vs (Appended i t b) (Appended i' t b')
| like_cleared : forall i i', In (i, i') vs -> change_like vs (Cleared i) (Cleared i').

Definition bijective (vs : list (N * N)) : Prop :=
  forall v1 v1' v2 v2', In (v1, v1') vs -> In (v2, v2') vs -> (v1 = v2 <-> v1' = v2').

Lemma effect_like : forall vs, bijective vs -> forall v v', In (v, v') vs -> forall m m', Forall2 (change_like vs) m m' ->
  forall s s' : list (str * N), map fst s = map fst s' -> map fst (fold_left (effect v) m s) = map fst (fold_left (effect v') m' s').
Proof.
  intros vs B v v' I m m' F. induction F as [|x x' m m' Rx F IH]; intros s s' E; [exact E|]. cbn [fold_left]. apply IH.
  assert (Q : forall i i', In (i, i') vs -> N.eqb i v = N.eqb i' v').
  { intros i i' Ii. pose proof (B _ _ _ _ Ii I) as [Q1 Q2]. destruct (N.eqb_spec i v) as [Q|Q].
    - symmetry. apply N.eqb_eq. auto.
    - symmetry. apply N.eqb_neq. auto. }
  inversion Rx as [i i' t b b' Ii|i i' t b b' Ii|i i' Ii]; subst; cbn [effect]; rewrite (Q _ _ Ii); destruct (N.eqb i' v');
    try exact E; try reflexivity. rewrite !map_app, E. reflexivity.
Qed.

Lemma initial_texts_from : forall v opts (s : list (str * N)), map fst (fold_left (effect v) (given_changes initial_change opts) s) = map fst s ++ initials v opts.
Proof.
  intros v. induction opts as [|o opts IH]; intros s; [cbn; rewrite app_nil_r; reflexivity|].
  unfold given_changes, initials. cbn [flat_map]. fold (given_changes initial_change opts). fold (initials v opts).
  unfold initial_change at 1. destruct (o_initial_value o) as [|x t].
  - cbn [app]. rewrite IH. destruct (N.eqb _ v); reflexivity.
  - cbn [app fold_left effect]. rewrite IH. destruct (N.eqb (o_value_id o) v); [|reflexivity].
    rewrite map_app, <- app_assoc. reflexivity.
Qed.

Lemma meant_like : forall c c' opts got got' ws ws', Forall2 (word_like c opts) ws ws' ->
  Forall2 (fun a a' => In (a_value_id a, a_value_id a') (value_pairs c c' opts)) got got' ->
  Forall2 (change_like (value_pairs c c' opts)) (meant got ws) (meant got' ws').
Proof.
  intros c c' opts got got' ws ws' F. revert got got'. induction F as [|w w' ws ws' Rw F IH]; intros got got' G; [constructor|].
  inversion Rw as [o o' v Ip (L1 & L2 & L3 & L4 & L5 & L6)|t]; subst; cbn [meant].
  - apply Forall2_app; [|apply IH; exact G].
    assert (Iv : In (o_value_id o, o_value_id o') (value_pairs c c' opts))
      by (apply in_or_app; right; apply combine_map; exact Ip).
    unfold option_change, text_of. rewrite <- L4, <- L3. destruct (o_operation o); repeat constructor; exact Iv.
  - inversion G as [|a a' g g' Ra G']; subst; [constructor|]. constructor; [constructor; exact Ra|apply IH; exact G'].
Qed.

Lemma order_like : forall c c' opts ks args args', Forall2 like_argument args args' ->
  (forall a a', In (a, a') (combine args args') -> In (a_value_id a, a_value_id a') (value_pairs c c' opts)) ->
  Forall2 (fun a a' => In (a_value_id a, a_value_id a') (value_pairs c c' opts)) (order (combine ks args)) (order (combine ks args')).
Proof.
  intros c c' opts ks args args' F. revert ks. induction F as [|a a' args args' Ra F IH]; intros [|k ks] I; try constructor.
  cbn [combine order flat_map fst snd].
  change (flat_map _ (combine ks args)) with (order (combine ks args)).
  change (flat_map _ (combine ks args')) with (order (combine ks args')). apply Forall2_app.
  - induction (N.to_nat k); constructor; [apply I; left; reflexivity|assumption].
  - apply IH. intros b b' Ib. apply I. right. exact Ib.
Qed.

Lemma nth_like : forall args args' i a', Forall2 like_argument args args' -> nth_error args' i = Some a' ->
  exists a, nth_error args i = Some a /\ like_argument a a'.
Proof.
  intros args args' i a' F. revert i. induction F as [|x y args args' R F IH]; intros [|i] E; try discriminate.
  - injection E as <-. exists x. auto.
  - apply IH. exact E.
Qed.
Lemma like_argument_sym : forall l l', Forall2 like_argument l l' -> Forall2 like_argument l' l.
Proof. intros l l' F. induction F as [|x y l l' (A & B) F IH]; constructor; [split; congruence|exact IH]. Qed.

Lemma fair_like : forall args args' k ks, Forall2 like_argument args args' -> fair args k ks -> fair args' k ks.
Proof.
  intros args args' k ks F (L & S & A & B). split; [rewrite L; exact (like_length _ _ _ _ _ F)|]. split; [exact S|]. split.
  - intros i a' k0 E E'. destruct (nth_like _ _ _ _ F E) as (a & Ea & <- & <-). exact (A _ _ _ Ea E').
  - intros i j a' b' k0 m Lt E E' Eb Eb' Lm.
    destruct (nth_like _ _ _ _ F E) as (a & Ea & _ & <-). destruct (nth_like _ _ _ _ F Eb) as (b & Eb0 & Mb & _).
    rewrite <- Mb in Lm. exact (B _ _ _ _ _ _ Lt Ea E' Eb0 Eb' Lm).
Qed.
Lemma predictable_like : forall args args', Forall2 like_argument args args' -> predictable args -> predictable args'.
Proof.
  intros args args' F P front final E. subst args'. apply Forall2_app_inv_r in F. destruct F as (f & r & Ff & Fr & ->).
  inversion Fr as [|x ? l ? Rx Fl]; subst. inversion Fl; subst. intros a' I. specialize (P f x eq_refl).
  clear - Ff I P. induction Ff as [|y z f front (A & B) Ff IH]; [destruct I|].
  destruct I as [<-|I]; [rewrite <- A, <- B; apply P; left; reflexivity|].
  apply IH; [|exact I]. intros b Ib. apply P. right. exact Ib.
Qed.
Lemma last_used_like : forall args args' k, Forall2 like_argument args args' -> last_used args k -> last_used args' k.
Proof.
  intros args args' k F [P|(ks & Fk & L)]; [left; exact (predictable_like _ _ F P)|].
  right. exists ks. split; [exact (fair_like _ _ _ _ F Fk)|exact L].
Qed.

Lemma words_positionals : forall c opts ws ws', Forall2 (word_like c opts) ws ws' -> positionals ws = positionals ws'.
Proof.
  intros c opts ws ws' F. induction F as [|w w' ws ws' R F IH]; [reflexivity|].
  unfold positionals. cbn [flat_map]. fold (positionals ws). fold (positionals ws'). rewrite IH. inversion R; reflexivity.
Qed.

Definition begun (top : cmd_data) (init : list change) : Prop := init = at_first top \/ init = [].

(** Corresponding histories give the same texts. *)
Lemma history_like : forall c c' opts extra init init' m m' v v', extended_by ci c c' opts extra ->
  (init = at_first c /\ init' = at_first c' \/ init = [] /\ init' = []) ->
  Forall2 (change_like (value_pairs c c' opts)) m m' -> In (v, v') (value_pairs c c' opts) ->
  texts (init ++ m) v = texts (init' ++ m') v'.
Proof.
  intros c c' opts extra init init' m m' v v' (_ & _ & _ & _ & _ & _ & B & In0 & _) Hi Fm Iv.
  unfold texts, history. rewrite !fold_left_app. apply (effect_like _ B _ _ Iv _ _ Fm).
  destruct Hi as [(-> & ->)|(-> & ->)]; [|reflexivity].
  unfold at_first. rewrite !initial_texts_from. cbn [map app]. exact (In0 _ _ Iv).
Qed.

Lemma values_like : forall c c' opts extra init init' m m', extended_by ci c c' opts extra ->
  (init = at_first c /\ init' = at_first c' \/ init = [] /\ init' = []) ->
  Forall2 (change_like (value_pairs c c' opts)) m m' ->
  like_values (c, init ++ m) (c', init' ++ m').
Proof.
  intros c c' opts extra init init' m m' X Hi Fm. pose proof X as (En & _ & Fa & Fo & Pm & _).
  split; [exact En|]. cbn [fst snd]. split.
  - intros o Io. destruct (paired _ _ _ _ Fo Io) as (o' & Ip & Lo). exists o'. split; [|split; [exact Lo|]].
    + apply (Permutation_in _ Pm). apply in_or_app. left. exact (in_combine_r _ _ _ _ Ip).
    + apply (history_like _ _ _ _ _ _ _ _ _ _ X Hi Fm). apply in_or_app. right. apply combine_map. exact Ip.
  - assert (Z : forall a a', In (a, a') (combine (c_arguments c) (c_arguments c')) ->
      texts (init ++ m) (a_value_id a) = texts (init' ++ m') (a_value_id a')).
    { intros a a' Ia. apply (history_like _ _ _ _ _ _ _ _ _ _ X Hi Fm). apply in_or_app. left. apply combine_map. exact Ia. }
    revert Z. clear - Fa. induction Fa as [|a a' l l' R F IH]; intros Z; constructor.
    + apply Z. left. reflexivity.
    + apply IH. intros b b' I. apply Z. right. exact I.
Qed.

Lemma texts_nil : forall h v, texts h v = [] <-> history h v = [].
Proof. intros h v. unfold texts. destruct (history h v); split; intros E; try reflexivity; discriminate. Qed.

Lemma acceptable_like : forall c c' opts extra init init' ws ws' h, extended_by ci c c' opts extra ->
  (init = at_first c /\ init' = at_first c' \/ init = [] /\ init' = []) -> Forall2 (word_like c opts) ws ws' ->
  acceptable init c ws h -> exists h', acceptable init' c' ws' h' /\ like_values (c, h) (c', h').
Proof.
  intros c c' opts extra init init' ws ws' h X Hi Fw (A1 & A2 & (ks & Fk & ->) & A4).
  pose proof X as (_ & Er & Fa & Fo & Pm & Ex & _).
  assert (Fm : Forall2 (change_like (value_pairs c c' opts)) (meant (order (combine ks (c_arguments c))) ws)
    (meant (order (combine ks (c_arguments c'))) ws')).
  { apply meant_like; [exact Fw|]. apply order_like; [exact Fa|]. intros a a' I. apply in_or_app. left. apply combine_map. exact I. }
  eexists. split; [|exact (values_like _ _ _ _ _ _ _ _ X Hi Fm)].
  pose proof (words_positionals _ _ _ _ Fw) as Ep. unfold acceptable. rewrite <- Ep, <- Er. split; [exact A1|].
  split; [exact (last_used_like _ _ _ Fa A2)|]. split.
  - exists ks. split; [exact (fair_like _ _ _ _ Fa Fk)|reflexivity].
  - intros o' Io' Oo. apply (Permutation_in _ (Permutation_sym Pm)) in Io'. apply in_app_or in Io'.
    destruct Io' as [Io'|Io']; [|rewrite (Ex _ Io') in Oo; discriminate].
    assert (Y : exists o, In (o, o') (combine (c_options c) opts) /\ like_option o o').
    { clear - Fo Io'. induction Fo as [|x y l l' R F IH]; [destruct Io'|]. destruct Io' as [->|I].
      - exists x. split; [left; reflexivity|exact R].
      - destruct (IH I) as (o & Io & Ro). exists o. split; [right; exact Io|exact Ro]. }
    destruct Y as (o & Ip & Lo).
    assert (Ht : texts (init ++ meant (order (combine ks (c_arguments c))) ws) (o_value_id o) =
      texts (init' ++ meant (order (combine ks (c_arguments c'))) ws') (o_value_id o')).
    { apply (history_like _ _ _ _ _ _ _ _ _ _ X Hi Fm). apply in_or_app. right. apply combine_map. exact Ip. }
    assert (Hn : history (init ++ meant (order (combine ks (c_arguments c))) ws) (o_value_id o) <> []).
    { apply A4; [exact (in_combine_l _ _ _ _ Ip)|]. destruct Lo as (_ & _ & _ & _ & _ & ->). exact Oo. }
    intros Hz. apply texts_nil in Hz. rewrite <- Ht in Hz. apply texts_nil in Hz. exact (Hn Hz).
Qed.

(** The other direction. *)
Lemma acceptable_back : forall c c' opts extra init init' ws ws' h', extended_by ci c c' opts extra ->
  (init = at_first c /\ init' = at_first c' \/ init = [] /\ init' = []) -> Forall2 (word_like c opts) ws ws' ->
  acceptable init' c' ws' h' -> exists h, acceptable init c ws h.
Proof.
  intros c c' opts extra init init' ws ws' h' X Hi Fw (A1 & A2 & (ks & Fk & ->) & A4).
  pose proof X as (_ & Er & Fa & Fo & Pm & Ex & _).
  assert (Fm : Forall2 (change_like (value_pairs c c' opts)) (meant (order (combine ks (c_arguments c))) ws)
    (meant (order (combine ks (c_arguments c'))) ws')).
  { apply meant_like; [exact Fw|]. apply order_like; [exact Fa|]. intros a a' I. apply in_or_app. left. apply combine_map. exact I. }
  exists (init ++ meant (order (combine ks (c_arguments c))) ws).
  pose proof (words_positionals _ _ _ _ Fw) as Ep. unfold acceptable. rewrite <- Ep in A2, Fk. rewrite Er. split; [exact A1|].
  split; [exact (last_used_like _ _ _ (like_argument_sym _ _ Fa) A2)|]. split.
  - exists ks. split; [exact (fair_like _ _ _ _ (like_argument_sym _ _ Fa) Fk)|reflexivity].
  - intros o Io Oo. destruct (paired _ _ _ _ Fo Io) as (o' & Ip & Lo).
    assert (Ht : texts (init ++ meant (order (combine ks (c_arguments c))) ws) (o_value_id o) =
      texts (init' ++ meant (order (combine ks (c_arguments c'))) ws') (o_value_id o')).
    { apply (history_like _ _ _ _ _ _ _ _ _ _ X Hi Fm). apply in_or_app. right. apply combine_map. exact Ip. }
    assert (Hn : history (init' ++ meant (order (combine ks (c_arguments c'))) ws') (o_value_id o') <> []).
    { apply A4; [|destruct Lo as (_ & _ & _ & _ & _ & <-); exact Oo].
      apply (Permutation_in _ Pm). apply in_or_app. left. exact (in_combine_r _ _ _ _ Ip). }
    intros Hz. apply texts_nil in Hz. rewrite Ht in Hz. apply texts_nil in Hz. exact (Hn Hz).
Qed.

Lemma passed_like : forall front front', Forall2 seg_like front front' -> forall init init',
  (front = [] \/ exists c c' w w' r r', front = (c, w) :: r /\ front' = (c', w') :: r' /\
     (init = at_first c /\ init' = at_first c' \/ init = [] /\ init' = [])) ->
  Forall2 like_values (passed init front) (passed init' front').
Proof.
  intros front front' F. induction F as [|(c & w) (c' & w') front front' (opts & extra & X & Fw) F IH]; intros init init' Hi; [constructor|].
  cbn [passed]. cbn [fst snd] in X, Fw. destruct Hi as [Hi|(c1 & c1' & w1 & w1' & r & r' & E & E' & Hi)]; [discriminate|].
  injection E as <- <- <-. injection E' as <- <- <-. constructor.
  - apply (values_like _ _ _ _ _ _ _ _ X Hi). apply meant_like; [exact Fw|constructor].
  - apply IH. destruct F as [|(c2 & w2) (c2' & w2') f f' _ F]; [left; reflexivity|]. right. exists c2, c2', w2, w2', f, f'. auto.
Qed.

Lemma split_like : forall front c w segs', Forall2 seg_like (front ++ [(c, w)]) segs' ->
  exists front' c' w', segs' = front' ++ [(c', w')] /\ Forall2 seg_like front front' /\ seg_like (c, w) (c', w').
Proof.
  intros front c w segs' F. apply Forall2_app_inv_l in F. destruct F as (front' & r & Ff & Fr & ->).
  inversion Fr as [|? (c' & w') ? l R Fl]; subst. inversion Fl; subst. exists front', c', w'. auto.
Qed.

Lemma begin_like : forall top top' w0 w0' subs subs' front c w front' c' w',
  (top, w0) :: subs = front ++ [(c, w)] -> (top', w0') :: subs' = front' ++ [(c', w')] -> length front = length front' ->
  (begin (at_first top) front = at_first c /\ begin (at_first top') front' = at_first c' \/
   begin (at_first top) front = [] /\ begin (at_first top') front' = []) /\
  (front = [] \/ exists c c' w w' r r', front = (c, w) :: r /\ front' = (c', w') :: r' /\
     (at_first top = at_first c /\ at_first top' = at_first c' \/ at_first top = [] /\ at_first top' = [])).
Proof.
  intros top top' w0 w0' subs subs' front c w front' c' w' E E' L.
  destruct front as [|(c1 & w1) front], front' as [|(c1' & w1') front']; try discriminate L; cbn [app] in E, E'.
  - injection E as <- _ _. injection E' as <- _ _. split; left; auto.
  - injection E as <- <- E. injection E' as <- <- E'. split; [right; auto|]. right. do 6 eexists. split; [reflexivity|].
    split; [reflexivity|]. left. auto.
Qed.

Lemma all_acceptable_like : forall top top' ws ws' subs subs' hs,
  Forall2 seg_like ((top, ws) :: subs) ((top', ws') :: subs') ->
  all_acceptable (at_first top) ((top, ws) :: subs) hs ->
  exists hs', all_acceptable (at_first top') ((top', ws') :: subs') hs' /\ Forall2 like_values hs hs'.
Proof.
  intros top top' ws ws' subs subs' hs F (front & c & w & h & E & A & ->).
  pose proof F as F0. rewrite E in F0. destruct (split_like _ _ _ _ F0) as (front' & c' & w' & E' & Ff & (opts & extra & X & Fw)).
  cbn [fst snd] in X, Fw.
  destruct (begin_like _ _ _ _ _ _ _ _ _ _ _ _ E E' (like_length _ _ _ _ _ Ff)) as (B1 & B2).
  destruct (acceptable_like _ _ _ _ _ _ _ _ _ X B1 Fw A) as (h' & A' & Lv).
  exists (passed (at_first top') front' ++ [(c', h')]). split.
  - exists front', c', w', h'. auto.
  - apply Forall2_app; [exact (passed_like _ _ Ff _ _ B2)|]. constructor; [exact Lv|constructor].
Qed.

Lemma all_acceptable_back : forall top top' ws ws' subs subs' hs',
  Forall2 seg_like ((top, ws) :: subs) ((top', ws') :: subs') ->
  all_acceptable (at_first top') ((top', ws') :: subs') hs' -> exists hs, all_acceptable (at_first top) ((top, ws) :: subs) hs.
Proof.
  intros top top' ws ws' subs subs' hs' F (front' & c' & w' & h' & E' & A & ->).
  pose proof F as F0. rewrite E' in F0. apply Forall2_app_inv_r in F0. destruct F0 as (front & r & Ff & Fr & E).
  inversion Fr as [|(c & w) ? l ? R Fl]; subst. inversion Fl; subst. destruct R as (opts & extra & X & Fw). cbn [fst snd] in X, Fw.
  destruct (begin_like _ _ _ _ _ _ _ _ _ _ _ _ E E' (like_length _ _ _ _ _ Ff)) as (B1 & B2).
  destruct (acceptable_back _ _ _ _ _ _ _ _ _ X B1 Fw A) as (h & A').
  eexists. exists front, c, w, h. auto.
Qed.

Lemma foreseen_like : forall segs segs', Forall2 seg_like segs segs' ->
  all_foreseen (with_abbreviations true cfg) segs -> all_foreseen cfg' segs'.
Proof.
  intros segs segs' F A. unfold all_foreseen in *. induction F as [|(c & w) (c' & w') segs segs' (opts & extra & X & Fw) F IH]; [constructor|].
  inversion A as [|? ? A1 A2]; subst. constructor; [|exact (IH A2)]. cbn [fst snd] in *. clear - X Fw A1 Ls.
  induction Fw as [|x y w w' R Fw IH]; [constructor|]. inversion A1 as [|? ? A3 A4]; subst. constructor; [|exact (IH A4)].
  inversion R as [o o' v Ip (L1 & L2 & L3 & L4 & L5 & L6)|t]; subst; cbn [foreseen] in *.
  - unfold takes_value in *. rewrite <- L2, <- L3, <- L4. exact A3.
  - destruct X as (_ & _ & _ & Fo & Pm & _). unfold no_beginning in *. cbn [with_abbreviations s_abbreviations s_style] in A3.
    destruct Ls as (<- & _). destruct A3 as [A3|[A3|A3]]; [discriminate| |]; right; [left; exact A3|]. right.
    assert (Lf : length (all_flags (c_options c)) <= length (all_flags (c_options c'))).
    { unfold all_flags at 2. rewrite <- (Permutation_length (Permutation_flat_map o_flags Pm)). rewrite flat_map_app, app_length.
      assert (E : all_flags (c_options c) = all_flags opts).
      { clear - Fo. induction Fo as [|x y l l' (E & _) F IH]; [reflexivity|]. unfold all_flags. cbn [flat_map]. rewrite E.
        f_equal. exact IH. }
      rewrite E. unfold all_flags. lia. }
    lia.
Qed.
End Add.

(** Abbreviations make no difference to flags that are written in full, and neither do
    those options that are not used. *)
Lemma foreseen_weaken : forall cfg segs, all_foreseen (with_abbreviations true cfg) segs -> all_foreseen cfg segs.
Proof.
  intros cfg segs A. unfold all_foreseen in *. eapply Forall_impl; [|exact A]. intros (c & w) B. cbn [fst snd] in *.
  eapply Forall_impl; [|exact B]. intros [o v|t] F; [exact F|]. cbn [foreseen] in *. unfold no_beginning in *.
  cbn [with_abbreviations s_abbreviations s_style] in F. destruct F as [F|F]; [discriminate|right; exact F].
Qed.

Section Same.
Variable cfg cfg' : settings.
Hypothesis Ls : like_style cfg cfg'.
Let ci := s_case_insensitive cfg'.
Let ci0 := s_case_insensitive cfg.
Let full := with_abbreviations false cfg.

Lemma own_chooses : forall c c' opts extra t o, extended_by ci c c' opts extra -> chooses full c t o -> chooses cfg c t o.
Proof.
  intros c c' opts extra t o (_ & _ & _ & Fo & Pm & _ & _ & _ & Nx & _) ((Sf & St) & S).
  cbn [full with_abbreviations s_case_insensitive s_abbreviations] in S, St, Sf. fold ci0 in S, St, Sf.
  destruct Ls as (_ & Ec). fold ci ci0 in Ec.
  split; [split; assumption|]. fold ci0.
  destruct S as [[Fl|(A & _)]|(Nn & s & Es & Ln & [Fl|(A & _)] & Ar)]; try discriminate A; [left; left; exact Fl|].
  right. split; [|exists s; do 2 (split; [assumption|]); split; [left; exact Fl|exact Ar]].
  destruct Fl as (f & (Io & If) & E).
  assert (Ic : In f (all_flags (c_options c))) by (apply in_flat_map; exists o; auto).
  apply (folded_more _ ci _ _ Ec) in E.
  assert (Y : forall f' o1, declared (c_options c) f' o1 -> ~ begins_with (folded ci0 f') (folded ci0 t)).
  { intros f' o1 (I1 & I2) B. apply (begins_more _ ci _ _ Ec) in B. revert B. subst t. rewrite folded_app, folded_eq_sign, <- E.
    apply Nx; [exact Ic|]. destruct (paired _ _ _ _ Fo I1) as (o' & Ip & (Ef & _)). apply in_flat_map. exists o'.
    split; [|rewrite <- Ef; exact I2]. apply (Permutation_in _ Pm). apply in_or_app. left. exact (in_combine_r _ _ _ _ Ip). }
  intros o1 [(f' & D1 & E1)|(_ & f' & D1 & B1 & _)]; apply (Y f' o1 D1); [|exact B1].
  exists []. rewrite app_nil_r. exact E1.
Qed.

Lemma own_reading : forall only c pl ws subs e, reading full only c pl ws subs e -> left_of e <> None ->
  forall c', extends ci c c' -> reading cfg only c pl ws subs e.
Proof.
  intros only c pl ws subs e R. induction R; intros Le c' X; try (destruct (Le eq_refl); fail).
  - apply rd_end; assumption.
  - apply rd_end_only; assumption.
  - eapply rd_positional; [exact H|assumption|exact (IHR Le _ X)].
  - pose proof X as X0. inversion X0 as [? ? opts extra Xb _]; subst. destruct H as (Tk & Lk & Ch).
    eapply rd_option; [|exact H0|assumption|exact (IHR Le _ X)]. split; [exact Tk|]. split; [exact Lk|exact (own_chooses _ _ _ _ _ _ Xb Ch)].
  - pose proof X as X0. inversion X0 as [? ? opts extra Xb _]; subst. destruct H as (Tk & Lk & Ch).
    eapply rd_last_option; [|exact H0|assumption|exact (IHR Le _ X)]. split; [exact Tk|]. split; [exact Lk|exact (own_chooses _ _ _ _ _ _ Xb Ch)].
  - pose proof X as X0. inversion X0 as [? ? opts extra Xb _]; subst. destruct H as (Tk & Lk & Ch).
    eapply rd_last_argument; [|exact H0|assumption]. split; [exact Tk|]. split; [exact Lk|exact (own_chooses _ _ _ _ _ _ Xb Ch)].
  - inversion X as [? ? opts extra Xb Cs]; subst. pose proof H0 as (b & a & E & _).
    destruct (forall2_split _ _ _ _ _ _ Cs E) as (b' & d' & a' & _ & _ & Ed & _).
    eapply rd_command; [exact H|exact H0|exact (IHR Le _ Ed)].
Qed.
End Same.

Lemma extended_success_more : forall p q p' q' args ws subs e left,
  let cfg := d_settings q in let cfg' := d_settings q' in let top := d_command q in let top' := d_command q' in
  finish_parser p = Val q -> finish_parser p' = Val q' -> regular cfg top -> regular cfg' top' ->
  like_style cfg cfg' -> all_apart cfg cfg' top -> extends (s_case_insensitive cfg') top top' ->
  reading (with_abbreviations false cfg) false top (Fresh args) ws subs e -> left_of e = Some left ->
  all_foreseen (with_abbreviations true cfg) ((top, ws) :: subs) ->
  (forall hs left0, succeeds cfg top args hs left0 ->
     exists hs', succeeds cfg' top' args hs' left0 /\ Forall2 like_values hs hs') /\
  ((exists hs' left0, succeeds cfg' top' args hs' left0) -> exists hs left0, succeeds cfg top args hs left0).
Proof.
  intros p q p' q' args ws subs e left cfg cfg' top top' H H' Rg Rg' Ls Ap X R El Fs.
  assert (Le : left_of e <> None) by (rewrite El; discriminate).
  pose proof (own_reading cfg cfg' Ls _ _ _ _ _ _ R Le _ X) as Rc. pose proof (foreseen_weaken _ _ Fs) as Fc.
  inversion X as [? ? opts extra Xb Cs]; subst.
  destruct (reading_like cfg cfg' Ls _ _ _ _ _ _ R Le Ap _ _ _ Xb Cs) as (ws' & subs' & e' & R' & El' & Fw & Sw).
  assert (Sg : Forall2 (seg_like cfg') ((top, ws) :: subs) ((top', ws') :: subs')).
  { constructor; [|exact Sw]. exists opts, extra. auto. }
  pose proof (foreseen_like cfg cfg' Ls _ _ Sg Fs) as Fc'.
  rewrite El in El'. split.
  - intros hs left0 S. destruct (succeeds_accepted p q H Rg _ _ _ _ _ _ Rc Fc El _ S) as (-> & hs0 & A & Se).
    destruct (all_acceptable_like cfg' _ _ _ _ _ _ _ Sg A) as (hs' & A' & Lv).
    exists hs'. split.
    + destruct Rg' as (Sd & Hn & Hi & Ig & One). exact (line_success p' q' H' Sd Hn Hi Ig One _ _ _ _ R' Fc' left hs' El' A').
    + clear - Se Lv. revert hs' Lv. induction Se as [|x y a b (E & Hh) F IH]; intros hs' Lv; inversion Lv as [|? z ? l L1 L2]; subst; constructor.
      * destruct L1 as (N & O & A). unfold like_values, texts in *. rewrite <- E. split; [exact N|]. split.
        -- intros o Io. destruct (O o Io) as (o' & Io' & Lo & T). exists o'. rewrite <- Hh. auto.
        -- clear - Hh A. revert A. generalize (c_arguments (fst x)) (c_arguments (fst z)). intros k k' A.
           induction A as [|u u' k k' T A IH]; constructor; [rewrite <- Hh; exact T|exact IH].
      * apply IH. exact L2.
  - intros (hs' & left0 & S). destruct (succeeds_accepted p' q' H' Rg' _ _ _ _ _ _ R' Fc' El' _ S) as (_ & hs0 & A & _).
    destruct (all_acceptable_back cfg' _ _ _ _ _ _ _ Sg A) as (hs & A').
    exists hs, left. destruct Rg as (Sd & Hn & Hi & Ig & One). exact (line_success p q H Sd Hn Hi Ig One _ _ _ _ Rc Fc left hs El A').
Qed.

Lemma extended_success : forall p q p' q' args ws subs e left,
  let cfg := d_settings q in let cfg' := d_settings q' in let top := d_command q in let top' := d_command q' in
  finish_parser p = Val q -> finish_parser p' = Val q' -> regular cfg top -> regular cfg' top' ->
  like_settings cfg cfg' -> extends (s_case_insensitive cfg) top top' ->
  reading (with_abbreviations false cfg) false top (Fresh args) ws subs e -> left_of e = Some left ->
  all_foreseen (with_abbreviations true cfg) ((top, ws) :: subs) ->
  (forall hs left0, succeeds cfg top args hs left0 ->
     exists hs', succeeds cfg' top' args hs' left0 /\ Forall2 like_values hs hs') /\
  ((exists hs' left0, succeeds cfg' top' args hs' left0) -> exists hs left0, succeeds cfg top args hs left0).
Proof.
  intros p q p' q' args ws subs e left cfg cfg' top top' H H' Rg Rg' (Es & Ec) X.
  apply (extended_success_more p q p' q' args ws subs e left H H' Rg Rg').
  - split; [exact Es|]. fold cfg cfg'. rewrite Ec. tauto.
  - intros c _ d1 d2 _ _ E. fold cfg cfg' in E |- *. rewrite Ec. exact E.
  - fold cfg'. rewrite <- Ec. exact X.
Qed.
