(** What is in order is accepted (C65). *)
From Verif Require Import Base BaseProofs MStrings MOptIter MData MCounter MValues MParser
  SStrings STok SIndex SDef SValues SCounter SParser SStep SLook
  StrProofs TokProofs IndexProofs DefProofs FinishProofs ValuesProofs CounterProofs CounterInv
  MonadProofs FrameProofs InvProofs NextProofs ParseProofs StepProofs StepProofs2 LookProofs.
Open Scope nat_scope.

Lemma values_up : forall cfg s min fuel it r n, count_values cfg fuel s min it r = CountOk n -> (r <= n)%N.
Proof.
  intros cfg s min. induction fuel as [|fuel IH]; intros it r n E; [discriminate|]. cbn [count_values] in E.
  destruct (it_next_value it) as [([t|], it')|]; try discriminate; [|injection E as <-; lia].
  destruct (find_command _ _ _); [injection E as <-; lia|].
  destruct (_ && _); [injection E as <-; lia|]. apply IH in E. lia.
Qed.

Lemma tokens_up : forall cfg s min fuel it r n, count_tokens cfg fuel s min it r = CountOk n -> (r <= n)%N.
Proof.
  intros cfg s min. induction fuel as [|fuel IH]; intros it r n E; [discriminate|]. cbn [count_tokens] in E.
  destruct (it_next it) as [([t|], it')|]; try discriminate; [|apply values_up in E; exact E].
  destruct (find_option _ _ _ _) as [o|].
  - destruct (if negb (is_empty (o_argument o)) then _ else _) as [it2|]; [|discriminate].
    destruct (o_type o); try (injection E as <-; lia); try (apply values_up in E; exact E); apply IH in E; exact E.
  - destruct (is_option _ _); [apply IH in E; exact E|].
    destruct (find_command _ _ _); [injection E as <-; lia|].
    destruct (_ && _); [injection E as <-; lia|]. apply IH in E. lia.
Qed.

Lemma counted_max : forall args n, proper args -> (maxima args < 2 ^ 64)%N -> (maxima args < n)%N ->
  sum (map fst (make_counters_n args n)) = maxima args.
Proof.
  intros args n P B L. unfold make_counters_n. rewrite min_max_proof.
  pose proof (minima_le_maxima args (fun x Hx => proj1 (P x Hx))) as Le.
  replace (N.min (2 ^ 64 - 1) (maxima args)) with (maxima args) by lia.
  destruct (N.ltb_spec n (minima args)); [lia|]. destruct (N.ltb_spec (maxima args) n); [|lia].
  destruct (distribute_fair args (maxima args - minima args) P) as (_ & E & _); [lia|]. lia.
Qed.

Lemma counted_exact : forall args n, proper args -> (maxima args < 2 ^ 64)%N ->
  (minima args <= n <= maxima args)%N -> fair args n (map fst (make_counters_n args n)).
Proof.
  intros args n P B L. assert (L3 : (n < 2 ^ 64)%N) by lia.
  destruct (distribution_proof args n P L3) as (_ & X & _). exact (X L).
Qed.

Lemma multi_loop_found : forall below l above k, Forall (fun x => c_multi (l_command x) = false) below ->
  c_multi (l_command l) = true -> multi_parent_loop (below ++ l :: above) k = Some (k + length below).
Proof.
  induction below as [|x below IH]; intros l above k Fb Ml; simpl.
  - rewrite Ml, Nat.add_0_r. reflexivity.
  - inversion_clear Fb as [|? ? Fx Fr]. rewrite Fx, IH by assumption. f_equal. lia.
Qed.

Lemma find_command_some : forall c t ci d, In d (c_commands c) -> folded ci (c_name d) = folded ci t ->
  exists d', find_command c t ci = Some d' /\ In d' (c_commands c) /\ folded ci (c_name d') = folded ci t.
Proof.
  intros c t ci d I E. destruct (find_command c t ci) as [d'|] eqn:F.
  - exists d'. split; [reflexivity|]. apply find_command_in in F. destruct F as (F1 & F2).
    split; [exact F1|]. apply StepProofs.folded_norm. exact F2.
  - exfalso. unfold find_command in F. pose proof (find_none _ _ F d I) as X. cbv beta in X.
    apply StepProofs.folded_norm in E. congruence.
Qed.

Lemma sibling_found : forall cfg s t d, sibling cfg s t d -> is_complete (ps_counter s) = true ->
  exists d' k, find_sibling_command cfg s t = Some (d', k) /\ sibling cfg s t d'.
Proof.
  intros cfg s t d (below & l & above & Ep & Fb & Ml & I & E) C.
  destruct (find_command_some (l_command l) t (s_case_insensitive cfg) d I E) as (d' & F & I' & E').
  exists d', (S (length below)). split; [|exists below, l, above; auto].
  unfold find_sibling_command. rewrite C. cbn [negb]. unfold find_first_multi_command_parent.
  rewrite Ep, (multi_loop_found below l above 1 Fb Ml). cbn [Nat.add].
  unfold parent_command. rewrite Ep, nth_error_app2, Nat.sub_diag by lia. cbn [nth_error option_map]. rewrite F. reflexivity.
Qed.

Section Accept.
Variables (p q : parser_data).
Hypothesis H : finish_parser p = Val q.
Let cfg := d_settings q.
Let top := d_command q.
Hypothesis Sd : sound top.
Hypothesis Hn : no_insertions cfg top.
Hypothesis Ig : s_ignore_arguments cfg = false.

(** The counter advances by the arguments received. *)
Lemma tracked : forall st rs st', proceeds cfg st rs st' -> forall args m, reached cfg top args st m ->
  in_progress (ps_mode st) ->
  ps_counter st' = snd (calls (length (received rs)) (ps_counter st)) /\
  left_over (ps_counter st) = received rs ++ left_over (ps_counter st') /\ stays st st' /\
  in_progress (ps_mode st') /\ exists m', reached cfg top args st' m'.
Proof.
  intros st rs st2 Rs. induction Rs as [st|st r st' rs st2 E Ne La Rs IH]; intros args m Rc W.
  { simpl. split; [reflexivity|]. split; [reflexivity|]. split; [split; reflexivity|]. split; [exact W|eauto]. }
  pose proof (reached_shape p q H args st m Rc) as Sh.
  pose proof (next_move p q H Hn st r st' Sh W E) as Mv; fold cfg in Mv.
  assert (Go : forall l, received (r :: rs) = l ++ received rs ->
    ps_counter st' = snd (calls (length l) (ps_counter st)) ->
    left_over (ps_counter st) = l ++ left_over (ps_counter st') -> stays st st' -> in_progress (ps_mode st') ->
    ps_counter st2 = snd (calls (length (received (r :: rs))) (ps_counter st)) /\
    left_over (ps_counter st) = received (r :: rs) ++ left_over (ps_counter st2) /\ stays st st2 /\
    in_progress (ps_mode st2) /\ exists m', reached cfg top args st2 m').
  { intros l El Ec Eo St Pm. destruct (IH args _ (reached_next _ _ _ _ _ _ _ Rc E) Pm) as (A & B & C & D).
    rewrite El. split; [|split; [|split; [|exact D]]].
    - rewrite app_length, <- calls_add, <- Ec. exact A.
    - rewrite Eo, B, app_assoc. reflexivity.
    - destruct St, C. split; congruence. }
  destruct Mv as [t it a ac R Nl -> Sb Na St Md It Ct|t it o v it' M R Fo Io Rv -> Tp St It Ct
      |t it M R Lk Fo Cd Im St Md It Ct|it R Cd Md|t it o v it' M R Fo Io Rv -> Tp|t it d k R Nl Sb Cd Im|Cs Cd|Cd|I1 Cd St Md].
  + apply (Go [a]); [reflexivity| | |exact St|rewrite Md; exact W].
    * simpl. rewrite Na, Ct. reflexivity.
    * rewrite Ct. simpl. apply argument_step. exact Na.
  + apply (Go []); [reflexivity|rewrite Ct; reflexivity|rewrite Ct; reflexivity|exact St|].
    destruct Tp as [(_ & ->)|(_ & ->)]; [left|right]; reflexivity.
  + apply (Go []); [unfold received; simpl; rewrite Cd; reflexivity|rewrite Ct; reflexivity|rewrite Ct; reflexivity|exact St|].
    rewrite Md. exact W.
  + exfalso. apply La. left. exact Md.
  + exfalso. apply La. destruct Tp as [T|(_ & T)]; [right; right; exists o; split; [reflexivity|exact T]|left; exact T].
  + exfalso. apply La. right. left. exact Cd.
  + exfalso. apply La. right. left. exact Cd.
  + contradiction.
  + congruence.
Qed.

(** Where the counters come from. *)
Lemma counters_full : forall args st rs st', entered cfg top args st -> proceeds cfg st rs st' ->
  Forall (foreseeable cfg (ps_command st)) rs ->
  let defs := c_arguments (ps_command st) in
  stays st st' /\ in_progress (ps_mode st') /\ (exists m, reached cfg top args st' m) /\
  within top (ps_command st) /\
  ((requires_argument_count defs = false /\
    ps_counter st' = snd (calls (length (received rs)) (plain_counter defs)) /\
    left_over (plain_counter defs) = received rs ++ left_over (ps_counter st')) \/
   (requires_argument_count defs = true /\ c_commands (ps_command st) = [] /\
    exists n s0, ps_command s0 = ps_command st /\ ps_parents s0 = ps_parents st /\
      (is_complete (ps_counter s0) = true \/ ps_parents s0 = []) /\
      ps_counter st' = snd (calls (length (received rs)) (counted_counter defs n 0)) /\
      length (received rs) <= length (left_over (counted_counter defs n 0)) /\
      ahead cfg s0 n (length (received rs)) st' /\
      left_over (counted_counter defs n 0) = received rs ++ left_over (ps_counter st'))).
Proof.
  intros args st rs st' En Pc Fs defs.
  destruct (entered_entry p q H Sd args st En) as ((s0 & E & Ec & Ep & Ei & Md & Cp) & m & Rc).
  pose proof (reached_shape p q H args st m Rc) as Sh.
  assert (Wi : within (d_command q) (ps_command st)).
  { rewrite (sh_command _ _ _ Sh). eapply chain_within. apply (sh_chain _ _ _ Sh). }
  assert (Pg : in_progress (ps_mode st)) by (left; exact Md).
  destruct (tracked _ _ _ Pc args m Rc Pg) as (T1 & T2 & T3 & T4 & T5).
  split; [exact T3|]. split; [exact T4|]. split; [exact T5|]. split; [exact Wi|].
  destruct (Sd _ Wi) as (Pr & Mx & Ac).
  unfold start_counter in E. rewrite bind_gets, Ec in E. fold defs in E.
  destruct (requires_argument_count defs) eqn:Rq; cbn [negb] in E.
  - right. split; [reflexivity|].
    assert (Cm : c_commands (ps_command st) = []).
    { destruct Ac as [Ac|Ac]; [|exact Ac]. unfold defs in Rq. rewrite Ac in Rq. discriminate. }
    split; [exact Cm|].
    unfold bind at 1, count_arguments in E. rewrite Ec, min_max_proof in E. cbn [fst] in E.
    destruct (count_tokens _ _ _ _ _ _) as [n| |] eqn:Ct in E; try discriminate.
    unfold modify in E. injection E as E. fold cfg in Ct.
    exists n, s0. split; [exact Ec|]. split; [exact Ep|]. split; [exact Cp|].
    rewrite <- Ec in Wi, Cm, Fs.
    destruct (walk_on p q H Hn Sd Ig s0 Wi Cm n st rs st' Pc args m 0 Rc) as ([W1 W2 W3 W4 W5] & _).
    { split; [split; congruence|exact Pg|rewrite Ec; symmetry; exact E|lia|].
      unfold ahead. rewrite Md, <- Ei, Ec. exists (iter_fuel (ps_iter s0)). exact Ct. }
    { exact Fs. }
    simpl in W3, W4, W5. unfold defs. rewrite <- Ec.
    split; [exact W3|]. split; [exact W4|]. split; [exact W5|]. rewrite <- T2, <- E, Ec. reflexivity.
  - left. split; [reflexivity|]. injection E as E. rewrite <- T2, <- E in *. split; [exact T1|reflexivity].
Qed.

Lemma counters : forall args st rs st', entered cfg top args st -> proceeds cfg st rs st' ->
  Forall (foreseeable cfg (ps_command st)) rs ->
  let defs := c_arguments (ps_command st) in
  stays st st' /\ in_progress (ps_mode st') /\ (exists m, reached cfg top args st' m) /\
  within top (ps_command st) /\
  ((requires_argument_count defs = false /\
    ps_counter st' = snd (calls (length (received rs)) (plain_counter defs))) \/
   (requires_argument_count defs = true /\ c_commands (ps_command st) = [] /\
    exists n s0, ps_command s0 = ps_command st /\ ps_parents s0 = ps_parents st /\
      (is_complete (ps_counter s0) = true \/ ps_parents s0 = []) /\
      ps_counter st' = snd (calls (length (received rs)) (counted_counter defs n 0)) /\
      length (received rs) <= length (left_over (counted_counter defs n 0)) /\
      ahead cfg s0 n (length (received rs)) st')).
Proof.
  intros args st rs st' En Pc Fs defs. destruct (counters_full args st rs st' En Pc Fs) as (A & B & C & D & [X|X]);
    (split; [exact A|]; split; [exact B|]; split; [exact C|]; split; [exact D|]).
  - left. destruct X as (X & Y & _). auto.
  - right. destruct X as (X & Y & n & s0 & E1 & E2 & E3 & E4 & E5 & E6 & _). split; [exact X|]. split; [exact Y|].
    exists n, s0. auto 10.
Qed.

Lemma accept_ready : forall args st rs st' t it,
  entered cfg top args st -> proceeds cfg st rs st' -> Forall (foreseeable cfg (ps_command st)) rs ->
  reads st' (Some t) it -> (ps_mode st' = ARGUMENTS_ONLY \/ ~ looks_like_option (s_style cfg) t) ->
  c_commands (ps_command st) = [] -> no_beginning cfg (ps_command st) t -> no_sibling cfg st' t ->
  (N.of_nat (length (received rs)) < maxima (c_arguments (ps_command st)))%N ->
  exists a ac, next_argument (ps_counter st') = (Some a, ac).
Proof.
  intros args st rs st' t it En Pc Fs R Nl Cm0 Nb Ns L.
  destruct (counters args st rs st' En Pc Fs) as (St & Pm & (m & Rc) & Wi & Cs).
  destruct (Sd _ Wi) as (Pr & Mx & _). set (defs := c_arguments (ps_command st)) in *.
  assert (Sb : forall s it, ps_parents s = ps_parents st' -> find_sibling_command cfg (set_iter s it) t = None).
  { intros s it0 Ep. apply no_sibling_none. unfold no_sibling. rewrite Ep. exact Ns. }
  pose proof (next_argument_spec (ps_counter st')) as Sp.
    cut (left_over (ps_counter st') <> []).
    { intros X. destruct (left_over (ps_counter st')) as [|x l]; [congruence|].
      destruct Sp as (Sp & _). destruct (next_argument (ps_counter st')) as (a, ac). simpl in Sp. subst a. eauto. }
    intros X. destruct Cs as [(Rq & Ec)|(Rq & Cm & n & s0 & Ec0 & Ep0 & Cp & Ec & Lj & Ah)].
    - rewrite Ec in X. rewrite (proj2 (calls_spec _ _)) in X.
      apply (f_equal (@length arg_data)) in X. rewrite skipn_length in X. simpl in X.
      assert (E2 : left_over (plain_counter defs) = order (map (fun a => (a_max a, a)) defs)).
      { unfold left_over, plain_counter. simpl. apply make_counters_order. intros a Ha. apply Pr in Ha. lia. }
      rewrite E2 in X. pose proof (pairs_length a_max defs) as Pl. unfold maxima in L. lia.
    - rewrite Ec in X. rewrite (proj2 (calls_spec _ _)) in X.
      apply (f_equal (@length arg_data)) in X. rewrite skipn_length in X. simpl in X.
      set (j := length (received rs)) in *.
      assert (Tl : N.of_nat (length (left_over (counted_counter defs n 0))) = sum (map fst (make_counters_n defs n))).
      { rewrite counted_left. simpl. apply order_length. }
      assert (Up : (N.of_nat j + 1 <= n)%N).
      { assert (Sb0 : find_sibling_command cfg s0 t = None).
        { assert (Ep1 : ps_parents s0 = ps_parents st') by (rewrite Ep0; symmetry; apply St).
          exact (Sb s0 (ps_iter s0) Ep1). }
        unfold ahead in Ah. unfold reads in R. destruct (ps_mode st') eqn:M; try contradiction.
        - destruct Nl as [Nl|Nl]; [discriminate|]. destruct Ah as (f & A).
          destruct f as [|f]; [discriminate|]. cbn [count_tokens] in A. rewrite R in A.
          assert (Wi0 : within (d_command q) (ps_command s0)) by (rewrite Ec0; exact Wi).
          assert (Nb0 : no_beginning (d_settings q) (ps_command s0) t) by (rewrite Ec0; exact Nb).
          pose proof (no_flag p q H s0 Wi0 t Nb0 Nl) as Nf. fold cfg in Nf. rewrite Nf in A.
          rewrite <- is_option_iff in Nl. destruct (is_option t (s_style cfg)) eqn:Io; [congruence|].
          unfold find_command in A at 1. rewrite Ec0, Cm in A. cbn [find] in A.
          rewrite Sb0, andb_false_r in A. apply tokens_up in A. exact A.
        - destruct Ah as (f & A). destruct f as [|f]; [discriminate|]. cbn [count_values] in A. rewrite R in A.
          unfold find_command in A at 1. rewrite Ec0, Cm in A. cbn [find] in A.
          rewrite Sb0, andb_false_r in A. apply values_up in A. exact A. }
      destruct (counted_sum defs n Pr) as ((Mn & Mxx) & Lt & _).
      destruct (N.lt_ge_cases n (minima defs)) as [Ln|Ln]; [specialize (Lt Ln); lia|].
      destruct (N.le_gt_cases n (maxima defs)) as [Lm|Lm].
      + destruct (counted_exact defs n Pr Mx (conj Ln Lm)) as (_ & Es & _). lia.
      + pose proof (counted_max defs n Pr Mx Lm). lia.
Qed.

Lemma accept_argument_proof : forall args st rs st' t it r s',
  entered cfg top args st -> proceeds cfg st rs st' -> Forall (foreseeable cfg (ps_command st)) rs ->
  reads st' (Some t) it -> (ps_mode st' = ARGUMENTS_ONLY \/ ~ looks_like_option (s_style cfg) t) ->
  c_commands (ps_command st) = [] -> no_beginning cfg (ps_command st) t -> no_sibling cfg st' t ->
  (N.of_nat (length (received rs)) < maxima (c_arguments (ps_command st)))%N ->
  next cfg st' = Ret r s' ->
  exists a, In a (c_arguments (ps_command st)) /\ r = mk_ir IC_ARGUMENT (ItArgument a) t.
Proof.
  intros args st rs st' t it r s' En Pc Fs R Nl Cm0 Nb Ns L E.
  destruct (counters args st rs st' En Pc Fs) as (St & Pm & (m & Rc) & Wi & Cs).
  destruct (Sd _ Wi) as (Pr & Mx & _). set (defs := c_arguments (ps_command st)) in *.
  pose proof (reached_shape p q H args st' m Rc) as Sh.
  assert (Sb : forall s it, ps_parents s = ps_parents st' -> find_sibling_command cfg (set_iter s it) t = None).
  { intros s it0 Ep. apply no_sibling_none. unfold no_sibling. rewrite Ep. exact Ns. }
  assert (Na : exists a ac, next_argument (ps_counter st') = (Some a, ac)) by (eapply accept_ready; eassumption).
  destruct Na as (a & ac & Na).
  pose proof (next_move p q H Hn st' r s' Sh Pm E) as Mv; fold cfg in Mv.
  assert (Ia : In a (c_arguments (ps_command st'))).
  { pose proof (next_from (ps_counter st')) as (_ & X). rewrite Na in X. apply (sh_from _ _ _ Sh). apply X. reflexivity. }
  assert (Ecm : ps_command st' = ps_command st) by apply St.
  exists a. split; [unfold defs; rewrite <- Ecm; exact Ia|].
  (* one look at the code *)
  rewrite (next_eq cfg _ _ _ R) in E. unfold process_token in E. rewrite bind_gets in E.
  change (ps_command (set_iter st' it)) with (ps_command st') in E. rewrite Ecm, Cm0 in E. cbn [is_empty] in E.
  assert (Io : (match ps_mode st' with ARGUMENTS_AND_OPTIONS => true | _ => false end) && is_option t (s_style cfg) = false).
  { destruct Nl as [->|Nl]; [reflexivity|]. rewrite <- is_option_iff in Nl.
    destruct (is_option t (s_style cfg)); [congruence|]. apply andb_false_r. }
  rewrite Io in E. unfold process_argument in E. rewrite bind_gets in E. rewrite (Sb st' it eq_refl) in E.
  unfold bind at 1, m_next_argument in E. change (ps_counter (set_iter st' it)) with (ps_counter st') in E.
  rewrite Na in E. rewrite bind_modify in E.
  match type of E with ?x = _ => assert (X : when (fun r _ => r = mk_ir IC_ARGUMENT (ItArgument a) t) x) end.
  { apply when_any. intros [] s1. apply when_any. intros [] s2. reflexivity. }
  exact (when_ret _ _ _ _ X E).
Qed.

Lemma mandatory_ok : forall opts st, (forall o, In o opts -> o_optional o = false ->
    exists v aid, In (o_value_id o, (v, aid)) (l_values (ps_cur st))) ->
  has_all_mandatory cfg opts st = Ret true st.
Proof.
  induction opts as [|o opts IH]; intros st G; cbn [has_all_mandatory]; [reflexivity|]. rewrite bind_gets.
  destruct (negb (o_optional o) && negb (has_value (l_values (ps_cur st)) (o_value_id o))) eqn:B.
  - exfalso. apply andb_true_iff in B. destruct B as (B1 & B2). apply negb_true_iff in B1, B2.
    destruct (G o (or_introl eq_refl) B1) as (v & aid & I). unfold has_value in B2.
    assert (X : existsb (fun p0 => (fst p0 =? o_value_id o)%N) (l_values (ps_cur st)) = true).
    { apply existsb_exists. eexists. split; [exact I|]. simpl. apply N.eqb_refl. }
    congruence.
  - apply IH. intros o' I. apply G. right. exact I.
Qed.

Lemma complete_when : forall args st rs st', entered cfg top args st -> proceeds cfg st rs st' ->
  Forall (foreseeable cfg (ps_command st)) rs ->
  let defs := c_arguments (ps_command st) in let k := N.of_nat (length (received rs)) in
  (forall s0 n, ps_command s0 = ps_command st -> ahead cfg s0 n (length (received rs)) st' -> k = n) ->
  (minima defs <= k <= maxima defs)%N -> last_used defs k ->
  is_complete (ps_counter st') = true.
Proof.
  intros args st rs st' En Pc Fs defs k Ak L Lu.
  destruct (counters args st rs st' En Pc Fs) as (St & Pm & _ & Wi & Cs). fold defs in Cs.
  destruct (Sd _ Wi) as (Pr & Mx & _). fold defs in Pr, Mx.
  destruct Cs as [(Rq & Ec)|(Rq & Cm & n & s0 & Ec0 & Ep0 & Cp & Ec & Lj & Ah)].
  - rewrite Ec. apply plain_complete_proof; [exact Pr|exact Rq|apply L|apply L].
  - pose proof (Ak s0 n Ec0 Ah) as Ek.
    rewrite Ec. pose proof (counted_exact defs n Pr Mx) as Ex. rewrite Ek in L. specialize (Ex L).
    assert (Es : sum (map fst (make_counters_n defs n)) = n) by apply Ex.
    apply counted_complete_proof; fold k; rewrite Es; [lia|]. split; [exact Ek|].
    destruct Lu as [Lu|(ks & Fk & Lk)].
    + apply requires_count_false in Lu. congruence.
    + right. rewrite Ek in Fk. rewrite (fair_unique_proof _ _ _ _ Ex Fk). exact Lk.
Qed.

(** The distribution of what has been received, if the look-ahead was right. *)
Lemma distributed_when : forall args st rs st', entered cfg top args st -> proceeds cfg st rs st' ->
  Forall (foreseeable cfg (ps_command st)) rs ->
  let defs := c_arguments (ps_command st) in let k := N.of_nat (length (received rs)) in
  (forall s0 n, ps_command s0 = ps_command st -> ahead cfg s0 n (length (received rs)) st' -> k = n) ->
  (minima defs <= k <= maxima defs)%N -> exists ks, fair defs k ks /\ received rs = order (combine ks defs).
Proof.
  intros args st rs st' En Pc Fs defs k Ak L.
  destruct (counters_full args st rs st' En Pc Fs) as (St & Pm & _ & Wi & Cs). fold defs in Cs.
  destruct (Sd _ Wi) as (Pr & Mx & _). fold defs in Pr, Mx.
  destruct Cs as [(Rq & _ & El)|(Rq & Cm & n & s0 & Ec0 & Ep0 & Cp & Ec & Lj & Ah & El)].
  - assert (D : distributed defs (received rs)).
    { apply (plain_distributed defs (received rs) (left_over (ps_counter st')) Pr).
      - apply requires_count_false. exact Rq.
      - rewrite <- El. unfold left_over, plain_counter. simpl. symmetry. apply make_counters_order.
        intros a Ha. apply Pr in Ha. lia. }
    apply D. apply L.
  - pose proof (Ak s0 n Ec0 Ah) as Ek. rewrite Ek in *. pose proof (counted_exact defs n Pr Mx L) as Ex.
    eexists. split; [exact Ex|]. rewrite counted_left in El. simpl in El.
    assert (Lo : length (left_over (ps_counter st')) = 0).
    { apply (f_equal (@length arg_data)) in El. rewrite app_length in El.
      pose proof (order_length (make_counters_n defs n)) as Ol. destruct Ex as (_ & Es & _).
      fold k in Ek. unfold k in Ek. lia. }
    apply length_zero_iff_nil in Lo. rewrite Lo, app_nil_r in El. rewrite <- El. f_equal.
    assert (L3 : (n < 2 ^ 64)%N) by lia. destruct (distribution_proof _ n Pr L3) as (Sn & _).
    rewrite <- (pairs_split (make_counters_n defs n)) at 1. rewrite Sn. reflexivity.
Qed.

Lemma count_at_end : forall st st' it j, reads st' None it -> forall s0 n, ps_command s0 = ps_command st ->
  ahead cfg s0 n j st' -> N.of_nat j = n.
Proof.
  intros st st' it j R s0 n _ Ah. unfold ahead in Ah. unfold reads in R. destruct (ps_mode st') eqn:M; try contradiction; destruct Ah as (f & E);
    (destruct f as [|f]; [discriminate|]).
  - cbn [count_tokens] in E. rewrite R in E. destruct (next_then_value _ _ R) as (it2 & V).
    unfold iter_fuel in E. cbn [count_values] in E. rewrite V in E. congruence.
  - cbn [count_values] in E. rewrite R in E. congruence.
Qed.

Lemma count_at_last : forall st st' t it o j, ps_mode st' = ARGUMENTS_AND_OPTIONS ->
  it_next (ps_iter st') = Ok (Some t, it) -> wf_iter it ->
  find_option (ps_command st) t (s_abbreviations cfg) (s_case_insensitive cfg) = Some o ->
  o_type o = OT_LAST_ARGUMENT \/ o_type o = OT_STOP \/ o_type o = OT_HELP ->
  forall s0 n, ps_command s0 = ps_command st -> ahead cfg s0 n j st' -> N.of_nat j = n.
Proof.
  intros st st' t it o j M R Wf Fo Ty s0 n Ec Ah. unfold ahead in Ah. rewrite M in Ah. destruct Ah as (f & E). destruct f as [|f]; [discriminate|].
  cbn [count_tokens] in E. rewrite R, Ec, Fo in E.
  destruct (next_value_wf it Wf) as (u & it2 & V & _). rewrite V in E.
  destruct Ty as [Ty|[Ty|Ty]]; rewrite Ty in E; destruct (negb _) in E; congruence.
Qed.

Lemma complete_ok : forall args st rs st' it, entered cfg top args st -> proceeds cfg st rs st' ->
  Forall (foreseeable cfg (ps_command st)) rs -> reads st' None it ->
  let defs := c_arguments (ps_command st) in let k := N.of_nat (length (received rs)) in
  (minima defs <= k <= maxima defs)%N -> last_used defs k ->
  is_complete (ps_counter st') = true.
Proof.
  intros args st rs st' it En Pc Fs R defs k L Lu. apply (complete_when args st rs st' En Pc Fs); try assumption.
  exact (count_at_end st st' it _ R).
Qed.

(** A LAST_ARGUMENT option ends the count. *)
Lemma complete_last : forall args st rs st' t it o v it', entered cfg top args st -> proceeds cfg st rs st' ->
  Forall (foreseeable cfg (ps_command st)) rs -> ps_mode st' = ARGUMENTS_AND_OPTIONS ->
  it_next (ps_iter st') = Ok (Some t, it) -> wf_iter it ->
  find_option (ps_command st) t (s_abbreviations cfg) (s_case_insensitive cfg) = Some o ->
  reads_value o it v it' -> o_type o = OT_LAST_ARGUMENT ->
  let defs := c_arguments (ps_command st) in let k := N.of_nat (length (received rs)) in
  (minima defs <= k <= maxima defs)%N -> last_used defs k ->
  is_complete (ps_counter st') = true.
Proof.
  intros args st rs st' t it o v it' En Pc Fs M R Wf Fo Rv Ty defs k L Lu.
  apply (complete_when args st rs st' En Pc Fs); try assumption.
  exact (count_at_last st st' t it o _ M R Wf Fo (or_introl Ty)).
Qed.

(** Conversely. *)
Lemma complete_then : forall args st rs st', entered cfg top args st -> proceeds cfg st rs st' ->
  Forall (foreseeable cfg (ps_command st)) rs ->
  let defs := c_arguments (ps_command st) in let k := N.of_nat (length (received rs)) in
  (forall s0 n, ps_command s0 = ps_command st -> ahead cfg s0 n (length (received rs)) st' -> k = n) ->
  (k <= maxima defs)%N -> is_complete (ps_counter st') = true ->
  (minima defs <= k)%N /\ last_used defs k.
Proof.
  intros args st rs st' En Pc Fs defs k Ak L Cc.
  destruct (counters args st rs st' En Pc Fs) as (St & Pm & _ & Wi & Cs). fold defs in Cs.
  destruct (Sd _ Wi) as (Pr & Mx & _). fold defs in Pr, Mx.
  destruct Cs as [(Rq & Ec)|(Rq & Cm & n & s0 & Ec0 & Ep0 & Cp & Ec & Lj & Ah)]; rewrite Ec in Cc.
  - apply plain_complete_proof in Cc; [|exact Pr|exact Rq|exact L]. split; [exact Cc|].
    left. apply requires_count_false. exact Rq.
  - pose proof (Ak s0 n Ec0 Ah) as Ek. destruct (counted_sum defs n Pr) as ((B1 & B2) & _ & _).
    assert (Ls : (N.of_nat (length (received rs)) <= sum (map fst (make_counters_n defs n)))%N).
    { rewrite counted_left in Lj. simpl in Lj. pose proof (order_length (make_counters_n defs n)) as Ol. lia. }
    apply (counted_complete_proof defs n (length (received rs)) Ls) in Cc. destruct Cc as (Es & Cc). fold k in Es.
    split; [lia|]. right. exists (map fst (make_counters_n defs n)). split.
    + rewrite Ek. apply counted_exact; [exact Pr|exact Mx|lia].
    + destruct Cc as [Cc|Cc]; [|exact Cc]. exfalso.
      rewrite map_length in Cc. assert (Ld : length defs <= 1).
      { rewrite <- (counted_args defs n), map_length. exact Cc. }
      assert (X : requires_argument_count defs = false).
      { apply requires_count_false. intros front final E a Ia. rewrite E, app_length in Ld. simpl in Ld.
        destruct front; [contradiction|simpl in Ld; lia]. }
      congruence.
Qed.

Lemma exhausted : forall args st rs st', entered cfg top args st -> proceeds cfg st rs st' ->
  Forall (foreseeable cfg (ps_command st)) rs ->
  N.of_nat (length (received rs)) = maxima (c_arguments (ps_command st)) ->
  exists ac, next_argument (ps_counter st') = (None, ac).
Proof.
  intros args st rs st' En Pc Fs Em. set (defs := c_arguments (ps_command st)) in *.
  destruct (counters_full args st rs st' En Pc Fs) as (St & Pm & _ & Wi & Cs). fold defs in Cs.
  destruct (Sd _ Wi) as (Pr & Mx & _). fold defs in Pr, Mx.
  destruct (next_argument (ps_counter st')) as [[a|] ac] eqn:En1; [|eauto]. exfalso.
  apply argument_step in En1.
  assert (L : (N.of_nat (length (received rs) + length (left_over (ps_counter st'))) <= maxima defs)%N).
  { rewrite <- app_length. destruct Cs as [(Rq & _ & El)|(Rq & Cm & n & s0 & Ec0 & Ep0 & Cp & Ec & Lj & Ah & El)]; rewrite <- El.
    - unfold left_over, plain_counter. simpl. rewrite make_counters_order by (intros a0 Ha; apply (Pr a0 Ha)).
      rewrite order_length, map_map. unfold maxima. cbn [fst]. apply N.le_refl.
    - rewrite counted_left. simpl. rewrite order_length. apply (counted_sum defs n Pr). }
  rewrite En1 in L. simpl in L. lia.
Qed.

Lemma accept_end_proof : forall args st rs st' it,
  entered cfg top args st -> proceeds cfg st rs st' -> Forall (foreseeable cfg (ps_command st)) rs ->
  reads st' None it -> options_given st' ->
  (c_require (ps_command st) = Some true -> l_subs (ps_cur st') <> []) ->
  (minima (c_arguments (ps_command st)) <= N.of_nat (length (received rs)) <= maxima (c_arguments (ps_command st)))%N ->
  last_used (c_arguments (ps_command st)) (N.of_nat (length (received rs))) ->
  exists s', next cfg st' = Ret (mk_ir IC_DONE ItNone []) s' /\ ps_mode s' = ST_DONE /\
    ps_events s' = ps_events st' /\ map l_values (open_levels s') = map l_values (open_levels st') /\
    forall l, In l (open_levels s') -> l_result l = RC_SUCCESS.
Proof.
  intros args st rs st' it En Pc Fs R Og Rq L Lu.
  pose proof (complete_ok args st rs st' it En Pc Fs R L Lu) as Cp.
  destruct (counters args st rs st' En Pc Fs) as (St & Pm & (m & Rc) & Wi & _).
  assert (Ecm : ps_command st' = ps_command st) by apply St.
  rewrite (next_eq cfg _ _ _ R). unfold bind at 1. unfold check_counts. rewrite bind_gets.
  unfold bind at 1. change (ps_command (set_iter st' it)) with (ps_command st').
  rewrite (mandatory_ok (c_options (ps_command st')) (set_iter st' it)) by exact Og. cbn [negb]. cbv beta iota.
  rewrite Ecm.
  destruct (c_require (ps_command st)) as [req|] eqn:Er.
  2:{ destruct (finish_parser_prepared p q H _ Wi) as (N0 & _). contradiction. }
  rewrite bind_gets. change (l_subs (ps_cur (set_iter st' it))) with (l_subs (ps_cur st')).
  assert (B : req && is_empty (l_subs (ps_cur st')) = false).
  { destruct req; [|reflexivity]. destruct (l_subs (ps_cur st')); [|reflexivity]. destruct (Rq eq_refl eq_refl). }
  rewrite B, bind_gets. change (ps_counter (set_iter st' it)) with (ps_counter st'). rewrite Cp.
  rewrite bind_modify. eexists. split; [reflexivity|]. split; [reflexivity|]. split; [reflexivity|]. split.
  - cbn. rewrite map_map. reflexivity.
  - intros l I. cbn in I. destruct I as [<-|I]; [reflexivity|]. apply in_map_iff in I. destruct I as (x & <- & _). reflexivity.
Qed.

(** The arguments are complete where another command begins. *)
Lemma complete_before : forall args st rs st' t it d, entered cfg top args st -> proceeds cfg st rs st' ->
  Forall (foreseeable cfg (ps_command st)) rs -> reads st' (Some t) it ->
  (ps_mode st' = ARGUMENTS_ONLY \/ ~ looks_like_option (s_style cfg) t) ->
  no_beginning cfg (ps_command st) t -> sibling cfg st' t d ->
  let defs := c_arguments (ps_command st) in let k := N.of_nat (length (received rs)) in
  (minima defs <= k <= maxima defs)%N -> last_used defs k ->
  is_complete (ps_counter st') = true.
Proof.
  intros args st rs st' t it d En Pc Fs R Nl Nb Sb defs k L Lu.
  destruct (counters args st rs st' En Pc Fs) as (St & Pm & _ & Wi & Cs). fold defs in Cs.
  destruct (Sd _ Wi) as (Pr & Mx & _). fold defs in Pr, Mx.
  destruct Cs as [(Rq & Ec)|(Rq & Cm & n & s0 & Ec0 & Ep0 & Cp & Ec & Lj & Ah)].
  - rewrite Ec. apply plain_complete_proof; [exact Pr|exact Rq|apply L|apply L].
  - assert (Ep1 : ps_parents s0 = ps_parents st') by (rewrite Ep0; symmetry; apply St).
    assert (Sb0 : sibling cfg s0 t d) by (unfold sibling; rewrite Ep1; exact Sb).
    assert (Cp0 : is_complete (ps_counter s0) = true).
    { destruct Cp as [Cp|Cp]; [exact Cp|]. destruct Sb0 as (below & l & above & X & _). rewrite Cp in X.
      destruct below; discriminate. }
    destruct (sibling_found cfg s0 t d Sb0 Cp0) as (d' & k' & F0 & _).
    assert (B : (minima defs <=? k)%N = true) by (apply N.leb_le; lia).
    assert (Ek : k = n).
    { unfold ahead in Ah. unfold reads in R. rewrite Ec0 in Ah. fold defs k in Ah.
      destruct (ps_mode st') eqn:M; try contradiction; destruct Ah as (f & A);
        (destruct f as [|f]; [discriminate|]).
      - destruct Nl as [Nl|Nl]; [discriminate|].
        cbn [count_tokens] in A. rewrite R in A.
        assert (Wi0 : within (d_command q) (ps_command s0)) by (rewrite Ec0; exact Wi).
        assert (Nb0 : no_beginning (d_settings q) (ps_command s0) t) by (rewrite Ec0; exact Nb).
        pose proof (no_flag p q H s0 Wi0 t Nb0 Nl) as Nf. fold cfg in Nf. rewrite Nf in A.
        rewrite <- is_option_iff in Nl. destruct (is_option t (s_style cfg)) eqn:Io; [congruence|].
        unfold find_command in A at 1. rewrite Ec0, Cm in A. cbn [find] in A.
        rewrite F0, B in A. cbn [andb] in A. congruence.
      - cbn [count_values] in A. rewrite R in A.
        unfold find_command in A at 1. rewrite Ec0, Cm in A. cbn [find] in A.
        rewrite F0, B in A. cbn [andb] in A. congruence. }
    rewrite Ec. pose proof (counted_exact defs n Pr Mx) as Ex. rewrite Ek in L. specialize (Ex L).
    assert (Es : sum (map fst (make_counters_n defs n)) = n) by apply Ex.
    apply counted_complete_proof; fold k; rewrite Es; [lia|]. split; [exact Ek|].
    destruct Lu as [Lu|(ks & Fk & Lk)].
    + apply requires_count_false in Lu. congruence.
    + right. rewrite Ek in Fk. rewrite (fair_unique_proof _ _ _ _ Ex Fk). exact Lk.
Qed.

Lemma accept_sibling_proof : forall args st rs st' t it d r s',
  entered cfg top args st -> proceeds cfg st rs st' -> Forall (foreseeable cfg (ps_command st)) rs ->
  reads st' (Some t) it -> (ps_mode st' = ARGUMENTS_ONLY \/ ~ looks_like_option (s_style cfg) t) ->
  c_commands (ps_command st) = [] -> no_beginning cfg (ps_command st) t -> sibling cfg st' t d ->
  (minima (c_arguments (ps_command st)) <= N.of_nat (length (received rs)) <= maxima (c_arguments (ps_command st)))%N ->
  last_used (c_arguments (ps_command st)) (N.of_nat (length (received rs))) ->
  next cfg st' = Ret r s' ->
  ir_code r = IC_COMMAND /\ exists d', ir_item r = ItCommand d' /\ sibling cfg st' t d' /\ ps_command s' = d'.
Proof.
  intros args st rs st' t it d r s' En Pc Fs R Nl Cm0 Nb Sb L Lu E.
  pose proof (complete_before args st rs st' t it d En Pc Fs R Nl Nb Sb L Lu) as Cp.
  destruct (counters args st rs st' En Pc Fs) as (St & Pm & (m & Rc) & Wi & _).
  assert (Ecm : ps_command st' = ps_command st) by apply St.
  destruct (sibling_found cfg st' t d Sb Cp) as (d' & k' & F & Sb').
  rewrite (next_eq cfg _ _ _ R) in E. unfold process_token in E. rewrite bind_gets in E.
  change (ps_command (set_iter st' it)) with (ps_command st') in E. rewrite Ecm, Cm0 in E. cbn [is_empty] in E.
  assert (Io : (match ps_mode st' with ARGUMENTS_AND_OPTIONS => true | _ => false end) && is_option t (s_style cfg) = false).
  { destruct Nl as [->|Nl]; [reflexivity|]. rewrite <- is_option_iff in Nl.
    destruct (is_option t (s_style cfg)); [congruence|]. apply andb_false_r. }
  rewrite Io in E. unfold process_argument in E. rewrite bind_gets in E.
  change (find_sibling_command cfg (set_iter st' it) t) with (find_sibling_command cfg st' t) in E. rewrite F in E.
  unfold reactivate in E. rewrite bind_modify in E.
  pose proof (when_ret _ _ _ _ (process_command_silent cfg d' _) E) as X. cbv beta in X.
  destruct X as (X1 & X2 & _). split; [exact X1|]. exists d'. split; [exact X2|]. split; [exact Sb'|].
  eapply (when_ret (fun _ s => ps_command s = d')); [|exact E].
  unfold process_command. rewrite bind_modify. unfold bind at 1.
  match goal with |- when _ (match start_counter cfg ?s with _ => _ end) => set (s1 := s) end.
  destruct (start_counter cfg s1) as [[] s2| | | |] eqn:E2; try exact I.
  rewrite bind_modify. unfold bind, m_current. destruct (it_current _); [|exact I].
  pose proof (start_sets _ _ _ E2) as Es. rewrite Es. reflexivity.
Qed.
End Accept.

(** ** For examples *)
Fixpoint steps (cfg : settings) (n : nat) (st : pstate) : option (list iter_result * pstate) :=
  match n with
  | O => Some ([], st)
  | S n' =>
      match next cfg st with
      | Ret r st' =>
          match ir_code r with
          | IC_ERROR => None
          | _ => if ends_command r st' then None
                 else option_map (fun x => (r :: fst x, snd x)) (steps cfg n' st')
          end
      | _ => None
      end
  end.

Lemma steps_proceed : forall cfg n st rs st', steps cfg n st = Some (rs, st') -> proceeds cfg st rs st'.
Proof.
  intros cfg. induction n as [|n IH]; intros st rs st' E; simpl in E.
  { injection E as <- <-. constructor. }
  destruct (next cfg st) as [r s1| | | |] eqn:Nx; try discriminate.
  assert (C : ir_code r <> IC_ERROR) by (intros X; rewrite X in E; discriminate).
  assert (E' : (if ends_command r s1 then None
                else option_map (fun x => (r :: fst x, snd x)) (steps cfg n s1)) = Some (rs, st')).
  { destruct (ir_code r); try exact E; congruence. }
  clear E. destruct (ends_command r s1) eqn:La; [discriminate|].
  destruct (steps cfg n s1) as [(rs', s2)|] eqn:S2; [|discriminate]. injection E' as <- <-.
  econstructor; [exact Nx|exact C| |apply IH; exact S2]. intros X. apply ends_sound in X. congruence.
Qed.

Lemma fair_pair : forall a b k m, (a_min a <= k <= a_max a)%N -> m = a_min b -> (a_min b <= a_max b)%N ->
  fair [a; b] (k + m) [k; m].
Proof.
  intros a b k m K -> B. split; [reflexivity|]. split; [simpl; lia|]. split.
  - intros [|[|i]] x y E1 E2; simpl in E1, E2; try (destruct i; discriminate);
      injection E1 as <-; injection E2 as <-; lia.
  - intros i j x y u v L E1 E2 E3 E4 L2.
    destruct j as [|[|j]]; simpl in E3, E4; [lia| |destruct j; discriminate].
    injection E3 as <-. injection E4 as <-. lia.
Qed.
