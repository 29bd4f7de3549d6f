(** Command lines with several sub-commands (C73). *)
From Verif Require Import Base BaseProofs MStrings MOptIter MData MCounter MValues MParser
  SStrings STok SIndex SDef SValues SCounter SParser SStep SLook SEquiv SApi SLine SMulti
  StrProofs TokProofs IndexProofs DefProofs FinishProofs ValuesProofs CounterProofs CounterInv
  MonadProofs FrameProofs InvProofs NextProofs ParseProofs StepProofs StepProofs2
  SimProofs3 EquivProofs LookProofs AcceptProofs ItemProofs LineProofs.
Open Scope nat_scope.

(* ------------------------------------------------------------------------ *)
(** ** Names of other sub-commands *)

(** The sub-command with this name of the nearest command above that accepts several. *)
Definition above (cfg : settings) (parents : list level) (t : str) : option (cmd_data * nat) :=
  match multi_parent_loop parents 1 with
  | Some (S k) =>
      match option_map l_command (nth_error parents k) with
      | Some c => match find_command c t (s_case_insensitive cfg) with
                  | Some d => Some (d, S k)
                  | None => None
                  end
      | None => None
      end
  | _ => None
  end.

Lemma multi_loop_from : forall ls k i, multi_parent_loop ls k = Some i -> k <= i.
Proof.
  induction ls as [|l ls IH]; intros k i E; [discriminate|]. cbn [multi_parent_loop] in E.
  destruct (c_multi (l_command l)); [injection E as <-; lia|]. apply IH in E. lia.
Qed.

Lemma sibling_above : forall cfg s t,
  find_sibling_command cfg s t = if is_complete (ps_counter s) then above cfg (ps_parents s) t else None.
Proof.
  intros cfg s t. unfold find_sibling_command, above, find_first_multi_command_parent.
  destruct (is_complete (ps_counter s)); cbn [negb]; [|reflexivity].
  destruct (multi_parent_loop (ps_parents s) 1) as [k|] eqn:E; [|reflexivity].
  apply multi_loop_from in E. destruct k as [|k]; [lia|]. reflexivity.
Qed.

Section Count.
Variables (p q : parser_data).
Hypothesis H : finish_parser p = Val q.
Let cfg := d_settings q.
Let top := d_command q.
Hypothesis Sd : sound top.
Hypothesis Hn : no_insertions cfg top.
Hypothesis Ig : s_ignore_arguments cfg = false.

(** The look-ahead at something that is not an option. *)
Lemma ahead_plain : forall st s0 n j st' t it, ps_command s0 = ps_command st -> within top (ps_command st) ->
  c_commands (ps_command st) = [] -> no_beginning cfg (ps_command st) t -> reads st' (Some t) it ->
  (ps_mode st' = ARGUMENTS_ONLY \/ ~ looks_like_option (s_style cfg) t) -> ahead cfg s0 n j st' ->
  if (minima (c_arguments (ps_command st)) <=? N.of_nat j)%N
     && match find_sibling_command cfg s0 t with Some _ => true | None => false end
  then N.of_nat j = n else (N.of_nat j + 1 <= n)%N.
Proof.
  intros st s0 n j st' t it Ec0 Wi Cm Nb R Nl Ah. unfold ahead in Ah. unfold reads in R. rewrite Ec0 in Ah.
  destruct (ps_mode st') eqn:M; try contradiction; destruct Ah as (f & A); (destruct f as [|f]; [discriminate|]).
  - destruct Nl as [Nl|Nl]; [discriminate|]. cbn [count_tokens] in A. rewrite R in A.
    assert (Wi0 : within (d_command q) (ps_command s0)) by (rewrite Ec0; exact Wi).
    assert (Nb0 : no_beginning (d_settings q) (ps_command s0) t) by (rewrite Ec0; exact Nb).
    pose proof (no_flag p q H s0 Wi0 t Nb0 Nl) as Nf. fold cfg in Nf. rewrite Nf in A.
    rewrite <- is_option_iff in Nl. destruct (is_option t (s_style cfg)) eqn:Io; [congruence|].
    unfold find_command in A at 1. rewrite Ec0, Cm in A. cbn [find] in A.
    destruct (_ && _); [congruence|]. apply tokens_up in A. exact A.
  - cbn [count_values] in A. rewrite R in A. unfold find_command in A at 1. rewrite Ec0, Cm in A. cbn [find] in A.
    destruct (_ && _); [congruence|]. apply values_up in A. exact A.
Qed.

(** Receiving another argument. *)
Lemma ready : forall args st rs st' t it,
  entered cfg top args st -> proceeds cfg st rs st' -> Forall (foreseeable cfg (ps_command st)) rs ->
  reads st' (Some t) it -> (ps_mode st' = ARGUMENTS_ONLY \/ ~ looks_like_option (s_style cfg) t) ->
  c_commands (ps_command st) = [] -> no_beginning cfg (ps_command st) t ->
  (N.of_nat (length (received rs)) < minima (c_arguments (ps_command st)))%N \/ above cfg (ps_parents st') t = None ->
  (N.of_nat (length (received rs)) < maxima (c_arguments (ps_command st)))%N ->
  exists a ac, next_argument (ps_counter st') = (Some a, ac).
Proof.
  intros args st rs st' t it En Pc Fs R Nl Cm0 Nb Ns L.
  destruct (counters p q H Sd Hn Ig args st rs st' En Pc Fs) as (St & Pm & (m & Rc) & Wi & Cs).
  destruct (Sd _ Wi) as (Pr & Mx & _). set (defs := c_arguments (ps_command st)) in *.
  pose proof (next_argument_spec (ps_counter st')) as Sp.
  cut (left_over (ps_counter st') <> []).
  { intros X. destruct (left_over (ps_counter st')) as [|x l]; [congruence|].
    destruct Sp as (Sp & _). destruct (next_argument (ps_counter st')) as (a, ac). simpl in Sp. subst a. eauto. }
  intros X. destruct Cs as [(Rq & Ec)|(Rq & Cm & n & s0 & Ec0 & Ep0 & Cp & Ec & Lj & Ah)].
  - rewrite Ec in X. rewrite (proj2 (calls_spec _ _)) in X.
    apply (f_equal (@length arg_data)) in X. rewrite skipn_length in X. simpl in X.
    assert (E2 : left_over (plain_counter defs) = order (map (fun a => (a_max a, a)) defs)).
    { unfold left_over, plain_counter. simpl. apply make_counters_order. intros a Ha. apply Pr in Ha. lia. }
    rewrite E2 in X. pose proof (pairs_length a_max defs) as Pl. unfold maxima in L. lia.
  - rewrite Ec in X. rewrite (proj2 (calls_spec _ _)) in X.
    apply (f_equal (@length arg_data)) in X. rewrite skipn_length in X. simpl in X.
    set (j := length (received rs)) in *.
    assert (Tl : N.of_nat (length (left_over (counted_counter defs n 0))) = sum (map fst (make_counters_n defs n))).
    { rewrite counted_left. simpl. apply order_length. }
    assert (Up : (N.of_nat j + 1 <= n)%N).
    { pose proof (ahead_plain st s0 n j st' t it Ec0 Wi Cm0 Nb R Nl Ah) as A. fold defs in A.
      assert (B : (minima defs <=? N.of_nat j)%N && match find_sibling_command cfg s0 t with Some _ => true | None => false end = false).
      { destruct Ns as [Ns|Ns]; [apply andb_false_iff; left; apply N.leb_gt; exact Ns|].
        apply andb_false_iff. right. rewrite sibling_above.
        assert (Ep1 : ps_parents s0 = ps_parents st') by (rewrite Ep0; symmetry; apply St).
        rewrite Ep1, Ns. destruct (is_complete _); reflexivity. }
      rewrite B in A. exact A. }
    destruct (counted_sum defs n Pr) as ((Mn & Mxx) & Lt & _).
    destruct (N.lt_ge_cases n (minima defs)) as [Ln|Ln]; [specialize (Lt Ln); lia|].
    destruct (N.le_gt_cases n (maxima defs)) as [Lm|Lm].
    + destruct (counted_exact defs n Pr Mx (conj Ln Lm)) as (_ & Es & _). lia.
    + pose proof (counted_max defs n Pr Mx Lm). lia.
Qed.

(** Too few arguments. *)
Lemma short_incomplete : forall args st rs st', entered cfg top args st -> proceeds cfg st rs st' ->
  Forall (foreseeable cfg (ps_command st)) rs ->
  (N.of_nat (length (received rs)) < minima (c_arguments (ps_command st)))%N ->
  is_complete (ps_counter st') = false.
Proof.
  intros args st rs st' En Pc Fs L. destruct (is_complete (ps_counter st')) eqn:C; [|reflexivity]. exfalso.
  destruct (counters p q H Sd Hn Ig args st rs st' En Pc Fs) as (St & Pm & _ & Wi & Cs).
  destruct (Sd _ Wi) as (Pr & Mx & _). set (defs := c_arguments (ps_command st)) in *.
  pose proof (minima_le_maxima defs (fun x Hx => proj1 (Pr x Hx))) as Le.
  destruct Cs as [(Rq & Ec)|(Rq & Cm & n & s0 & Ec0 & Ep0 & Cp & Ec & Lj & Ah)]; rewrite Ec in C.
  - apply plain_complete_proof in C; [lia|exact Pr|exact Rq|lia].
  - destruct (counted_sum defs n Pr) as ((B1 & B2) & _ & _).
    assert (Ls : (N.of_nat (length (received rs)) <= sum (map fst (make_counters_n defs n)))%N).
    { rewrite counted_left in Lj. simpl in Lj. pose proof (order_length (make_counters_n defs n)) as Ol. lia. }
    apply (counted_complete_proof defs n (length (received rs)) Ls) in C. destruct C as (Es & C). lia.
Qed.

(** Where the name of another sub-command is found. *)
Section Before.
Variables (args : list str) (st : pstate) (rs : list iter_result) (st' : pstate) (t : str) (it : opt_iter)
  (y : cmd_data * nat).
Hypothesis En : entered cfg top args st.
Hypothesis Pc : proceeds cfg st rs st'.
Hypothesis Fs : Forall (foreseeable cfg (ps_command st)) rs.
Hypothesis R : reads st' (Some t) it.
Hypothesis Nl : ps_mode st' = ARGUMENTS_ONLY \/ ~ looks_like_option (s_style cfg) t.
Hypothesis Cm0 : c_commands (ps_command st) = [].
Hypothesis Nb : no_beginning cfg (ps_command st) t.
Hypothesis Ab : above cfg (ps_parents st') t = Some y.
Let defs := c_arguments (ps_command st).
Let k := N.of_nat (length (received rs)).
Hypothesis L : (minima defs <= k <= maxima defs)%N.

Lemma count_before : forall s0 n, ps_command s0 = ps_command st -> ps_parents s0 = ps_parents st' ->
  is_complete (ps_counter s0) = true \/ ps_parents s0 = [] ->
  within top (ps_command st) -> ahead cfg s0 n (length (received rs)) st' -> k = n.
Proof.
  intros s0 n Ec0 Ep Cp Wi Ah. pose proof (ahead_plain st s0 n _ st' t it Ec0 Wi Cm0 Nb R Nl Ah) as A.
  fold defs k in A. replace (minima defs <=? k)%N with true in A by (symmetry; apply N.leb_le; apply L).
  rewrite sibling_above, Ep, Ab in A.
  destruct Cp as [Cp|Cp]; [rewrite Cp in A; exact A|]. rewrite <- Ep, Cp in Ab. discriminate Ab.
Qed.

Lemma before_cases : ((is_complete (ps_counter st') = true /\ last_used defs k) \/
    (~ last_used defs k /\ is_complete (ps_counter st') = false /\ exists ac, next_argument (ps_counter st') = (None, ac))) /\
  exists ks, fair defs k ks /\ received rs = order (combine ks defs).
Proof.
  destruct (counters_full p q H Sd Hn Ig args st rs st' En Pc Fs) as (St & Pm & _ & Wi & Cs). fold defs in Cs.
  destruct (Sd _ Wi) as (Pr & Mx & _). fold defs in Pr, Mx.
  destruct Cs as [(Rq & Ec & El)|(Rq & Cm & n & s0 & Ec0 & Ep0 & Cp & Ec & Lj & Ah & El)].
  - split.
    + left. split; [|left; apply requires_count_false; exact Rq].
      rewrite Ec. apply plain_complete_proof; [exact Pr|exact Rq|apply L|apply L].
    + assert (D : distributed defs (received rs)).
      { apply (plain_distributed defs (received rs) (left_over (ps_counter st')) Pr).
        - apply requires_count_false. exact Rq.
        - rewrite <- El. unfold left_over, plain_counter. simpl. symmetry. apply make_counters_order.
          intros a Ha. apply Pr in Ha. lia. }
      apply D. apply L.
  - assert (Ep1 : ps_parents s0 = ps_parents st') by (rewrite Ep0; symmetry; apply St).
    pose proof (count_before s0 n Ec0 Ep1 Cp Wi Ah) as Ek.
    assert (L1 : (minima defs <= n <= maxima defs)%N) by (rewrite <- Ek; exact L).
    pose proof (counted_exact defs n Pr Mx L1) as Ex.
    assert (Es : sum (map fst (make_counters_n defs n)) = n) by apply Ex.
    assert (Lo : left_over (ps_counter st') = []).
    { apply length_zero_iff_nil. rewrite counted_left in El. simpl in El.
      apply (f_equal (@length arg_data)) in El. rewrite app_length in El.
      pose proof (order_length (make_counters_n defs n)) as Ol. unfold k in Ek. lia. }
    split.
    + assert (Ci : is_complete (ps_counter st') = true <-> last ((map fst (make_counters_n defs n))) 0%N <> 0%N).
      { rewrite Ec. rewrite (counted_complete_proof defs n (length (received rs))); fold k; [|lia]. rewrite Es. split.
        - intros (_ & [Cc|Cc]); [|exact Cc]. exfalso.
          rewrite map_length in Cc. assert (Ld : length defs <= 1).
          { rewrite <- (counted_args defs n), map_length. exact Cc. }
          assert (X : requires_argument_count defs = false).
          { apply requires_count_false. intros front final E a Ia. rewrite E, app_length in Ld. simpl in Ld.
            destruct front; [contradiction|simpl in Ld; lia]. }
          congruence.
        - auto. }
      assert (Lu : last_used defs k <-> last ((map fst (make_counters_n defs n))) 0%N <> 0%N).
      { split.
        - intros [X|(ks & Fk & Lk)]; [apply requires_count_false in X; congruence|].
          rewrite Ek in Fk. rewrite (fair_unique_proof _ _ _ _ Ex Fk). exact Lk.
        - intros X. right. rewrite Ek. eauto. }
      destruct (is_complete (ps_counter st')) eqn:C; [left; split; [reflexivity|tauto]|].
      right. split; [rewrite Lu, <- Ci; discriminate|]. split; [reflexivity|].
      pose proof (next_argument_spec (ps_counter st')) as Sp. rewrite Lo in Sp. destruct Sp as (Sp & _).
      destruct (next_argument (ps_counter st')) as (a, ac). simpl in Sp. subst a. eauto.
    + rewrite Ek. eexists. split; [exact Ex|]. rewrite Lo, app_nil_r, counted_left in El. simpl in El. rewrite <- El. f_equal.
      assert (L3 : (n < 2 ^ 64)%N) by lia. destruct (distribution_proof _ n Pr L3) as (Sn & _).
      rewrite <- (pairs_split (make_counters_n defs n)) at 1. rewrite Sn. reflexivity.
Qed.
End Before.
End Count.
