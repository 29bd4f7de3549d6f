(** Arguments inserted by callbacks (C07, C74). *)
From Verif Require Import Base BaseProofs MStrings MOptIter MData MCounter MValues MParser
  SStrings STok SIndex SDef SValues SCounter SParser SStep SLook SInsert SExamples
  StrProofs TokProofs IndexProofs DefProofs FinishProofs ValuesProofs CounterProofs CounterInv
  MonadProofs FrameProofs InvProofs NextProofs ParseProofs StepProofs StepProofs2 LookProofs.
Open Scope nat_scope.

(* ------------------------------------------------------------------------ *)
(** ** The tokenizer *)

Lemma insert_values : forall it new it' r it1, wf_iter it -> it_kind it = KStandard ->
  it_insert it new = Ok it' -> it_remaining it = Ok (r, it1) -> value_drains it r ->
  value_drains it' (new ++ r).
Proof.
  intros [k args p] new it' r it1 W K I E V. cbn [it_kind] in K. subst k.
  unfold it_remaining in E. unfold it_insert in I. cbn [it_kind] in *.
  unfold std_remaining in E. unfold std_insert in I.
  unfold split_concatenated_flags in *. cbn [it_pos it_args it_kind] in *.
  destruct p as [[|n]|]; cbn [pos_nonzero] in *.
  - unfold remaining_tail in E. unfold insert_tail in I. simpl in E, I. inv E. inv I. apply value_drains_start.
  - exfalso. destruct W as (a & rest & Ea & L). simpl in Ea, L. subst args.
    assert (V2 : r = skipn (S n) a :: rest).
    { eapply value_drains_fun; [exact V|]. eapply vdrains_value; [|apply value_drains_npos].
      unfold it_next_value, std_next_value. cbn [it_kind it_args it_pos].
      destruct (Nat.leb_spec (S n) (length a)); [reflexivity|lia]. }
    destruct (length a <=? S n); [|destruct (nth_error a 1) as [c1|]; [destruct (Ascii.eqb c1 c_dash)|discriminate]];
      unfold remaining_tail in E; cbn [it_pos it_args it_kind pos_nonzero subspan1] in E; injection E as E _;
      rewrite V2 in E; pose proof (f_equal (@length str) E) as X; simpl in X; try lia.
    injection E as E. pose proof (f_equal (@length ascii) E) as Y. cbn [length] in Y. lia.
  - unfold wf_iter in W. simpl in W. destruct args as [|a rest]; [congruence|].
    unfold remaining_tail in E. unfold insert_tail in I. simpl in E, I. inv E. inv I. apply value_drains_npos.
Qed.

Lemma insert_kind : forall it new it', wf_iter it -> it_insert it new = Ok it' -> wf_iter it' /\ it_kind it' = it_kind it.
Proof.
  intros it new it' W E. destruct (insert_wf it new W) as (x & Ex & Wx & Kx). rewrite E in Ex. injection Ex as <-. auto.
Qed.

(** Inserting twice. *)
Definition read_next (it : opt_iter) (new : list str) (it' : opt_iter) : Prop :=
  exists rest it2, it_remaining it = Ok (rest, it2) /\
    (new = [] -> it' = it) /\
    (exists it3, it_remaining it' = Ok (new ++ rest, it3)) /\
    (new <> [] -> (forall ts, drains it' ts <-> drains (it_start (it_kind it) (new ++ rest)) ts)) /\
    (it_kind it = KStandard -> value_drains it rest -> value_drains it' (new ++ rest)) /\
    wf_iter it' /\ it_kind it' = it_kind it.

Lemma read_next_none : forall it, wf_iter it -> read_next it [] it.
Proof.
  intros it W. destruct (remaining_wf _ W) as (l & it2 & E & _). exists l, it2. split; [exact E|].
  split; [reflexivity|]. split; [exists it2; exact E|]. split; [congruence|]. auto.
Qed.

Lemma read_next_twice : forall it new1 it1 new2 it2, read_next it new1 it1 -> read_next it1 new2 it2 ->
  read_next it (new2 ++ new1) it2.
Proof.
  intros it new1 it1 new2 it2 (rest & i & E & A1 & (i3 & A2) & A3 & A4 & A5 & A6)
    (rest' & i' & E' & B1 & (i3' & B2) & B3 & B4 & B5 & B6).
  rewrite A2 in E'. injection E' as <- <-.
  exists rest, i. split; [exact E|]. split; [|split; [|split; [|split; [|split]]]].
  - intros X. apply app_eq_nil in X. destruct X as (X2 & X1). rewrite (B1 X2). exact (A1 X1).
  - exists i3'. rewrite <- app_assoc. exact B2.
  - intros Ne ts. rewrite <- app_assoc, <- A6. destruct new2 as [|x new2].
    + rewrite (B1 eq_refl), A6. cbn [app] in *. apply A3. exact Ne.
    + apply B3. discriminate.
  - intros K V. rewrite <- app_assoc. apply B4; [congruence|]. apply A4; assumption.
  - exact B5.
  - congruence.
Qed.

Lemma inserted_reads : forall cfg st new st', wf_iter (ps_iter st) -> inserted cfg st new st' ->
  read_next (ps_iter st) new (ps_iter st').
Proof.
  intros cfg st new st' W [(-> & E & _)|(Ne & E & _)].
  - rewrite E. apply read_next_none. exact W.
  - destruct (remaining_wf _ W) as (l & it2 & R & _).
    destruct (insert_next_wf _ _ _ _ _ W E R) as (T & R2). destruct (insert_kind _ _ _ W E) as (W' & K').
    exists l, it2. split; [exact R|]. split; [intros X; destruct (Ne X)|].
    split; [exists (ps_iter st'); exact R2|]. split; [intros _; exact T|].
    split; [|auto]. intros K V. exact (insert_values _ _ _ _ _ W K E R V).
Qed.

(* ------------------------------------------------------------------------ *)
(** ** Options *)

Definition after_option (s st' : pstate) : Prop :=
  (ps_mode st' <> ST_DONE /\ ps_mode st' <> ST_ERROR /\ ps_iter st' = ps_iter s /\ (ps_mode st' = ARGUMENTS_AND_OPTIONS -> st' = s)) \/
  (ps_mode st' = ST_DONE /\ exists l itr, it_remaining (ps_iter s) = Ok (l, itr) /\
     l_unprocessed (ps_cur st') = l_unprocessed (ps_cur s) ++ l).

Section Cfg.
Variable cfg : settings.

Lemma process_option_after : forall o flag it st, wf_iter it -> ps_mode st = ARGUMENTS_AND_OPTIONS ->
  find_option (ps_command st) flag (s_abbreviations cfg) (s_case_insensitive cfg) = Some o ->
  when (fun r st' =>
      ir_code r = IC_ERROR \/
      exists it' s, r = mk_ir IC_OPTION (ItOption o) (ir_value r) /\
        reads_value o it (ir_value r) it' /\ wf_iter it' /\
        called_both cfg (o_callback o) (option_cb cfg o) (own_event o (ir_value r))
          (global_event o (ir_value r)) (ir_value r)
          (started o (set_iter st it) (ir_value r) it') s /\ after_option s st')
    (process_option cfg flag (set_iter st it)).
Proof.
  intros o flag it st W M F. unfold process_option. rewrite bind_gets.
  change (ps_command (set_iter st it)) with (ps_command st). rewrite F.
  eapply when_seq; [apply process_known_option_exact; exact W|].
  cbv beta. intros (r, v) s1 [(E & _)|(it' & s & Rd & Wi & C & Ap)].
  { injection E as -> ->. left. reflexivity. }
  cbn [fst snd] in *. pose proof (cb2_frame _ _ _ _ _ _ _ _ C) as Fr.
  assert (Ws : wf_iter (ps_iter s)) by (apply (cf_wf _ _ Fr), Wi).
  assert (Ms : ps_mode s = ARGUMENTS_AND_OPTIONS) by (rewrite (cf_mode _ _ Fr); exact M).
  assert (G : forall st', after_option s st' ->
    ir_code (mk_ir IC_OPTION (ItOption o) v) = IC_ERROR \/
      exists it' s0, mk_ir IC_OPTION (ItOption o) v = mk_ir IC_OPTION (ItOption o) (ir_value (mk_ir IC_OPTION (ItOption o) v)) /\
        reads_value o it (ir_value (mk_ir IC_OPTION (ItOption o) v)) it' /\ wf_iter it' /\
        called_both cfg (o_callback o) (option_cb cfg o) (own_event o (ir_value (mk_ir IC_OPTION (ItOption o) v)))
          (global_event o (ir_value (mk_ir IC_OPTION (ItOption o) v))) (ir_value (mk_ir IC_OPTION (ItOption o) v))
          (started o (set_iter st it) (ir_value (mk_ir IC_OPTION (ItOption o) v)) it') s0 /\ after_option s0 st').
  { intros st' X. right. exists it', s. cbn [ir_value]. split; [reflexivity|]. split; [exact Rd|].
    split; [exact Wi|]. split; [exact C|exact X]. }
  assert (Cp : forall s2, ps_iter s2 = ps_iter s -> ps_mode s2 = ST_DONE ->
    l_unprocessed (ps_cur s2) = l_unprocessed (ps_cur s) ->
    when (fun r st' =>
      ir_code r = IC_ERROR \/
      exists it' s, r = mk_ir IC_OPTION (ItOption o) (ir_value r) /\
        reads_value o it (ir_value r) it' /\ wf_iter it' /\
        called_both cfg (o_callback o) (option_cb cfg o) (own_event o (ir_value r))
          (global_event o (ir_value r)) (ir_value r)
          (started o (set_iter st it) (ir_value r) it') s /\ after_option s st')
      ((copy_remaining ;;; ret (mk_ir IC_OPTION (ItOption o) v)) s2)).
  { intros s2 E1 E2 E3. rewrite <- E1 in Ws. destruct (copy_remaining_eq s2 Ws) as (l & itr & El & _ & _ & Cr).
    unfold bind. rewrite Cr. apply G. right. split; [exact E2|]. exists l, itr. rewrite <- E1. split; [exact El|].
    cbn. rewrite E3. reflexivity. }
  unfold apply_type, bind, gets, emit, modify, ret in Ap. destruct (o_type o) eqn:T; injection Ap as <- <-.
  - apply G. left. repeat (split; [congruence|]). auto.
  - destruct (s_auto_exit cfg); [exact I|]. apply Cp; reflexivity.
  - apply Cp; reflexivity.
  - destruct (s_auto_exit cfg); [exact I|]. apply Cp; reflexivity.
  - eapply when_seq; [apply check_counts_only; exact Ws|].
    cbv beta. intros [|] s2 Hs; cbn [negb]; [subst s2|left; reflexivity].
    rewrite bind_gets. destruct (find_first_multi_command_parent _) as [k|].
    + unfold reactivate. rewrite bind_modify. destruct (pop_levels _ _ _) as (cur, ps). apply G. left.
      cbn. repeat (split; [first [discriminate|reflexivity]|]). discriminate.
    + apply Cp; reflexivity.
  - apply G. left. cbn. repeat (split; [first [discriminate|reflexivity]|]). discriminate.
Qed.
End Cfg.

Section Insert.
Variables (p q : parser_data).
Hypothesis H : finish_parser p = Val q.
Let cfg := d_settings q.
Let top := d_command q.
Variable args : list str.

Lemma option_after : forall st n t it o r st', reached cfg top args st n ->
  ps_mode st = ARGUMENTS_AND_OPTIONS -> it_next (ps_iter st) = Ok (Some t, it) ->
  looks_like_option (s_style cfg) t ->
  find_option (ps_command st) t (s_abbreviations cfg) (s_case_insensitive cfg) = Some o ->
  next cfg st = Ret r st' -> ir_code r <> IC_ERROR ->
  r = mk_ir IC_OPTION (ItOption o) (ir_value r) /\
  exists it' s, reads_value o it (ir_value r) it' /\ wf_iter it' /\
        called_both cfg (o_callback o) (option_cb cfg o) (own_event o (ir_value r))
          (global_event o (ir_value r)) (ir_value r)
          (started o (set_iter st it) (ir_value r) it') s /\ after_option s st'.
Proof.
  intros st n t it o r st' R M N L F E Ne.
  pose proof (reached_shape p q H args st n R) as Sh. pose proof (sh_wf _ _ _ Sh) as W.
  assert (W' : wf_iter it).
  { assert (Rd : reads st (Some t) it) by (unfold reads; rewrite M; exact N).
    apply (reads_wf _ _ _ W Rd). }
  pose proof (process_option_after cfg o t it st W' M F) as X.
  rewrite (next_option_eq cfg st t it M N L) in E. rewrite E in X. cbn [when post] in X.
  destruct X as [X|(it' & s & X & Y)]; [contradiction|]. split; [exact X|]. exists it', s. exact Y.
Qed.

Lemma both_inserted : forall cb1 cb2 e1 e2 v st s, wf_iter (ps_iter st) ->
  called_both cfg cb1 cb2 e1 e2 v st s -> exists vs2,
  (cb_passive cb1 (ps_calls st) -> vs2 = l_values (ps_cur st)) /\
  read_next (ps_iter st) (new_of cb2 (ps_calls st + calls_of cb1) v vs2 ++
                          new_of cb1 (ps_calls st) v (l_values (ps_cur st))) (ps_iter s).
Proof.
  intros cb1 cb2 e1 e2 v st s W C. destruct (cb2_inserted _ _ _ _ _ _ _ _ C) as (m & Fr & P & A & B).
  exists (l_values (ps_cur m)). split; [exact P|].
  pose proof (inserted_reads _ _ _ _ W A) as Ra.
  assert (Wm : wf_iter (ps_iter m)) by (apply (cf_wf _ _ Fr), W).
  eapply read_next_twice; [exact Ra|]. exact (inserted_reads _ _ _ _ Wm B).
Qed.

Lemma frame_unprocessed : forall a b, cb_frame a b -> l_unprocessed (ps_cur b) = l_unprocessed (ps_cur a).
Proof. intros a b Fr. destruct (cf_cur _ _ Fr) as (cs & ->). reflexivity. Qed.

Lemma option_inserts_proof : forall st n t it o r st', reached cfg top args st n ->
  ps_mode st = ARGUMENTS_AND_OPTIONS -> it_next (ps_iter st) = Ok (Some t, it) ->
  looks_like_option (s_style cfg) t -> dependable cfg (ps_command st) t ->
  selects (s_case_insensitive cfg) (s_abbreviations cfg) (c_options (ps_command st)) t o ->
  next cfg st = Ret r st' -> ir_code r <> IC_ERROR ->
  exists it' vs1 vs2, let v := ir_value r in
    reads_value o it v it' /\
    changed (option_change o v) (l_values (ps_cur st)) vs1 /\
    (changes_nothing (o_callback o) (ps_calls st) -> vs2 = vs1) /\
    left_to_read (l_unprocessed (ps_cur st)) it'
      (new_of (option_cb cfg o) (ps_calls st + calls_of (o_callback o)) v vs2 ++
       new_of (o_callback o) (ps_calls st) v vs1) st'.
Proof.
  intros st n t it o r st' R M N L D Se E Ne.
  pose proof (reached_shape p q H args st n R) as Sh.
  pose proof (proj2 (shape_lookup p q H st t o Sh D) Se) as F.
  destruct (option_after st n t it o r st' R M N L F E Ne) as (Er & it' & s & Rd & Wi & C & Af).
  destruct (both_inserted _ _ _ _ _ (started o (set_iter st it) (ir_value r) it') s Wi C) as (vs2 & P & Rn).
  exists it', (op_values o (ir_value r) (l_values (ps_cur st))), vs2.
  split; [exact Rd|]. split; [apply changed_op; exact (shape_in_order q st Sh)|]. split; [exact P|].
  destruct Rn as (rest & it2 & Er2 & A1 & (it3 & A2) & A3 & A4 & _ & _). exists rest, it2. split; [exact Er2|].
  change (ps_calls (started o (set_iter st it) (ir_value r) it')) with (ps_calls st) in *.
  change (ps_iter (started o (set_iter st it) (ir_value r) it')) with it' in *.
  change (l_values (ps_cur (started o (set_iter st it) (ir_value r) it')))
    with (op_values o (ir_value r) (l_values (ps_cur st))) in *.
  destruct Af as [(Nd & Nr & Ei & _)|(Md & l & itr & El & Eu)].
  - rewrite Ei. destruct (ps_mode st'); try contradiction; (split; [exact A1|]); intros X;
      (split; [exists it3; exact A2|]); (split; [exact (A3 X)|exact A4]).
  - rewrite Md, Eu. rewrite A2 in El. injection El as <- _.
    rewrite (frame_unprocessed _ _ (cb2_frame _ _ _ _ _ _ _ _ C)). reflexivity.
Qed.

Lemma argument_inserts_proof : forall st n r st', reached cfg top args st n ->
  next cfg st = Ret r st' -> ir_code r = IC_ARGUMENT ->
  exists a it vs1 vs2, let v := ir_value r in
    ir_item r = ItArgument a /\ reads st (Some v) it /\
    changed (argument_change a v) (l_values (ps_cur st)) vs1 /\
    (changes_nothing (a_callback a) (ps_calls st) -> vs2 = vs1) /\
    left_to_read (l_unprocessed (ps_cur st)) it
      (new_of (argument_cb cfg a) (ps_calls st + calls_of (a_callback a)) v vs2 ++
       new_of (a_callback a) (ps_calls st) v vs1) st'.
Proof.
  intros st n r st' R E Ic.
  pose proof (reached_shape p q H args st n R) as Sh. pose proof (sh_wf _ _ _ Sh) as W.
  pose proof (next_cases cfg st W) as X. rewrite E in X. cbn [when post] in X.
  destruct X as [t it o _ _ _ _ (X & _)|t it a ac Rd Lk -> Cm Sb En C|X _|X _|t it o _ _ _ _ _ X];
    try (rewrite X in Ic; discriminate Ic); try congruence.
  2:{ destruct X as [X|[X|X]]; congruence. }
  destruct (reads_wf _ _ _ W Rd) as (Wi & _).
  destruct (both_inserted _ _ _ _ _ (arg_started a (set_iter st it) t ac) st' Wi C) as (vs2 & P & Rn).
  exists a, it, (append_value (l_values (ps_cur st)) (a_value_id a) t (a_argument_id a)), vs2.
  cbn [ir_value]. split; [reflexivity|]. split; [exact Rd|].
  split; [apply (changed_one (argument_change a t)); exact (shape_in_order q st Sh)|]. split; [exact P|].
  destruct Rn as (rest & it2 & Er2 & A1 & (it3 & A2) & A3 & A4 & _ & _). exists rest, it2. split; [exact Er2|].
  pose proof (cf_mode _ _ (cb2_frame _ _ _ _ _ _ _ _ C)) as Ms. cbn in Ms.
  assert (Pr : in_progress (ps_mode st)).
  { unfold reads in Rd. destruct (ps_mode st); try contradiction; [left|right]; reflexivity. }
  rewrite Ms. destruct Pr as [Pr|Pr]; rewrite Pr; (split; [exact A1|]); intros X;
      (split; [exists it3; exact A2|]); (split; [exact (A3 X)|exact A4]).
Qed.

(* ------------------------------------------------------------------------ *)
(** ** Counting again *)

(** The state after the last of the insertions. *)
Definition recounted (st st' : pstate) (k : N) : Prop :=
  let defs := c_arguments (ps_command st) in
  requires_argument_count defs = true ->
  exists s n, ps_command s = ps_command st /\ ps_parents s = ps_parents st /\
    count_tokens cfg (iter_fuel (ps_iter st')) s (minima defs) (ps_iter st') 0 = CountOk n /\
    ps_counter st' = counted_counter defs (k + n) k.

Lemma both_recounted : forall cb1 cb2 e1 e2 v st s k, called_both cfg cb1 cb2 e1 e2 v st s ->
  proper (c_arguments (ps_command st)) -> (maxima (c_arguments (ps_command st)) < 2 ^ 64)%N ->
  counter_ok (c_arguments (ps_command st)) (ps_counter st) k ->
  inserting cb1 (ps_calls st) v \/ inserting cb2 (ps_calls st + calls_of cb1) v -> recounted st s k.
Proof.
  intros cb1 cb2 e1 e2 v st s k C Pr Mx Ok Hi Rq. destruct (cb2_inserted _ _ _ _ _ _ _ _ C) as (m & Fr & _ & A & B).
  pose proof (cf_command _ _ Fr) as Fc. pose proof (cf_parents _ _ Fr) as Fp.
  pose proof (cf_counter _ _ Fr Pr Mx k Ok) as Ok'.
  assert (N1 : inserting cb1 (ps_calls st) v -> new_of cb1 (ps_calls st) v (l_values (ps_cur st)) <> []).
  { intros (f & -> & X). apply X. }
  assert (N2 : inserting cb2 (ps_calls st + calls_of cb1) v ->
    new_of cb2 (ps_calls st + calls_of cb1) v (l_values (ps_cur m)) <> []).
  { intros (f & -> & X). apply X. }
  destruct B as [(B0 & Bi & Bc)|(_ & _ & B)].
  - destruct Hi as [Hi|Hi]; [|contradiction (N2 Hi)].
    destruct A as [(A0 & _)|(_ & _ & A)]; [contradiction (N1 Hi)|]. cbv zeta in A. rewrite Rq in A.
    destruct A as (x & n & X1 & X2 & X3 & X4). exists x, n. rewrite Bi, Bc.
    replace (ac_counter (ps_counter st)) with k in X4 by (symmetry; apply Ok). auto.
  - cbv zeta in B. rewrite Fc, Rq in B. destruct B as (x & n & X1 & X2 & X3 & X4). exists x, n.
    replace (ac_counter (ps_counter m)) with k in X4 by (symmetry; apply Ok').
    split; [exact X1|]. split; [congruence|]. auto.
Qed.

Lemma count_values_shift : forall s min, (forall t, find_sibling_command cfg s t = None) ->
  forall f it r n d, count_values cfg f s min it r = CountOk n ->
  count_values cfg f s min it (r + d)%N = CountOk (n + d).
Proof.
  intros s min Ns. induction f as [|f IH]; intros it r n d E; [discriminate|]. cbn [count_values] in *.
  destruct (it_next_value it) as [([t|], it')|]; try discriminate; [|congruence].
  destruct (find_command _ _ _); [congruence|]. rewrite Ns, andb_false_r in *.
  rewrite <- (IH _ _ _ d E). f_equal. lia.
Qed.

Lemma count_tokens_shift : forall s min, (forall t, find_sibling_command cfg s t = None) ->
  forall f it r n d, count_tokens cfg f s min it r = CountOk n ->
  count_tokens cfg f s min it (r + d)%N = CountOk (n + d).
Proof.
  intros s min Ns. induction f as [|f IH]; intros it r n d E; [discriminate|]. cbn [count_tokens] in *.
  destruct (it_next it) as [([t|], it')|]; try discriminate; [|apply count_values_shift; assumption].
  destruct (find_option _ _ _ _) as [o|].
  - match goal with |- match ?x with _ => _ end = _ => destruct x as [it2|] end; [|discriminate].
    destruct (o_type o); try congruence; first [apply IH; exact E|apply count_values_shift; assumption].
  - destruct (is_option _ _); [apply IH; exact E|]. destruct (find_command _ _ _); [congruence|].
    rewrite Ns, andb_false_r in *. rewrite <- (IH _ _ _ d E). f_equal. lia.
Qed.

Lemma no_multi_parent : forall parents k, Forall (fun l => c_multi (l_command l) = false) parents ->
  multi_parent_loop parents k = None.
Proof.
  intros parents. induction parents as [|l r IH]; intros k F; [reflexivity|]. inversion_clear F as [|? ? F1 F2].
  simpl. rewrite F1. apply IH. exact F2.
Qed.

Lemma no_multi_sibling : forall st t, multi_parent_loop (ps_parents st) 1 = None -> find_sibling_command cfg st t = None.
Proof.
  intros st t E. unfold find_sibling_command, find_first_multi_command_parent. rewrite E. destruct (negb _); reflexivity.
Qed.

Hypothesis Sd : sound top.
Hypothesis Ig : s_ignore_arguments cfg = false.

(** Once the arguments have been counted again. *)
Lemma recounted_walk : forall st0 st n rs, reached cfg top args st n -> ps_command st = ps_command st0 ->
  ps_parents st = ps_parents st0 -> recounted st0 st n ->
  ~ predictable (c_arguments (ps_command st)) -> quiet_from cfg top (ps_calls st) ->
  ps_mode st = ARGUMENTS_AND_OPTIONS -> Forall (fun l => c_multi (l_command l) = false) (ps_parents st) ->
  rest_of_command cfg st rs -> Forall (foreseeable cfg (ps_command st)) rs ->
  distributed_from (c_arguments (ps_command st)) n (received rs).
Proof.
  intros st0 st k rs R Ec Ep Rc Np Q M Fm Rs Fs.
  pose proof (reached_shape p q H args st k R) as Sh.
  assert (Wi : within top (ps_command st)).
  { rewrite (sh_command _ _ _ Sh). eapply chain_within. apply (sh_chain _ _ _ Sh). }
  assert (Pg : in_progress (ps_mode st)) by (left; exact M).
  pose proof (ru_counter _ _ _ _ (reached_running p q args st k H R Pg) Sd) as Ok.
  destruct (Sd _ Wi) as (Pr & Mx & Ac).
  destruct (requires_argument_count (c_arguments (ps_command st))) eqn:Rq.
  2:{ exfalso. apply Np. apply requires_count_false. exact Rq. }
  assert (Cm : c_commands (ps_command st) = []).
  { destruct Ac as [Ac|Ac]; [|exact Ac]. rewrite Ac in Rq. discriminate. }
  unfold recounted in Rc. rewrite <- Ec in Rc. destruct (Rc Rq) as (s0 & n & X1 & X2 & X3 & X4). clear Rc.
  pose proof (no_multi_parent _ 1 Fm) as Nm.
  assert (Nm0 : multi_parent_loop (ps_parents s0) 1 = None) by (rewrite X2, <- Ep; exact Nm).
  assert (Ct : count_tokens cfg (iter_fuel (ps_iter st)) s0 (minima (c_arguments (ps_command st))) (ps_iter st) k = CountOk (n + k)).
  { replace k with (0 + k)%N at 1 by lia. apply count_tokens_shift; [|exact X3]. intros t. apply no_multi_sibling. exact Nm0. }
  set (defs := c_arguments (ps_command st)) in *. set (ac0 := counted_counter defs (k + n) 0).
  assert (Lk : (k <= sum (map fst (make_counters_n defs (k + n))))%N).
  { destruct Ok as (_ & Ok & _). destruct (counted_sum defs (k + n) Pr) as (B1 & B2 & B3).
    assert (Mm : (minima defs <= maxima defs)%N) by (apply minima_le_maxima; intros a Ha; apply Pr in Ha; lia).
    destruct (N.lt_ge_cases (k + n) (minima defs)) as [L|L]; [rewrite (B2 L); lia|].
    destruct (N.le_gt_cases (k + n) (maxima defs)) as [L2|L2].
    - assert (L3 : (k + n < 2 ^ 64)%N) by lia.
      destruct (distribution_proof _ (k + n) Pr L3) as (_ & X & _). destruct (X (conj L L2)) as (_ & S2 & _).
      rewrite S2. lia.
    - unfold make_counters_n. rewrite min_max_proof. remember (2 ^ 64 - 1)%N as QQ eqn:EQ.
      assert (maxima defs <= QQ)%N by lia. rewrite N.min_r by assumption. clear Mx EQ.
      destruct (N.ltb_spec (k + n) (minima defs)); [lia|]. destruct (N.ltb_spec (maxima defs) (k + n)); [|lia].
      destruct (distribute_fair defs (maxima defs - minima defs) Pr ltac:(lia)) as (_ & -> & _). lia. }
  assert (Lo : left_over ac0 = order (make_counters_n defs (k + n))) by (unfold ac0; rewrite counted_left; reflexivity).
  assert (Ll : N.to_nat k <= length (left_over ac0)).
  { rewrite Lo. pose proof (order_length (make_counters_n defs (k + n))). lia. }
  rewrite <- X1 in Ac, Cm, Fs.
  assert (Wi0 : within top (ps_command s0)) by (rewrite X1; exact Wi).
  destruct (walk_from p q H _ Q Sd Ig s0 Wi0 Cm (or_intror Nm0) (k + n)%N st rs Rs args k (N.to_nat k) R (le_n _))
    as (R1 & R2); [|exact Fs|].
  { split.
    - split; [congruence|congruence].
    - exact Pg.
    - rewrite X1. fold defs. rewrite X4. apply counted_as_calls; assumption.
    - rewrite X1. fold defs. exact Ll.
    - unfold ahead. rewrite M, X1. fold defs. exists (iter_fuel (ps_iter st)). rewrite N2Nat.id. etransitivity; [exact Ct|f_equal; lia]. }
  rewrite X1 in R1. fold defs in R1. fold ac0 in R1.
  exists (firstn (N.to_nat k) (left_over ac0)).
  assert (Lb : length (firstn (N.to_nat k) (left_over ac0)) = N.to_nat k) by (apply firstn_length_le; exact Ll).
  split; [rewrite Lb; lia|]. apply (counted_distributed defs (k + n) _ Pr Mx).
  - rewrite app_length, Lb. rewrite R1 at 1.
    rewrite <- Lo. generalize (length (received rs)). generalize (N.to_nat k). generalize (left_over ac0).
    clear. intros l a. revert l. induction a as [|a IH]; intros l b; [reflexivity|].
    destruct l as [|x l]; [simpl; destruct b; reflexivity|]. simpl. f_equal. apply IH.
  - rewrite app_length, Lb. exact R2.
Qed.

Lemma counted_again_proof : forall st n r st' rs, reached cfg top args st n ->
  next cfg st = Ret r st' -> inserting_item cfg (ps_calls st) r ->
  ~ predictable (c_arguments (ps_command st')) -> no_insertions_from cfg top (ps_calls st') ->
  ps_mode st' = ARGUMENTS_AND_OPTIONS -> Forall (fun l => c_multi (l_command l) = false) (ps_parents st') ->
  rest_of_command cfg st' rs -> Forall (foreseeable cfg (ps_command st')) rs ->
  distributed_from (c_arguments (ps_command st')) (count_after st n r st') (received rs).
Proof.
  intros st n r st' rs R E Hi Np Q M Fm Rs Fs.
  pose proof (reached_next _ _ _ _ _ _ _ R E) as R'.
  pose proof (reached_shape p q H args st n R) as Sh. pose proof (sh_wf _ _ _ Sh) as W.
  assert (Wi : within top (ps_command st)).
  { rewrite (sh_command _ _ _ Sh). eapply chain_within. apply (sh_chain _ _ _ Sh). }
  destruct (Sd _ Wi) as (Pr & Mx & _).
  pose proof (next_cases cfg st W) as X. rewrite E in X. cbn [when post] in X.
  destruct X as [t it o Mo Nx Lk Fo (X & _)|t it a ac Rd Lk -> Cm Sb En C|X _|X _|t it o _ _ _ _ _ X].
  - assert (Ne : ir_code r <> IC_ERROR) by (rewrite X; discriminate).
    assert (Pg : in_progress (ps_mode st)) by (left; exact Mo).
    pose proof (ru_counter _ _ _ _ (reached_running p q args st n H R Pg) Sd) as Ok.
    destruct (option_after st n t it o r st' R Mo Nx Lk Fo E Ne) as (_ & it' & s & _ & _ & C & Af).
    destruct Af as [(_ & _ & _ & Af)|(Md & _)]; [|congruence]. specialize (Af M). subst st'.
    unfold inserting_item in Hi. rewrite X in Hi. cbn [ir_code ir_item ir_value] in Hi.
    pose proof (cb2_frame _ _ _ _ _ _ _ _ C) as Fr.
    pose proof (cf_command _ _ Fr) as Fc. pose proof (cf_parents _ _ Fr) as Fp. cbn in Fc, Fp.
    assert (En : count_after st n r s = n) by (unfold count_after; rewrite X, Fp; cbn [ir_code]; rewrite Nat.ltb_irrefl; reflexivity). rewrite En in *.
    apply (recounted_walk (started o (set_iter st it) (ir_value r) it') s n rs R'); try assumption.
    eapply both_recounted; [exact C|exact Pr|exact Mx|exact Ok|exact Hi].
  - assert (Pg : in_progress (ps_mode st)).
    { unfold reads in Rd. destruct (ps_mode st); try contradiction; [left|right]; reflexivity. }
    pose proof (ru_counter _ _ _ _ (reached_running p q args st n H R Pg) Sd) as Ok.
    pose proof (counter_ok_next _ _ _ Ok) as Ok'. rewrite En in Ok'. destruct Ok' as (_ & Ok').
    unfold inserting_item in Hi. cbn [ir_code ir_item ir_value] in Hi.
    pose proof (cb2_frame _ _ _ _ _ _ _ _ C) as Fr.
    pose proof (cf_command _ _ Fr) as Fc. pose proof (cf_parents _ _ Fr) as Fp. cbn in Fc, Fp.
    assert (Ec : count_after st n (mk_ir IC_ARGUMENT (ItArgument a) t) st' = (n + 1)%N) by reflexivity.
    rewrite Ec in *.
    apply (recounted_walk (arg_started a (set_iter st it) t ac) st' (n + 1)%N rs R'); try assumption.
    eapply both_recounted; [exact C|exact Pr|exact Mx|exact Ok'|exact Hi].
  - unfold inserting_item in Hi. destruct X as [X|[X|X]]; rewrite X in Hi; contradiction.
  - unfold inserting_item in Hi. rewrite X in Hi. contradiction.
  - unfold inserting_item in Hi. rewrite X in Hi. contradiction.
Qed.
End Insert.

(* ------------------------------------------------------------------------ *)
(** ** For examples *)

Fixpoint nexts_count (cfg : settings) (n : nat) (st : pstate) (k : N) : N :=
  match n with
  | O => k
  | S n' => match next cfg st with
            | Ret r st' => nexts_count cfg n' st' (count_after st k r st')
            | _ => k
            end
  end.

Lemma nexts_count_reached : forall cfg top args n st k, reached cfg top args st k ->
  reached cfg top args (nexts cfg n st) (nexts_count cfg n st k).
Proof.
  intros cfg top args. induction n as [|n IH]; intros st k R; simpl; [exact R|].
  destruct (next _ st) as [r s|? ?|? ?| |] eqn:E; [|exact R..].
  eapply IH. eapply reached_next; eassumption.
Qed.

Lemma after_reached_at : forall d args n m,
  match start_counter (d_settings (completed d))
          (initial_state (d_settings (completed d)) (d_command (completed d)) args) with
  | Ret _ st => Some (nexts_count (d_settings (completed d)) n st 0)
  | _ => None
  end = Some m ->
  reached (d_settings (completed d)) (d_command (completed d)) args (after d args n) m.
Proof.
  intros d args n m E. unfold after.
  destruct (start_counter _ _) as [[] st|? ?|? ?| |] eqn:S0; try discriminate. injection E as <-.
  apply nexts_count_reached. constructor. exact S0.
Qed.

Ltac solve_reached_at := apply after_reached_at; vm_compute; reflexivity.

(** Only the first call of a callback inserts arguments. *)
Fixpoint inserts_once (fuel : nat) (c : cmd_data) : Prop :=
  match fuel with
  | O => False
  | S n =>
      (forall o, In o (c_options c) -> o_callback o = None \/ exists new, o_callback o = Some (cb_insert_once new)) /\
      (forall a, In a (c_arguments c) -> a_callback a = None \/ exists new, a_callback a = Some (cb_insert_once new)) /\
      (forall d, In d (c_commands c) -> inserts_once n d)
  end.

Lemma inserts_once_within : forall top c, within top c -> forall n, inserts_once n top -> exists m, inserts_once m c.
Proof.
  intros top c W. induction W as [|c d W IH I]; intros n E; [eauto|].
  destruct (IH n E) as ([|m] & Em); [destruct Em|]. exists m. apply Em. exact I.
Qed.

Lemma inserts_once_sound : forall n cfg top, inserts_once n top ->
  s_option_callback cfg = None -> s_argument_callback cfg = None -> no_insertions_from cfg top 1.
Proof.
  intros n cfg top E C1 C2 f Hf m v vs L.
  assert (G : forall new, eff_new (cb_insert_once new m v vs) = []) by (intros new; destruct m; [lia|reflexivity]).
  inversion Hf as [? ? ? ? ? X|? ? ? ? ? X|c o ? W I X|c a ? W I X]; subst;
    [unfold option_cb in X; rewrite C1 in X; discriminate
    |unfold argument_cb in X; rewrite C2 in X; discriminate| |];
    (destruct (inserts_once_within _ _ W n E) as ([|k] & Em); [destruct Em|destruct Em as (A & B & _)]).
  - destruct (A o I) as [Y|(new & Y)]; [congruence|]. rewrite Y in X. injection X as <-. apply G.
  - destruct (B a I) as [Y|(new & Y)]; [congruence|]. rewrite Y in X. injection X as <-. apply G.
Qed.
