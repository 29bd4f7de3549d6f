(** Proofs about what callbacks do. *)
From Verif Require Import Base BaseProofs MStrings MOptIter MData MCounter MValues MParser
  SStrings STok SIndex SDef SValues SCounter SHelp SParser SStep SCallback
  StrProofs TokProofs IndexProofs FinishProofs ValuesProofs CounterProofs CounterInv
  MonadProofs FrameProofs InvProofs NextProofs ParseProofs StepProofs StepProofs2 EquivProofs HelpApi.
Open Scope nat_scope.

Definition thrown_by (p : problem) : exn :=
  match p with Reported _ => EParseError | NoSuchValue name => EUnknownValue name | Thrown => ECallback end.

Lemma bind_second : forall {A B C D} (f : M A) (g : M B) (h : B -> M C) (k : C -> M D) st,
  bind f (fun _ => bind (bind g h) k) st = bind f (fun _ => bind g (fun x => bind (h x) k)) st.
Proof.
  intros. unfold bind. destruct (f st) as [a s| | | |]; [|reflexivity..].
  destruct (g s); reflexivity.
Qed.

Section Cfg.
Variable cfg : settings.

Definition ending {A} (p : problem) (st : pstate) : outcome A :=
  match p with
  | Reported _ => if s_auto_exit cfg then Exits (s_error_exit cfg) st else Throws EParseError st
  | p => Throws (thrown_by p) st
  end.

Definition add_events (st : pstate) (evs : list event) : pstate :=
  mk_ps (ps_command st) (ps_cur st) (ps_parents st) (ps_iter st) (ps_counter st) (ps_mode st)
    (ps_calls st) (ps_events st ++ evs).

Lemma add_events_nil : forall st, add_events st [] = st.
Proof. intros []. unfold add_events. simpl. rewrite app_nil_r. reflexivity. Qed.

Lemma bind_ending : forall A B p st (m : M A) (f : A -> M B), m st = ending p st ->
  bind m f st = ending p st.
Proof.
  intros A B p st m f E. unfold bind. rewrite E. unfold ending. destruct p; try reflexivity.
  destruct (s_auto_exit cfg); reflexivity.
Qed.
Lemma bind_ending_at : forall A B p st st' (m : M A) (f : A -> M B), m st = ending p st' ->
  bind m f st = ending p st'.
Proof.
  intros A B p st st' m f E. unfold bind. rewrite E. unfold ending. destruct p; try reflexivity.
  destruct (s_auto_exit cfg); reflexivity.
Qed.

Lemma resolve_means : forall k st, let c := l_command (ps_cur st) in
  (exists id b, means c k id b /\ resolve_key k st = Ret (id, b) st) \/
  (exists name, k = ByName name /\ (forall id, ~ carries c name id) /\
     resolve_key k st = Throws (EUnknownValue name) st).
Proof.
  intros [name|vid aid] st c; unfold resolve_key.
  - destruct (get_value_id (l_command (ps_cur st)) name) as [v|e] eqn:E.
    + left. exists v, 0%N. split; [|reflexivity]. apply get_value_id_least in E. destruct E as (E & L).
      split; [exact E|]. split; [exact L|reflexivity].
    + right. exists name. split; [reflexivity|]. split.
      * intros id Ca. destruct (least_exists _ _ _ Ca) as (w & Hw). apply get_value_id_least in Hw. unfold c in Hw. rewrite E in Hw. discriminate Hw.
      * revert E. unfold get_value_id. destruct (nth_error _ _) as [[[n v] a]|]; [destruct (str_eqb n name)|];
          intros E; try discriminate; injection E as <-; reflexivity.
  - left. exists vid, aid. split; [split; reflexivity|reflexivity].
Qed.

Lemma user_error_eq : forall msg st, user_error cfg msg st =
  ending (Reported msg) (add_events st [EvError (l_command (ps_cur st)) (MsgUser msg)]).
Proof.
  intros msg st. unfold user_error, ending. rewrite bind_gets, bind_emit.
  destruct (s_auto_exit cfg); reflexivity.
Qed.

Lemma value_op_exact : forall op st, in_order (l_values (ps_cur st)) ->
  let c := l_command (ps_cur st) in
  (exists ch, operation c op ch /\
     run_value_op cfg op st = Ret tt (set_values st (apply_change (l_values (ps_cur st)) ch))) \/
  (exists p, failure c op p /\
     run_value_op cfg op st = ending p (add_events st (problem_events c p))).
Proof.
  intros [k v|k v|k|msg|msg aid] st O c; cbn [run_value_op].
  1-3: unfold bind; destruct (resolve_means k st) as [(id & b & Me & ->)|(name & -> & N & ->)].
  1: left; exists (Assigned id v b); split; [constructor; exact Me|reflexivity].
  2: left; exists (Appended id v b); split; [constructor; exact Me|reflexivity].
  3: left; exists (Cleared id); split; [econstructor; exact Me|reflexivity].
  1-3: right; exists (NoSuchValue name); split; [apply fail_name; [reflexivity|exact N]|];
    cbn [problem_events]; rewrite add_events_nil; reflexivity.
  - right. exists (Reported msg). split; [constructor|]. apply user_error_eq.
  - right. rewrite bind_gets, user_error_eq. rewrite get_name_eq. eexists. split; [apply fail_error_at|].
    cbn [problem_events]. fold c. destruct (item_name c aid); reflexivity.
Qed.

Lemma value_ops_exact : forall ops st, in_order (l_values (ps_cur st)) ->
  let c := l_command (ps_cur st) in
  exists vs' p, performs c (l_values (ps_cur st)) ops vs' p /\ in_order vs' /\
    run_value_ops cfg ops st =
      match p with
      | None => Ret tt (set_values st vs')
      | Some p => ending p (add_events (set_values st vs') (problem_events c p))
      end.
Proof.
  induction ops as [|op ops IH]; intros st O c; cbn [run_value_ops].
  { exists (l_values (ps_cur st)), None. split; [constructor|]. split; [exact O|].
    rewrite set_values_same. reflexivity. }
  destruct (value_op_exact op st O) as [(ch & Op & E)|(p & F & E)].
  - pose proof (apply_change_in_order (l_values (ps_cur st)) ch O) as O'.
    destruct (IH (set_values st (apply_change (l_values (ps_cur st)) ch)) O') as (vs' & p & P & O2 & E2).
    exists vs', p. split; [eapply performs_one; [exact Op|apply (changed_one (Some ch)); exact O|exact P]|].
    split; [exact O2|]. unfold bind at 1. rewrite E, E2. rewrite set_values_set. reflexivity.
  - exists (l_values (ps_cur st)), (Some p). split; [apply performs_not; exact F|]. split; [exact O|].
    rewrite set_values_same. apply bind_ending_at. exact E.
Qed.

(** The state after a callback. *)
Definition cb_state (st : pstate) (vs : store) (evs : list event) (k : nat) (it : opt_iter)
  (ac : arg_counter) : pstate :=
  mk_ps (ps_command st) (set_l_values (ps_cur st) vs) (ps_parents st) it ac (ps_mode st)
    (ps_calls st + k) (ps_events st ++ evs).

Lemma callback_exact : forall cb ev v st, in_order (l_values (ps_cur st)) -> wf_iter (ps_iter st) ->
  let c := l_command (ps_cur st) in
  exists vs' p, acts c cb (ps_calls st) v (l_values (ps_cur st)) vs' p /\ in_order vs' /\
    match p with
    | None => exists it ac, wf_iter it /\
        run_callback cfg cb ev v st =
        Ret tt (cb_state st vs' (called cb ev (ps_calls st) v (l_values (ps_cur st))) (calls_of cb) it ac)
    | Some p => run_callback cfg cb ev v st =
        ending p (cb_state st vs' (called cb ev (ps_calls st) v (l_values (ps_cur st)) ++ problem_events c p)
                    (calls_of cb) (ps_iter st) (ps_counter st))
    end.
Proof.
  intros [f|] ev v st O W c.
  2:{ exists (l_values (ps_cur st)), None. split; [split; reflexivity|]. split; [exact O|].
      exists (ps_iter st), (ps_counter st). split; [exact W|]. cbn [called calls_of]. unfold cb_state.
      rewrite app_nil_r, Nat.add_0_r, level_same. destruct st; reflexivity. }
  remember (run_callback cfg (Some f) ev v st) as out eqn:Eo. unfold run_callback in Eo.
  rewrite bind_emit, bind_gets, bind_modify in Eo. unfold bind at 1 in Eo. rewrite emit_texts_eq, fold_events in Eo.
  cbn [called acts calls_of].
  set (eff := f (ps_calls (add_event st ev)) v (l_values (ps_cur (add_event st ev)))) in *.
  change (f (ps_calls st) v (l_values (ps_cur st))) with eff.
  remember (mk_ps _ _ _ _ _ _ _ _) as st1 eqn:E1.
  assert (Vs : ps_cur st1 = ps_cur st) by (subst st1; reflexivity).
  destruct (value_ops_exact (eff_ops eff) st1) as (vs' & p & P & O' & E); [rewrite Vs; exact O|].
  rewrite Vs in P. destruct p as [p|].
  { exists vs', (Some p). split; [exists (Some p); split; [exact P|reflexivity]|]. split; [exact O'|].
    rewrite (bind_ending_at _ _ p _ _ _ _ E) in Eo. rewrite Eo. f_equal. rewrite Vs. subst st1. unfold add_events, set_values, cb_state. simpl.
    rewrite <- !app_assoc, Nat.add_1_r. reflexivity. }
  unfold bind at 1 in Eo. rewrite E in Eo. destruct (eff_throws eff) eqn:Et.
  { exists vs', (Some Thrown). split; [exists None; split; [exact P|reflexivity]|]. split; [exact O'|].
    rewrite bind_throw in Eo. rewrite Eo. cbn [problem_events ending thrown_by]. f_equal. subst st1. unfold set_values, cb_state. simpl.
    rewrite app_nil_r, <- !app_assoc, Nat.add_1_r. reflexivity. }
  exists vs', None. split; [exists None; split; [exact P|reflexivity]|]. split; [exact O'|].
  rewrite bind_ret in Eo.
  assert (W1 : wf_iter (ps_iter (set_values st1 vs'))) by (subst st1; exact W).
  pose proof (update_arguments_post cfg (eff_new eff) _ W1) as U. rewrite <- Eo in U.
  destruct out as [[] s|? ?|? ?| |]; try contradiction.
  destruct U as (Fr & C & K & V & _). exists (ps_iter s), (ps_counter s).
  split; [apply (cf_wf _ _ Fr), W1|]. f_equal.
  pose proof (cf_command _ _ Fr) as C1. pose proof (cf_parents _ _ Fr) as C2. pose proof (cf_mode _ _ Fr) as C3.
  clear Eo Fr E P. destruct s as [s1 s2 s3 s4 s5 s6 s7 s8]. simpl in C, K, V, C1, C2, C3. subst. unfold cb_state. simpl.
  rewrite <- !app_assoc, Nat.add_1_r. reflexivity.
Qed.

(** ** Two callbacks *)

Lemma became_cb : forall st vs evs k it ac, became st (cb_state st vs evs k it ac) evs k vs.
Proof. intros. constructor; reflexivity. Qed.

Lemma ends_ending : forall p st, ends_with cfg p (ending p st) st.
Proof. intros [t|n|] st; simpl; [destruct (s_auto_exit cfg)|..]; reflexivity. Qed.

(** [s] is [st] after the item itself: only the values, the iterator and the counter
    differ. *)
Lemma two_act : forall st s cb1 cb2 e1 e2 v (rest : M iter_result)
  (goes : outcome iter_result -> list event -> nat -> store -> Prop),
  ps_command s = ps_command st -> l_command (ps_cur s) = ps_command st ->
  ps_cur s = set_l_values (ps_cur st) (l_values (ps_cur s)) -> ps_parents s = ps_parents st ->
  ps_mode s = ps_mode st -> ps_calls s = ps_calls st -> ps_events s = ps_events st ->
  in_order (l_values (ps_cur s)) -> wf_iter (ps_iter s) ->
  (forall evs k vs it ac, wf_iter it -> goes (rest (cb_state st vs evs k it ac)) evs k vs) ->
  let o := (run_callback cfg cb1 e1 v ;;; run_callback cfg cb2 e2 v ;;; rest) s in
  both_act cfg st cb1 cb2 e1 e2 v (l_values (ps_cur s)) o (goes o).
Proof.
  intros st s cb1 cb2 e1 e2 v rest goes A1 A2 A3 A4 A5 A6 A7 O W G o.
  assert (Same : forall vs evs k it ac, cb_state s vs evs k it ac = cb_state st vs evs k it ac).
  { intros. unfold cb_state. rewrite A1, A4, A5, A6, A7, A3. reflexivity. }
  destruct (callback_exact cb1 e1 v s O W) as (vs2 & p1 & P1 & O2 & E1). rewrite A2, A6 in P1.
  rewrite A2, A6 in E1.
  exists vs2, p1. split; [exact P1|]. destruct p1 as [p|].
  { rewrite Same in E1. eexists.
    split; [unfold o; rewrite (bind_ending_at _ _ p _ _ _ _ E1); apply ends_ending|].
    split; [split; [|split]; reflexivity|]. split; [reflexivity|apply became_cb]. }
  destruct E1 as (it & ac & W2 & E1).
  set (s2 := cb_state s vs2 _ _ it ac) in E1.
  destruct (callback_exact cb2 e2 v s2 O2 W2) as (vs3 & p2 & P2 & O3 & E2).
  change (l_command (ps_cur s2)) with (l_command (ps_cur s)) in P2, E2. rewrite A2 in P2, E2.
  change (ps_calls s2) with (ps_calls s + calls_of cb1) in P2, E2. rewrite A6 in P2, E2.
  change (l_values (ps_cur s2)) with vs2 in P2, E2.
  exists vs3, p2. split; [exact P2|].
  assert (Twice : forall vs evs k it0 ac0, cb_state s2 vs evs k it0 ac0 =
     cb_state st vs (called cb1 e1 (ps_calls st) v (l_values (ps_cur s)) ++ evs) (calls_of cb1 + k) it0 ac0).
  { intros. unfold s2. rewrite Same. unfold cb_state. simpl. rewrite <- app_assoc, Nat.add_assoc. reflexivity. }
  destruct p2 as [p|].
  { rewrite Twice in E2. eexists.
    split; [unfold o, bind at 1; rewrite E1; rewrite (bind_ending_at _ _ p _ _ _ _ E2); apply ends_ending|].
    split; [split; [|split]; reflexivity|]. split; [reflexivity|apply became_cb]. }
  destruct E2 as (it2 & ac2 & W3 & E2). rewrite Twice in E2.
  assert (Eo : o = rest (cb_state st vs3 (called cb1 e1 (ps_calls st) v (l_values (ps_cur s)) ++
     called cb2 e2 (ps_calls st + calls_of cb1) v vs2) (calls_of cb1 + calls_of cb2) it2 ac2)).
  { unfold o, bind at 1. rewrite E1. unfold bind at 1. rewrite E2. reflexivity. }
  rewrite Eo. apply G. exact W3.
Qed.
End Cfg.

(** ** Options and arguments *)

Ltac run_out := repeat first [rewrite bind_assoc|rewrite bind_gets|rewrite bind_emit|rewrite bind_modify|rewrite bind_ret].

Lemma multi_none : forall ls k, multi_parent_loop ls k = None -> forall l, In l ls -> c_multi (l_command l) = false.
Proof.
  induction ls as [|a ls IH]; intros k E l I; [destruct I|]. simpl in E. destruct (c_multi (l_command a)) eqn:M; [discriminate E|].
  destruct I as [<-|I]; [exact M|exact (IH _ E l I)].
Qed.
Lemma first_multi_at : forall before l rest j, (forall b, In b before -> c_multi (l_command b) = false) ->
  c_multi (l_command l) = true -> multi_parent_loop (before ++ l :: rest) 1 = Some j -> j = S (length before).
Proof.
  intros before l rest j. cut (forall k, (forall b, In b before -> c_multi (l_command b) = false) ->
    c_multi (l_command l) = true -> multi_parent_loop (before ++ l :: rest) k = Some j -> j = k + length before).
  { intros X N M E. rewrite (X 1 N M E). reflexivity. }
  induction before as [|b before IH]; intros k N M E; simpl in E.
  - rewrite M in E. injection E as <-. simpl. lia.
  - rewrite (N b (or_introl eq_refl)) in E. rewrite (IH (S k)); [simpl; lia|intros x Ix; apply N; right; exact Ix|exact M|exact E].
Qed.
Lemma pop_closes : forall j c ps before l outer, j = S (length before) ->
  ps = map (set_result RC_SUCCESS) (before ++ l :: outer) ->
  closes c (before ++ [l]) (fst (pop_levels j c ps)) /\
  l_command (fst (pop_levels j c ps)) = l_command l /\ length (snd (pop_levels j c ps)) = length outer.
Proof.
  intros j c ps before l outer -> ->. revert c. induction before as [|b before IH]; intros c.
  - simpl. split; [apply (closes_next c l (add_sub (set_result RC_SUCCESS l) c)); try reflexivity; apply closes_done|].
    split; [reflexivity|apply map_length].
  - simpl app. cbn [map length pop_levels]. destruct (IH (add_sub (set_result RC_SUCCESS b) c)) as (P1 & P2 & P3).
    split; [apply (closes_next c b (add_sub (set_result RC_SUCCESS b) c)); try reflexivity; exact P1|]. split; [exact P2|exact P3].
Qed.

Section Run.
Variables (p q : parser_data).
Hypothesis H : finish_parser p = Val q.
Variable args : list str.
Let cfg := d_settings q.
Let top := d_command q.

Lemma option_acts_proof : forall st n t it o v it', reached cfg top args st n ->
  ps_mode st = ARGUMENTS_AND_OPTIONS -> it_next (ps_iter st) = Ok (Some t, it) ->
  looks_like_option (s_style cfg) t -> dependable cfg (ps_command st) t ->
  selects (s_case_insensitive cfg) (s_abbreviations cfg) (c_options (ps_command st)) t o ->
  reads_value o it v it' ->
  exists vs1, changed (option_change o v) (l_values (ps_cur st)) vs1 /\
    both_act cfg st (o_callback o) (option_cb cfg o)
      (EvOptionCallback false (o_argument_id o) v) (EvOptionCallback true (o_argument_id o) v)
      v vs1 (next cfg st) (option_goes_on cfg st o v (next cfg st)).
Proof.
  intros st n t it o v it' R M N L D Se Rv.
  pose proof (reached_shape p q H args st n R) as Sh. pose proof (sh_wf _ _ _ Sh) as W.
  assert (W' : wf_iter it).
  { assert (Rd : reads st (Some t) it) by (unfold reads; rewrite M; exact N).
    apply (reads_wf _ _ _ W Rd). }
  pose proof (proj2 (shape_lookup p q H st t o Sh D) Se) as F.
  pose proof (shape_in_order q st Sh) as O.
  exists (op_values o v (l_values (ps_cur st))). split; [apply changed_op; exact O|].
  remember (next cfg st) as out eqn:Eo.
  rewrite (next_option_eq cfg st t it M N L) in Eo. unfold process_option in Eo. rewrite bind_gets in Eo.
  change (ps_command (set_iter st it)) with (ps_command st) in Eo.
  fold cfg in F. rewrite F in Eo. unfold process_known_option in Eo. rewrite bind_assoc in Eo.
  unfold bind at 1 in Eo. rewrite (apply_operation_reads cfg o t (set_iter st it) v it' W' Rv) in Eo. cbv beta iota in Eo.
  rewrite bind_assoc in Eo. set (s := set_values _ _) in Eo.
  assert (Wi : wf_iter it').
  { destruct Rv as [(_ & E)|(_ & _ & ->)]; [|exact W'].
    destruct (next_value_wf _ W') as (x & y & Ex & Wx & _). rewrite E in Ex. injection Ex as _ <-. exact Wx. }
  change (op_values o v (l_values (ps_cur st))) with (l_values (ps_cur s)).
  rewrite bind_second in Eo. rewrite Eo.
  match type of Eo with _ = (_ ;;; _ ;;; ?rest) s =>
    apply (two_act cfg st s (o_callback o) (option_cb cfg o)
      (EvOptionCallback false (o_argument_id o) v) (EvOptionCallback true (o_argument_id o) v) v rest
      (option_goes_on cfg st o v)); try reflexivity; try exact Wi
  end.
  { symmetry. apply (sh_command _ _ _ Sh). }
  { unfold s. cbn. unfold op_values. destruct (option_change o v); [apply apply_change_in_order|]; exact O. }
  clear Eo.
  intros evs k vs it2 ac W2. unfold apply_type, option_goes_on.
  destruct (o_type o) eqn:Ty; run_out; try (rewrite !app_nil_r).
  5:{ intros r' st' Er. unfold bind at 1 in Er.
      match type of Er with context [check_counts cfg ?x] => pose proof (check_counts_only cfg x W2) as Cc end.
      destruct (check_counts cfg _) as [b s2| | | |]; try discriminate Er. cbn [when post] in Cc.
      destruct b; cbn [negb] in Er; [|left; injection Er as <- _; reflexivity].
      right. subst s2. rewrite bind_gets in Er.
      match type of Er with context [find_first_multi_command_parent ?x] =>
        destruct (find_first_multi_command_parent x) as [j|] eqn:Fm;
        [|destruct (copy_remaining_eq x) as (us & it3 & _ & _ & _ & E); [exact W2|]] end.
      - unfold find_first_multi_command_parent in Fm. cbn [ps_parents after_success set_all_results set_parents set_cur set_mode cb_state] in Fm.
        unfold reactivate in Er. rewrite bind_modify in Er. injection Er as <- <-.
        split; [reflexivity|].
        match goal with |- context [pop_levels j ?c ?ps] => pose proof (pop_closes j c ps) as Pc; destruct (pop_levels j c ps) as (cur' & ps') eqn:Ep end.
        cbn [fst snd] in Pc. split; [reflexivity|]. split; [reflexivity|]. split.
        + intros Nm. exfalso. apply multi_parent_loop_spec in Fm. destruct Fm as (l & _ & Nj & Ml).
          apply nth_error_In in Nj. apply in_map_iff in Nj. destruct Nj as (l0 & <- & Il).
          specialize (Nm l0 Il). cbn in Ml. congruence.
        + intros between l outer Eps Nb Ml. cbn in Eps.
          assert (Ej : j = S (length between)).
          { revert Fm. rewrite Eps. rewrite map_app. cbn [map]. rewrite <- (map_length (set_result RC_SUCCESS) between).
            apply first_multi_at; [|exact Ml].
            intros x Ix. apply in_map_iff in Ix. destruct Ix as (x0 & <- & Ix). exact (Nb x0 Ix). }
          match type of Ep with pop_levels _ ?c _ = _ => exists c end.
          do 6 (split; [reflexivity || (symmetry; apply (sh_command _ _ _ Sh))|]).
          destruct (Pc (between) l outer) as (P1 & P2 & P3); [exact Ej|cbn; exact (f_equal (map (set_result RC_SUCCESS)) Eps)|].
          split; [exact P1|]. split; [exact P2|]. split; [exact P3|reflexivity].
      - assert (Nj : forall l, In l (ps_parents st) -> c_multi (l_command l) = false).
        { unfold find_first_multi_command_parent in Fm. intros l Il.
          apply (multi_none _ _ Fm (set_result RC_SUCCESS l)). cbn. apply in_map. exact Il. }
        unfold bind at 1 in Er. rewrite E in Er. injection Er as <- <-. split; [reflexivity|]. split; [reflexivity|].
        split; [reflexivity|]. split; [intros _; repeat split|].
        intros between l outer Eps _ Ml. exfalso. rewrite (Nj l) in Ml; [discriminate Ml|]. rewrite Eps. apply in_or_app. right. left. reflexivity. }
  all: try (eexists; split; [reflexivity|]; split; [constructor; reflexivity|]; split; [repeat split|reflexivity]).
  all: destruct (s_auto_exit cfg).
  all: match goal with
       | |- context [bind copy_remaining _ ?x] =>
           destruct (copy_remaining_eq x) as (us & it3 & _ & _ & _ & E); [exact W2|];
           eexists; exists us; split; [unfold bind at 1; rewrite E; reflexivity|]
       | _ => eexists; exists []; split; [reflexivity|]
       end;
       (split; [constructor; try reflexivity; cbn; rewrite ?app_assoc; reflexivity|]);
       cbn; rewrite ?app_nil_r; repeat split.
Qed.

Lemma argument_acts_proof : forall st n t it, reached cfg top args st n ->
  reads st (Some t) it -> (ps_mode st = ARGUMENTS_ONLY \/ ~ looks_like_option (s_style cfg) t) ->
  c_commands (ps_command st) = [] -> no_sibling cfg st t ->
  match next cfg st with
  | Ret r _ => ir_code r = IC_UNKNOWN \/ ir_code r = IC_ERROR
  | Exits c _ => s_auto_exit cfg = true
  | _ => False
  end \/
  exists a vs1, In a (c_arguments (ps_command st)) /\
    changed (argument_change a t) (l_values (ps_cur st)) vs1 /\
    both_act cfg st (a_callback a) (argument_cb cfg a)
      (EvArgumentCallback false (a_argument_id a) t) (EvArgumentCallback true (a_argument_id a) t)
      t vs1 (next cfg st) (fun evs k vs => exists st',
        next cfg st = Ret (mk_ir IC_ARGUMENT (ItArgument a) t) st' /\
        became st st' evs k vs /\ same_end st st' /\ ps_mode st' = ps_mode st).
Proof.
  intros st n t it R Rd L Cm Ns.
  pose proof (reached_shape p q H args st n R) as Sh. pose proof (sh_wf _ _ _ Sh) as W.
  destruct (reads_wf _ _ _ W Rd) as (W' & _).
  pose proof (shape_in_order q st Sh) as O.
  assert (E : next cfg st = process_argument cfg t (set_iter st it)).
  { rewrite (next_eq cfg _ _ _ Rd). unfold process_token. rewrite bind_gets.
    change (ps_command (set_iter st it)) with (ps_command st). rewrite Cm. cbn [is_empty].
    assert (X : match ps_mode st with ARGUMENTS_AND_OPTIONS => true | _ => false end
                && is_option t (s_style cfg) = false).
    { destruct L as [L|L]; [rewrite L; reflexivity|]. rewrite <- is_option_iff in L.
      destruct (is_option t (s_style cfg)); [contradiction L; reflexivity|apply andb_false_r]. }
    rewrite X. reflexivity. }
  unfold process_argument in E. rewrite bind_gets in E.
  pose proof (no_sibling_none q st t it Ns) as Sn. fold cfg in Sn. rewrite Sn in E.
  unfold bind at 1, m_next_argument in E. cbn [ps_counter set_iter] in E.
  destruct (next_argument (ps_counter st)) as ([a|], ac) eqn:En.
  - right. rewrite bind_modify in E. rewrite E. clear E. set (s := set_values _ _).
    exists a, (l_values (ps_cur s)). split; [|split].
    + apply (counter_from_next _ _ (sh_from _ _ _ Sh)). rewrite En. reflexivity.
    + apply (changed_one (argument_change a t)). exact O.
    + apply (two_act cfg st s (a_callback a) (argument_cb cfg a)
        (EvArgumentCallback false (a_argument_id a) t) (EvArgumentCallback true (a_argument_id a) t) t
        (ret (mk_ir IC_ARGUMENT (ItArgument a) t))
        (fun out evs k vs => exists st', out = Ret (mk_ir IC_ARGUMENT (ItArgument a) t) st' /\
           became st st' evs k vs /\ same_end st st' /\ ps_mode st' = ps_mode st)); try reflexivity; try exact W'.
      * symmetry. apply (sh_command _ _ _ Sh).
      * apply append_in_order. exact O.
      * intros evs k vs it2 ac2 _. eexists. split; [reflexivity|]. split; [apply became_cb|]. split; [repeat split|reflexivity].
  - left. rewrite E. destruct (s_ignore_arguments cfg).
    + rewrite bind_modify. unfold bind at 1, m_current. cbn [ps_iter set_iter set_counter set_cur].
      assert (Ne : it_args it <> []).
      { unfold reads in Rd. destruct (ps_mode st); try contradiction.
        - eapply next_head; exact Rd.
        - eapply next_value_head; exact Rd. }
      destruct (current_some it Ne) as (cur & ->). left. reflexivity.
    + pose proof (error_eq cfg (MsgTooManyArguments t) (set_counter (set_iter st it) ac) W') as Ee.
      destruct (s_auto_exit cfg).
      * unfold bind. rewrite Ee. reflexivity.
      * destruct Ee as (l & it2 & _ & _ & _ & Ee). unfold bind. rewrite Ee. right. reflexivity.
Qed.
End Run.
