(** Proofs of the properties C35, C36 and C42. *)
From Verif Require Import Base BaseProofs MStrings MOptIter MData MCounter MValues MParser
  SStrings STok SIndex SDef SValues SCounter SParser SStep
  StrProofs TokProofs IndexProofs FinishProofs ValuesProofs CounterProofs CounterInv
  MonadProofs FrameProofs InvProofs NextProofs ParseProofs StepProofs.
Open Scope nat_scope.

Lemma next_head : forall it t it', it_next it = Ok (Some t, it') -> it_args it' <> [].
Proof.
  intros it t it' E. unfold it_next in E. destruct (it_kind it) as [|pr].
  - assert (F : forall l, std_first l = Ok (Some t, it') -> it_args it' <> [])
      by (intros l El; apply (std_first_meas l t it' El)).
    unfold std_next in E. destruct (pos_nonzero (it_pos it)); [|eapply F; exact E].
    destruct (it_args it) as [|a r]; [discriminate|]. destruct (it_pos it) as [k|]; [|eapply F; exact E].
    destruct (k <? length a); [|eapply F; exact E].
    destruct (nth_error a 1); [|discriminate]. destruct (nth_error a k); [|discriminate].
    destruct (negb _); [|eapply F; exact E]. injection E as <- <-. discriminate.
  - assert (F : forall l, pre_first pr l = Ok (Some t, it') -> it_args it' <> [])
      by (intros l El; apply (pre_first_meas pr l t it' El)).
    unfold pre_next in E. destruct (pos_nonzero (it_pos it)); [|eapply F; exact E].
    destruct (it_args it); [discriminate|]. eapply F; exact E.
Qed.

Lemma next_value_head : forall it t it', it_next_value it = Ok (Some t, it') -> it_args it' <> [].
Proof.
  intros it t it' E. unfold it_next_value in E. destruct (it_kind it) as [|pr].
  - unfold std_next_value in E. destruct (it_args it) as [|a r]; [discriminate|].
    destruct (it_pos it) as [k|].
    + destruct (k <=? length a); [|discriminate]. injection E as <- <-. discriminate.
    + destruct r; [discriminate|]. injection E as <- <-. discriminate.
  - unfold pre_next_value in E. destruct (it_args it) as [|a r]; [discriminate|].
    destruct (it_pos it) as [k|].
    + destruct (k <=? length a); [|discriminate]. injection E as <- <-. discriminate.
    + destruct r; [discriminate|]. injection E as <- <-. discriminate.
Qed.

Lemma current_some : forall it, it_args it <> [] -> exists cur, it_current it = Some cur.
Proof. intros it N. unfold it_current. destruct (it_args it); [contradiction|]. simpl. eauto. Qed.

(** The first token of an argument is the beginning of the argument. *)
Lemma std_first_begins : forall l t it, std_first l = Ok (Some t, it) ->
  exists cur, it_current it = Some cur /\ begins_with cur t.
Proof.
  intros [|a r] t it E; unfold std_first in E; [discriminate|].
  assert (G : forall n p, exists cur, it_current (mk_iter KStandard (a :: r) p) = Some cur /\
            begins_with cur (firstn n a)).
  { intros n p. exists a. split; [reflexivity|]. exists (skipn n a). symmetry. apply firstn_skipn. }
  assert (G0 : forall p, exists cur, it_current (mk_iter KStandard (a :: r) p) = Some cur /\
            begins_with cur a).
  { intros p. exists a. split; [reflexivity|]. exists []. symmetry. apply app_nil_r. }
  destruct (length a <=? 2); [injection E as <- <-; apply G0|].
  destruct (nth_error a 0); [|discriminate]. destruct (nth_error a 1); [|discriminate].
  destruct (negb _); [injection E as <- <-; apply G0|].
  destruct (negb _); [injection E as <- <-; exact (G 2 _)|].
  destruct (find_char c_eq a) as [p|]; injection E as <- <-; [exact (G (S p) _)|apply G0].
Qed.

Lemma pre_first_begins : forall c l t it, pre_first c l = Ok (Some t, it) ->
  exists cur, it_current it = Some cur /\ begins_with cur t.
Proof.
  intros c [|a r] t it E; unfold pre_first in E; [discriminate|].
  assert (G : forall n p, exists cur, it_current (mk_iter (KPrefix c) (a :: r) p) = Some cur /\
            begins_with cur (firstn n a)).
  { intros n p. exists a. split; [reflexivity|]. exists (skipn n a). symmetry. apply firstn_skipn. }
  assert (G0 : forall p, exists cur, it_current (mk_iter (KPrefix c) (a :: r) p) = Some cur /\
            begins_with cur a).
  { intros p. exists a. split; [reflexivity|]. exists []. symmetry. apply app_nil_r. }
  destruct (length a <=? 2); [injection E as <- <-; apply G0|].
  destruct (nth_error a 0); [|discriminate].
  destruct (negb _); [injection E as <- <-; apply G0|].
  destruct (find_char c_eq a) as [p|]; injection E as <- <-; [exact (G (S p) _)|apply G0].
Qed.

Lemma next_begins : forall it t it', it_next it = Ok (Some t, it') ->
  it_pos it = At 0 \/ it_pos it = Npos ->
  exists cur, it_current it' = Some cur /\ begins_with cur t.
Proof.
  intros it t it' E B. unfold it_next in E. destruct (it_kind it) as [|pr].
  - unfold std_next in E. destruct B as [B|B]; rewrite B in E; cbn [pos_nonzero] in E.
    + eapply std_first_begins; exact E.
    + destruct (it_args it); [discriminate|]. eapply std_first_begins; exact E.
  - unfold pre_next in E. destruct B as [B|B]; rewrite B in E; cbn [pos_nonzero] in E.
    + eapply pre_first_begins; exact E.
    + destruct (it_args it); [discriminate|]. eapply pre_first_begins; exact E.
Qed.


Lemma starts_with_cs_iff : forall s p, starts_with_cs s p = true <-> begins_with s p.
Proof. intros s p. apply starts_with_cs_spec. Qed.

Section Reached.
Variables (p q : parser_data).
Hypothesis H : finish_parser p = Val q.
Let cfg := d_settings q.
Let top := d_command q.
Variable args : list str.

(** ** C35 *)

Lemma error_reports : forall st s m, wf_iter (ps_iter s) ->
  ps_events s = ps_events st -> ps_calls s = ps_calls st -> ps_command s = ps_command st ->
  ps_cur s = ps_cur st -> ps_parents s = ps_parents st ->
  next cfg st = bind (error cfg m) (fun _ => ret (mk_ir IC_ERROR ItNone [])) s ->
  reports cfg st (ps_iter s) m.
Proof.
  intros st s m W E1 E2 E3 E4 E5 E.
  unfold reports. pose proof (error_eq cfg m s W) as X. unfold bind in E.
  destruct (s_auto_exit cfg) eqn:A.
  - rewrite X in E. eexists. split; [|split; [|split; [|exact E]]].
    + simpl. rewrite E1, E3. reflexivity.
    + exact E2.
    + unfold open_levels. simpl. rewrite E4, E5. reflexivity.
  - destruct X as (l & it2 & Rm & _ & _ & X). rewrite X in E. simpl in E.
    eexists. split; [|split; [|split; [|split; [exact E|split; [reflexivity|split]]]]].
    + simpl. rewrite E1, E3. reflexivity.
    + exact E2.
    + unfold open_levels, after_error. simpl. rewrite E4, E5. f_equal. rewrite map_map. reflexivity.
    + intros x Hx. unfold open_levels, after_error in Hx. simpl in Hx.
      destruct Hx as [<-|Hx]; [reflexivity|]. apply in_map_iff in Hx.
      destruct Hx as (y & <- & _). reflexivity.
    + exists l, it2. split; [exact Rm|]. unfold open_levels, after_error. simpl. rewrite E4, E5, !map_map. auto.
Qed.

Lemma unknown_none : forall st n t, reached cfg top args st n ->
  dependable cfg (ps_command st) t -> unknown_option cfg (ps_command st) t ->
  find_option (ps_command st) t (s_abbreviations cfg) (s_case_insensitive cfg) = None.
Proof.
  intros st n t R D U. pose proof (reached_shape p q H args st n R) as Sh.
  destruct (find_option (ps_command st) t (s_abbreviations cfg) (s_case_insensitive cfg)) as [o|] eqn:E; [|reflexivity].
  apply (shape_lookup p q H st t o Sh D) in E. destruct (U o E).
Qed.

Lemma unknown_option_proof : forall st n t it, reached cfg top args st n ->
  ps_mode st = ARGUMENTS_AND_OPTIONS -> it_next (ps_iter st) = Ok (Some t, it) ->
  looks_like_option (s_style cfg) t ->
  dependable cfg (ps_command st) t -> unknown_option cfg (ps_command st) t ->
  exists cur, it_current it = Some cur /\
    (it_pos (ps_iter st) = At 0 \/ it_pos (ps_iter st) = Npos -> begins_with cur t) /\
    (s_ignore_options cfg = false \/ ~ begins_with cur t ->
       reports cfg st it (MsgUnknownOption cur)) /\
    (s_ignore_options cfg = true -> begins_with cur t ->
       next cfg st = Ret (mk_ir IC_UNKNOWN ItNone cur)
                       (set_cur (set_iter st it) (add_unprocessed (ps_cur st) [cur]))).
Proof.
  intros st n t it R M N L D U. pose proof (reached_shape p q H args st n R) as Sh.
  pose proof (sh_wf _ _ _ Sh) as W.
  destruct (current_some it (next_head _ _ _ N)) as (cur & Ec). exists cur.
  assert (E : next cfg st = process_option cfg t (set_iter st it)) by (apply next_option_eq; assumption).
  unfold process_option in E. rewrite bind_gets in E.
  change (ps_command (set_iter st it)) with (ps_command st) in E.
  rewrite (unknown_none st n t R D U) in E.
  assert (Rd : reads st (Some t) it) by (unfold reads; rewrite M; exact N).
  destruct (reads_wf _ _ _ W Rd) as (W' & _).
  split; [exact Ec|]. split; [|split].
  - intros B. destruct (next_begins _ _ _ N B) as (c & Ec' & Bg). congruence.
  - intros C. destruct (s_ignore_options cfg) eqn:Ig; cbn [negb] in E.
    + destruct C as [C|C]; [discriminate|].
      unfold bind at 1, m_current in E. cbn [ps_iter set_iter] in E. rewrite Ec in E.
      destruct (starts_with_cs cur t) eqn:Sw; [apply starts_with_cs_iff in Sw; contradiction|].
      cbn [negb] in E. apply (error_reports st (set_iter st it)); auto.
    + unfold bind at 1, m_current in E. cbn [ps_iter set_iter] in E. rewrite Ec in E.
      apply (error_reports st (set_iter st it)); auto.
  - intros Ig B. rewrite Ig in E. cbn [negb] in E.
    unfold bind at 1, m_current in E. cbn [ps_iter set_iter] in E. rewrite Ec in E.
    apply starts_with_cs_iff in B. rewrite B in E. cbn [negb] in E. rewrite bind_modify in E. exact E.
Qed.

Lemma no_sibling_none : forall st t it, no_sibling cfg st t ->
  find_sibling_command cfg (set_iter st it) t = None.
Proof.
  intros st t it N. unfold find_sibling_command. destruct (negb _); [reflexivity|].
  destruct (find_first_multi_command_parent (set_iter st it)) as [k|] eqn:F; [|reflexivity].
  apply first_multi_spec in F. destruct F as (l & Lk & Nk & Mk). cbn [ps_parents set_iter] in Nk.
  destruct k as [|k]; [lia|]. simpl in Nk. rewrite Nat.sub_0_r in Nk.
  unfold parent_command. cbn [ps_parents set_iter]. rewrite Nk. simpl.
  destruct (find_command (l_command l) t (s_case_insensitive cfg)) as [d|] eqn:E; [|reflexivity].
  apply find_command_in in E. destruct E as (I & E). apply folded_norm in E.
  destruct (N l d (nth_error_In _ _ Nk) Mk I E).
Qed.

Lemma full_counter : forall a ac k, counter_ok a ac k -> k = maxima a ->
  exists ac', next_argument ac = (None, ac').
Proof.
  intros a ac k (_ & Mx & _) E. assert (L : length (left_over ac) = 0) by lia.
  pose proof (next_argument_spec ac) as X. destruct (next_argument ac) as ([x|], ac') eqn:En; [|eauto].
  destruct (left_over ac); [|discriminate]. destruct X as (X & _). discriminate.
Qed.

Lemma surplus_proof : forall st n t it, sound top -> reached cfg top args st n ->
  reads st (Some t) it -> (ps_mode st = ARGUMENTS_ONLY \/ ~ looks_like_option (s_style cfg) t) ->
  c_commands (ps_command st) = [] -> n = maxima (c_arguments (ps_command st)) ->
  no_sibling cfg st t ->
  (s_ignore_arguments cfg = false -> reports cfg st it (MsgTooManyArguments t)) /\
  (s_ignore_arguments cfg = true -> exists cur ac,
     next cfg st = Ret (mk_ir IC_UNKNOWN ItNone cur)
       (set_cur (set_counter (set_iter st it) ac) (add_unprocessed (ps_cur st) [t]))).
Proof.
  intros st n t it So R Rd L Cm Mx Ns.
  pose proof (reached_shape p q H args st n R) as Sh. pose proof (sh_wf _ _ _ Sh) as W.
  assert (Co : counter_ok (c_arguments (ps_command st)) (ps_counter st) n).
  { pose proof (reached_inv cfg top (finish_parser_prepared p q H) args st n R) as I.
    destruct I as [Ru _|F|Su|o Sp _].
    - apply (ru_counter _ _ _ _ Ru So).
    - unfold reads in Rd. rewrite (fa_mode _ _ _ F) in Rd. contradiction.
    - unfold reads in Rd. rewrite (su_mode _ _ _ _ Su) in Rd. contradiction.
    - unfold reads in Rd. rewrite (sp_mode _ _ _ _ Sp) in Rd. contradiction. }
  destruct (full_counter _ _ _ Co Mx) as (ac & En).
  assert (E : next cfg st = process_argument cfg t (set_iter st it)).
  { rewrite (next_eq cfg _ _ _ Rd). unfold process_token. rewrite bind_gets.
    change (ps_command (set_iter st it)) with (ps_command st). rewrite Cm. cbn [is_empty].
    assert (X : match ps_mode st with ARGUMENTS_AND_OPTIONS => true | _ => false end
                && is_option t (s_style cfg) = false).
    { destruct L as [L|L]; [rewrite L; reflexivity|]. rewrite <- is_option_iff in L.
      destruct (is_option t (s_style cfg)); [contradiction L; reflexivity|apply andb_false_r]. }
    rewrite X. reflexivity. }
  unfold process_argument in E. rewrite bind_gets, (no_sibling_none st t it Ns) in E.
  unfold bind at 1, m_next_argument in E. cbn [ps_counter set_iter] in E. rewrite En in E.
  split; intros Ig; rewrite Ig in E.
  - destruct (reads_wf _ _ _ W Rd) as (W' & _).
    apply (error_reports st (set_counter (set_iter st it) ac)); auto.
  - rewrite bind_modify in E. unfold bind at 1, m_current in E. cbn [ps_iter set_iter set_counter set_cur] in E.
    assert (Ne : it_args it <> []).
    { unfold reads in Rd. destruct (ps_mode st); try contradiction.
      - eapply next_head; exact Rd.
      - eapply next_value_head; exact Rd. }
    destruct (current_some it Ne) as (cur & Ec). rewrite Ec in E. exists cur, ac. exact E.
Qed.

Lemma unknown_command_proof : forall st n t it, reached cfg top args st n ->
  reads st (Some t) it -> (ps_mode st = ARGUMENTS_ONLY \/ ~ looks_like_option (s_style cfg) t) ->
  c_commands (ps_command st) <> [] ->
  (forall d, In d (c_commands (ps_command st)) ->
     folded (s_case_insensitive cfg) (c_name d) <> folded (s_case_insensitive cfg) t) ->
  reports cfg st it (MsgUnknownCommand t).
Proof.
  intros st n t it R Rd L Cm Nc.
  pose proof (reached_shape p q H args st n R) as Sh. pose proof (sh_wf _ _ _ Sh) as W.
  destruct (reads_wf _ _ _ W Rd) as (W' & _).
  apply (error_reports st (set_iter st it)); auto.
  rewrite (next_eq cfg _ _ _ Rd). unfold process_token. rewrite bind_gets.
  change (ps_command (set_iter st it)) with (ps_command st).
  assert (X : match ps_mode st with ARGUMENTS_AND_OPTIONS => true | _ => false end
              && is_option t (s_style cfg) = false).
  { destruct L as [L|L]; [rewrite L; reflexivity|]. rewrite <- is_option_iff in L.
    destruct (is_option t (s_style cfg)); [contradiction L; reflexivity|apply andb_false_r]. }
  rewrite X. destruct (c_commands (ps_command st)) as [|d0 ds] eqn:Ec; [contradiction|]. cbn [is_empty].
  destruct (find_command (ps_command st) t (s_case_insensitive cfg)) as [d|] eqn:E; [|reflexivity].
  apply find_command_in in E. destruct E as (I & E). apply folded_norm in E.
  rewrite Ec in I. destruct (Nc d I E).
Qed.

(** ** C36 *)

Lemma stop_proof : forall st n t it o r st', reached cfg top args st n ->
  ps_mode st = ARGUMENTS_AND_OPTIONS -> it_next (ps_iter st) = Ok (Some t, it) ->
  looks_like_option (s_style cfg) t -> dependable cfg (ps_command st) t ->
  selects (s_case_insensitive cfg) (s_abbreviations cfg) (c_options (ps_command st)) t o ->
  o_type o = OT_STOP \/ o_type o = OT_EXIT \/ o_type o = OT_HELP ->
  next cfg st = Ret r st' -> ir_code r <> IC_ERROR ->
  r = mk_ir IC_OPTION (ItOption o) (ir_value r) /\
  (s_auto_exit cfg = true -> o_type o = OT_STOP) /\
  l_result (ps_cur st') = RC_STOP /\ l_stop (ps_cur st') = Some o /\
  ps_command st' = ps_command st /\ ps_parents st' = ps_parents st /\
  l_subs (ps_cur st') = l_subs (ps_cur st) /\ ~ reported_error st' /\
  next cfg st' = Ret (mk_ir IC_DONE ItNone []) st' /\
  exists it' l, reads_value o it (ir_value r) it' /\
    l_unprocessed (ps_cur st') = l_unprocessed (ps_cur st) ++ l /\
    (no_insertions cfg top -> exists it2, it_remaining it' = Ok (l, it2)).
Proof.
  intros st n t it o r st' R M N L D Se T E Ne.
  pose proof (reached_shape p q H args st n R) as Sh. pose proof (sh_wf _ _ _ Sh) as W.
  pose proof (finish_parser_prepared p q H) as Pr.
  assert (W' : wf_iter it).
  { assert (Rd : reads st (Some t) it) by (unfold reads; rewrite M; exact N).
    apply (reads_wf _ _ _ W Rd). }
  pose proof (proj2 (shape_lookup p q H st t o Sh D) Se) as F.
  assert (Wi : within top (ps_command st)).
  { rewrite (sh_command _ _ _ Sh). eapply chain_within. apply (sh_chain _ _ _ Sh). }
  assert (Io : In o (c_options (ps_command st))) by (eapply find_option_in_options; eassumption).
  pose proof (process_option_stops cfg o t it st W' F T) as X.
  pose proof E as E0. rewrite (next_option_eq cfg st t it M N L) in E.
  rewrite E in X. cbn [when post] in X. destruct X as [X|(Au & it' & s & l & itr & X1 & X2 & X3 & X4 & X5 & X6)].
  { rewrite X in Ne. contradiction Ne. reflexivity. }
  pose proof (cb2_frame _ _ _ _ _ _ _ _ X4) as Fr.
  destruct (cf_cur _ _ Fr) as (cs & Ecur).
  split; [exact X1|]. split; [exact Au|]. subst st'. unfold stop_state.
  split; [reflexivity|]. split; [reflexivity|].
  split; [simpl; rewrite (cf_command _ _ Fr); reflexivity|].
  split; [simpl; rewrite (cf_parents _ _ Fr); reflexivity|].
  split; [simpl; rewrite Ecur; reflexivity|]. split; [|split; [reflexivity|]].
  - pose proof (reached_next cfg top args st n r _ R E0) as R'.
    apply (reached_inv cfg top Pr) in R'. destruct R' as [_ Q|Fa|Su|o' Sp _].
    + destruct Q as [Q|Q]; discriminate Q.
    + apply fa_mode in Fa. discriminate Fa.
    + exact (succeeded_unreported cfg top _ _ Su).
    + exact (stopped_unreported cfg top _ _ Sp).
  - exists it', l. split; [exact X2|]. split; [simpl; rewrite Ecur; reflexivity|].
    intros Q. exists itr. rewrite <- X5.
    destruct (cb2_quiet _ _ _ _ _ _ _ _ X4) as (-> & _); [| |reflexivity].
    + intros f v vs Ef. apply Q. eapply cb_option_own; eassumption.
    + intros f v vs Ef. apply Q. eapply cb_option_global; eassumption.
Qed.

(** ** C42 *)

Lemma option_callbacks_proof : forall st n t it o r st', reached cfg top args st n ->
  ps_mode st = ARGUMENTS_AND_OPTIONS -> it_next (ps_iter st) = Ok (Some t, it) ->
  looks_like_option (s_style cfg) t -> dependable cfg (ps_command st) t ->
  selects (s_case_insensitive cfg) (s_abbreviations cfg) (c_options (ps_command st)) t o ->
  next cfg st = Ret r st' -> ir_code r <> IC_ERROR ->
  r = mk_ir IC_OPTION (ItOption o) (ir_value r) /\
  exists it' vs1 vs2, let v := ir_value r in
    reads_value o it v it' /\
    changed (option_change o v) (l_values (ps_cur st)) vs1 /\
    (cb_passive (o_callback o) (ps_calls st) -> vs2 = vs1) /\
    ps_events st' = ps_events st ++
      called (o_callback o) (EvOptionCallback false (o_argument_id o) v) (ps_calls st) v vs1 ++
      called (option_cb cfg o) (EvOptionCallback true (o_argument_id o) v)
        (ps_calls st + calls_of (o_callback o)) v vs2 ++
      match o_type o with OT_HELP => [EvHelp (ps_command st)] | _ => [] end /\
    ps_calls st' = ps_calls st + calls_of (o_callback o) + calls_of (option_cb cfg o) /\
    (no_interference cfg top -> o_type o <> OT_LAST_ARGUMENT -> l_values (ps_cur st') = vs1).
Proof.
  intros st n t it o r st' R M N L D Se E Ne.
  pose proof (reached_shape p q H args st n R) as Sh. pose proof (sh_wf _ _ _ Sh) as W.
  assert (W' : wf_iter it).
  { assert (Rd : reads st (Some t) it) by (unfold reads; rewrite M; exact N).
    apply (reads_wf _ _ _ W Rd). }
  pose proof (proj2 (shape_lookup p q H st t o Sh D) Se) as F.
  assert (Wi : within top (ps_command st)).
  { rewrite (sh_command _ _ _ Sh). eapply chain_within. apply (sh_chain _ _ _ Sh). }
  assert (Io : In o (c_options (ps_command st))).
  { eapply find_option_in_options; [eapply finish_parser_prepared; exact H|exact Wi|exact F]. }
  pose proof (process_option_exact cfg o t it st W' F) as X.
  rewrite (next_option_eq cfg st t it M N L) in E. rewrite E in X. cbn [when post] in X.
  destruct X as [(X & _)|[(X & _)|X]]; [rewrite X in Ne; contradiction Ne; reflexivity..|].
  destruct X as (X0 & it' & vs2 & s & X1 & X2 & X3 & X4 & _ & X5).
  split; [exact X0|]. exists it', (op_values o (ir_value r) (l_values (ps_cur st))), vs2.
  split; [exact X1|]. split; [apply changed_op; exact (shape_in_order q st Sh)|].
  split; [exact X2|]. split; [exact X4|]. split; [exact X3|].
  intros Q T. apply X5; [| |exact T].
  - intros f v vs Ef. apply Q. eapply cb_option_own; eassumption.
  - intros f v vs Ef. apply Q. eapply cb_option_global; eassumption.
Qed.

Lemma option_error_proof : forall st n t it o r st', reached cfg top args st n ->
  ps_mode st = ARGUMENTS_AND_OPTIONS -> it_next (ps_iter st) = Ok (Some t, it) ->
  looks_like_option (s_style cfg) t -> dependable cfg (ps_command st) t ->
  selects (s_case_insensitive cfg) (s_abbreviations cfg) (c_options (ps_command st)) t o ->
  o_type o <> OT_LAST_ARGUMENT -> next cfg st = Ret r st' -> ir_code r = IC_ERROR ->
  takes_value o /\ (exists it', it_next_value it = Ok (None, it')) /\
  r = mk_ir IC_ERROR (ItOption o) [] /\ ps_calls st' = ps_calls st /\
  ps_events st' = ps_events st ++ [EvError (ps_command st) (MsgNoValue t)].
Proof.
  intros st n t it o r st' R M N L D Se T E Er.
  pose proof (reached_shape p q H args st n R) as Sh. pose proof (sh_wf _ _ _ Sh) as W.
  assert (W' : wf_iter it).
  { assert (Rd : reads st (Some t) it) by (unfold reads; rewrite M; exact N).
    apply (reads_wf _ _ _ W Rd). }
  pose proof (proj2 (shape_lookup p q H st t o Sh D) Se) as F.
  pose proof (process_option_exact cfg o t it st W' F) as X.
  rewrite (next_option_eq cfg st t it M N L) in E. rewrite E in X. cbn [when post] in X.
  destruct X as [(-> & (X1 & X2) & X3 & X4)|[(_ & X)|(X & _)]].
  - auto.
  - contradiction.
  - rewrite X in Er. discriminate Er.
Qed.

Lemma argument_callbacks_proof : forall st n r st', reached cfg top args st n ->
  next cfg st = Ret r st' -> ir_code r = IC_ARGUMENT ->
  exists a it vs1 vs2, let v := ir_value r in
    ir_item r = ItArgument a /\ In a (c_arguments (ps_command st)) /\
    reads st (Some v) it /\
    changed (argument_change a v) (l_values (ps_cur st)) vs1 /\
    (cb_passive (a_callback a) (ps_calls st) -> vs2 = vs1) /\
    ps_events st' = ps_events st ++
      called (a_callback a) (EvArgumentCallback false (a_argument_id a) v) (ps_calls st) v vs1 ++
      called (argument_cb cfg a) (EvArgumentCallback true (a_argument_id a) v)
        (ps_calls st + calls_of (a_callback a)) v vs2 /\
    ps_calls st' = ps_calls st + calls_of (a_callback a) + calls_of (argument_cb cfg a) /\
    (no_interference cfg top -> l_values (ps_cur st') = vs1).
Proof.
  intros st n r st' R E Ic.
  pose proof (reached_shape p q H args st n R) as Sh. pose proof (sh_wf _ _ _ Sh) as W.
  pose proof (next_cases cfg st W) as X. rewrite E in X. cbn [when post] in X.
  destruct X as [t it o _ _ _ _ (X & _)|t it a ac Rd Lk -> Cm Sb En C|X _|X _|t it o _ _ _ _ _ X];
    try (rewrite X in Ic; discriminate Ic); try congruence.
  2:{ destruct X as [X|[X|X]]; congruence. }
  assert (Ia : In a (c_arguments (ps_command st))).
  { apply (counter_from_next _ _ (sh_from _ _ _ Sh)). rewrite En. reflexivity. }
  assert (Wi : within top (ps_command st)).
  { rewrite (sh_command _ _ _ Sh). eapply chain_within. apply (sh_chain _ _ _ Sh). }
  destruct (cb2_events _ _ _ _ _ _ _ _ C) as (vs2 & P2 & Ev).
  exists a, it, (append_value (l_values (ps_cur st)) (a_value_id a) t (a_argument_id a)), vs2.
  cbn [ir_value]. split; [reflexivity|]. split; [exact Ia|]. split; [exact Rd|].
  split; [apply (changed_one (argument_change a t)); exact (shape_in_order q st Sh)|].
  split; [exact P2|]. split; [exact Ev|]. split; [exact (cb2_calls _ _ _ _ _ _ _ _ C)|].
  intros Q. rewrite (cb2_passive _ _ _ _ _ _ _ _ C); [reflexivity| |].
  - intros f v vs Ef. apply Q. eapply cb_argument_own; eassumption.
  - intros f v vs Ef. apply Q. eapply cb_argument_global; eassumption.
Qed.

Lemma other_callbacks_proof : forall st n r st', reached cfg top args st n ->
  next cfg st = Ret r st' -> ir_code r <> IC_OPTION -> ir_code r <> IC_ARGUMENT ->
  (exists t it o, ir_code r = IC_ERROR /\ ps_mode st = ARGUMENTS_AND_OPTIONS /\
     it_next (ps_iter st) = Ok (Some t, it) /\ looks_like_option (s_style cfg) t /\
     find_option (ps_command st) t (s_abbreviations cfg) (s_case_insensitive cfg) = Some o /\
     o_type o = OT_LAST_ARGUMENT) \/
  (ps_calls st' = ps_calls st /\
   if match ir_code r with IC_ERROR => true | _ => false end
   then exists m, ps_events st' = ps_events st ++ [EvError (ps_command st) m]
   else ps_events st' = ps_events st).
Proof.
  intros st n r st' R E N1 N2.
  pose proof (reached_shape p q H args st n R) as Sh. pose proof (sh_wf _ _ _ Sh) as W.
  pose proof (next_cases cfg st W) as X. rewrite E in X. cbn [when post] in X.
  destruct X as [t it o _ _ _ _ (X & _)|t it a ac Rd Lk -> Cm Sb En C|X (Y & Z)|X (Y & Z)|t it o M N L F T X].
  - rewrite X in N1. contradiction N1. reflexivity.
  - contradiction N2. reflexivity.
  - right. split; [exact Y|]. destruct X as [X|[X|X]]; rewrite X; exact Z.
  - right. split; [exact Y|]. rewrite X. exact Z.
  - left. exists t, it, o. rewrite X. auto 10.
Qed.

Lemma invocations_app : forall a b, invocations (a ++ b) = invocations a ++ invocations b.
Proof. intros a b. apply filter_app. Qed.

Lemma invocations_called : forall cb ev n v vs, cb_event ev = true ->
  invocations (called cb ev n v vs) = match cb with None => [] | Some _ => [ev] end.
Proof.
  intros [f|] ev n v vs E; [|reflexivity].
  assert (X : forall ts, invocations (map EvText ts) = []).
  { induction ts as [|x ts IH]; [reflexivity|exact IH]. }
  unfold called. destruct ev; try discriminate E; unfold invocations; cbn [filter];
    fold (invocations (map EvText (eff_out (f n v vs)))); rewrite X; reflexivity.
Qed.

Lemma steps_callbacks_proof : forall st rs st', steps cfg st rs st' ->
  forall n, reached cfg top args st n -> (forall r, In r rs -> ir_code r <> IC_ERROR) ->
  invocations (ps_events st') = invocations (ps_events st) ++ flat_map (expected_calls cfg) rs.
Proof.
  induction 1 as [st|st r st1 rs st2 E Ss IH]; intros n R Ne.
  - rewrite app_nil_r. reflexivity.
  - pose proof (reached_next cfg top args st n r st1 R E) as R1.
    rewrite (IH _ R1) by (intros x Hx; apply Ne; right; exact Hx).
    simpl flat_map. rewrite app_assoc. f_equal.
    assert (Nr : ir_code r <> IC_ERROR) by (apply Ne; left; reflexivity).
    pose proof (reached_shape p q H args st n R) as Sh. pose proof (sh_wf _ _ _ Sh) as W.
    pose proof (next_cases cfg st W) as X. rewrite E in X. cbn [when post] in X.
    destruct X as [t it o _ _ _ _ (X & it' & vs2 & s & _ & _ & _ & X4 & _)
                  |t it a ac Rd Lk -> Cm Sb En C|X (Y & Z)|X (Y & Z)|t it o M N L F T X].
    + rewrite X4, !invocations_app, !invocations_called by reflexivity.
      rewrite X. unfold expected_calls. cbn [ir_code ir_item ir_value].
      assert (Eh : invocations (help_event o st) = []).
      { unfold help_event. destruct (o_type o); reflexivity. }
      rewrite Eh, app_nil_r. reflexivity.
    + destruct (cb2_events _ _ _ _ _ _ _ _ C) as (vs2 & _ & Ev).
      rewrite Ev, !invocations_app, !invocations_called by reflexivity. reflexivity.
    + rewrite Z. unfold expected_calls.
      destruct X as [X|[X|X]]; rewrite X; rewrite app_nil_r; reflexivity.
    + contradiction.
    + rewrite X in Nr. contradiction Nr. reflexivity.
Qed.
End Reached.
