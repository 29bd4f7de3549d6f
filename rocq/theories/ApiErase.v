(** The parser does not look at the visibility of commands: parsing a definition whose
    commands have the default visibility gives the same results. *)
From Verif Require Import Base BaseProofs MStrings MOptIter MData MCounter MValues MParser MText MHelp MApi SIndex IndexProofs SDef DefProofs FinishProofs SApi.
Open Scope nat_scope.

(** ** Definitions *)

Definition map_exc {A B} (f : A -> B) (x : exc A) : exc B := match x with Val a => Val (f a) | Exn e => Exn e end.

Lemma update_require_map : forall r (f : cmd_data -> cmd_data) cmds, update_require r (map f cmds) = update_require r cmds.
Proof. intros r f [|c cmds]; reflexivity. Qed.

Lemma copy_fields : forall c, c_arguments (copy_command c) = c_arguments c /\ c_options (copy_command c) = c_options c /\
  c_commands (copy_command c) = map copy_command (c_commands c) /\ c_current_section (copy_command c) = c_current_section c /\
  c_name (copy_command c) = c_name c /\ c_full_name (copy_command c) = c_full_name c /\ c_texts (copy_command c) = c_texts c /\
  c_visibility (copy_command c) = vis_normal /\ c_require (copy_command c) = c_require c /\ c_multi (copy_command c) = c_multi c /\
  c_section (copy_command c) = c_section c.
Proof. intros []. repeat split. Qed.

Lemma finish_copy : forall st c full i a, finish_command st full i a (copy_command c) = map_exc visible_command (finish_command st full i a c).
Proof.
  intros st. induction c as [c IH] using cmd_nested_ind. intros full i a. rewrite !finish_command_eq.
  destruct (copy_fields c) as (-> & -> & -> & -> & -> & _ & -> & -> & -> & -> & ->).
  destruct (validate_all (s_style st) (c_options c)) as [opts1|e]; [|reflexivity]. rewrite update_require_map.
  destruct (update_require (c_require c) (c_commands c)) as [rq'|e]; [|reflexivity]. cbv zeta.
  destruct (set_internal_ids _ _ _ _) as (((args' & opts') & vid') & aid').
  destruct (build_option_index _ _) as [index|e]; [|reflexivity].
  assert (G : finish_subs st (c_name c) vid' aid' (map copy_command (c_commands c)) =
    map_exc (map visible_command) (finish_subs st (c_name c) vid' aid' (c_commands c))).
  { induction IH as [|d l Hd Hl IHl]; [reflexivity|]. cbn [map finish_subs].
    assert (En : c_name (copy_command d) = c_name d) by (destruct d; reflexivity). rewrite En, Hd.
    destruct (finish_command st _ vid' aid' d) as [d'|e]; [|reflexivity]. cbn [map_exc]. rewrite IHl.
    destruct (finish_subs st (c_name c) vid' aid' l); reflexivity. }
  rewrite G. destruct (finish_subs st (c_name c) vid' aid' (c_commands c)); reflexivity.
Qed.

Lemma finish_parser_copy : forall d, d_version d = [] -> finish_parser (make_copy d) = map_exc visible_data (finish_parser d).
Proof.
  intros d Hv. unfold finish_parser, make_copy. cbn [d_command d_settings d_version d_line_width d_word_rules]. rewrite Hv.
  destruct d as [c s v lw wr]. cbn [d_command d_settings d_version d_line_width d_word_rules] in *. subst v.
  destruct c as [args opts cmds cs nm fn tx vi rq mu se ai ix].
  set (c := mk_cmd args opts cmds cs nm fn tx vi rq mu se ai ix).
  change (set_c_items (copy_command c) (c_arguments (copy_command c)) (add_version_option (c_options (copy_command c)) (c_current_section (copy_command c)) (c_name (copy_command c)) [] s) (c_commands (copy_command c)))
    with (copy_command c).
  change (set_c_items c (c_arguments c) (add_version_option (c_options c) (c_current_section c) (c_name c) [] s) (c_commands c)) with c.
  change (c_full_name (copy_command c)) with (c_full_name c). change (c_name (copy_command c)) with (c_name c).
  rewrite finish_copy. destruct (finish_command s _ 0 0 c); reflexivity.
Qed.

(** ** Parsing *)

Definition vl := visible_level.
Definition vc := visible_command.
Definition vs := visible_state.

Lemma vc_arguments : forall c, c_arguments (vc c) = c_arguments c. Proof. intros []; reflexivity. Qed.
Lemma vc_options : forall c, c_options (vc c) = c_options c. Proof. intros []; reflexivity. Qed.
Lemma vc_commands : forall c, c_commands (vc c) = map vc (c_commands c). Proof. intros []; reflexivity. Qed.
Lemma vc_name : forall c, c_name (vc c) = c_name c. Proof. intros []; reflexivity. Qed.
Lemma vc_full_name : forall c, c_full_name (vc c) = c_full_name c. Proof. intros []; reflexivity. Qed.
Lemma vc_require : forall c, c_require (vc c) = c_require c. Proof. intros []; reflexivity. Qed.
Lemma vc_multi : forall c, c_multi (vc c) = c_multi c. Proof. intros []; reflexivity. Qed.
Lemma vc_index : forall c, c_index (vc c) = c_index c. Proof. intros []; reflexivity. Qed.
Lemma vl_command : forall l, l_command (vl l) = vc (l_command l). Proof. intros []; reflexivity. Qed.
Lemma vl_values : forall l, l_values (vl l) = l_values l. Proof. intros []; reflexivity. Qed.
Lemma vl_subs : forall l, l_subs (vl l) = map vl (l_subs l). Proof. intros []; reflexivity. Qed.
Lemma vl_unprocessed : forall l x, add_unprocessed (vl l) x = vl (add_unprocessed l x). Proof. intros []; reflexivity. Qed.
Lemma vl_result : forall l x, set_result x (vl l) = vl (set_result x l). Proof. intros []; reflexivity. Qed.
Lemma vl_breaking : forall l x, set_breaking_option x (vl l) = vl (set_breaking_option x l). Proof. intros []; reflexivity. Qed.
Lemma vl_set_values : forall l x, set_l_values (vl l) x = vl (set_l_values l x). Proof. intros []; reflexivity. Qed.
Lemma vl_add_sub : forall l x, add_sub (vl l) (vl x) = vl (add_sub l x).
Proof. intros [] x. unfold add_sub, vl. cbn. rewrite map_app. reflexivity. Qed.
Lemma vl_new : forall c, new_level (vc c) = vl (new_level c). Proof. intros c. reflexivity. Qed.

Lemma is_empty_map : forall A B (f : A -> B) l, is_empty (map f l) = is_empty l.
Proof. intros A B f [|]; reflexivity. Qed.

Lemma vc_find_command : forall c n ci, find_command (vc c) n ci = option_map vc (find_command c n ci).
Proof.
  intros c n ci. unfold find_command. rewrite vc_commands. induction (c_commands c) as [|d l IH]; [reflexivity|].
  cbn [map find]. rewrite vc_name. destruct (are_equal _ _ _); [reflexivity|exact IH].
Qed.
Lemma vc_find_option : forall c f ab ci, find_option (vc c) f ab ci = find_option c f ab ci.
Proof. intros. unfold find_option. rewrite vc_index. reflexivity. Qed.
Lemma vc_get_name : forall c id, get_name (vc c) id = get_name c id.
Proof. intros. unfold get_name. rewrite vc_arguments, vc_options. reflexivity. Qed.
Lemma vc_value_id : forall c n, get_value_id (vc c) n = get_value_id c n.
Proof. intros. unfold get_value_id, make_ids, id_entries. rewrite vc_arguments, vc_options. reflexivity. Qed.

Definition omap {A} (h : A -> A) (x : outcome A) : outcome A :=
  match x with
  | Ret a st => Ret (h a) (vs st)
  | Exits c st => Exits c (vs st)
  | Throws e st => Throws e (vs st)
  | Undefined => Undefined
  | NoFuel => NoFuel
  end.

Definition rel {A} (h : A -> A) (m1 m2 : M A) : Prop := forall st, m1 (vs st) = omap h (m2 st).
Definition same {A} (x : A) : A := x.

Lemma rel_bind : forall A B (g : A -> A) (h : B -> B) m1 m2 f1 f2, rel g m1 m2 -> (forall a, rel h (f1 (g a)) (f2 a)) ->
  rel h (bind m1 f1) (bind m2 f2).
Proof.
  intros A B g h m1 m2 f1 f2 Hm Hf st. unfold bind. rewrite Hm. destruct (m2 st) as [a st'| | | |]; cbn [omap]; try reflexivity. apply Hf.
Qed.
Lemma rel_ret : forall A (h : A -> A) a b, a = h b -> rel h (ret a) (ret b).
Proof. intros A h a b -> st. reflexivity. Qed.
Lemma rel_modify : forall f g, (forall st, f (vs st) = vs (g st)) -> rel same (modify f) (modify g).
Proof. intros f g H st. unfold modify. rewrite H. reflexivity. Qed.
Lemma rel_gets : forall A (h : A -> A) f g, (forall st, f (vs st) = h (g st)) -> rel h (gets f) (gets g).
Proof. intros A h f g H st. unfold gets. rewrite H. reflexivity. Qed.
Lemma rel_throw : forall A (h : A -> A) e, rel h (throw e) (throw e). Proof. intros A h e st. reflexivity. Qed.
Lemma rel_exit : forall A (h : A -> A) e, rel h (exit_with e) (exit_with e). Proof. intros A h e st. reflexivity. Qed.
Lemma rel_emit_visible : forall e, rel same (emit (visible_event e)) (emit e).
Proof. intros e. apply rel_modify. intros []. unfold add_event, vs, visible_state. cbn. rewrite map_app. reflexivity. Qed.
Lemma rel_emit : forall e, visible_event e = e -> rel same (emit e) (emit e).
Proof. intros e H. rewrite <- H at 1. apply rel_emit_visible. Qed.
Lemma rel_next : rel same m_next m_next.
Proof. intros st. unfold m_next. change (ps_iter (vs st)) with (ps_iter st). destruct (it_next _) as [(r & it)|]; reflexivity. Qed.
Lemma rel_next_value : rel same m_next_value m_next_value.
Proof. intros st. unfold m_next_value. change (ps_iter (vs st)) with (ps_iter st). destruct (it_next_value _) as [(r & it)|]; reflexivity. Qed.
Lemma rel_current : rel same m_current m_current.
Proof. intros st. unfold m_current. change (ps_iter (vs st)) with (ps_iter st). destruct (it_current _); reflexivity. Qed.
Lemma rel_command : rel vc (gets ps_command) (gets ps_command).
Proof. apply rel_gets. reflexivity. Qed.
Lemma rel_values : rel same (gets (fun st => l_values (ps_cur st))) (gets (fun st => l_values (ps_cur st))).
Proof. apply rel_gets. intros st. apply vl_values. Qed.
Lemma rel_set_values : forall F, rel same (modify (fun st => set_values st (F (l_values (ps_cur st))))) (modify (fun st => set_values st (F (l_values (ps_cur st))))).
Proof.
  intros F. apply rel_modify. intros st. unfold set_values. change (ps_cur (vs st)) with (vl (ps_cur st)). rewrite vl_values, vl_set_values. reflexivity.
Qed.

Section Parse.
Variable cfg : settings.

Lemma rel_copy_remaining : rel same copy_remaining copy_remaining.
Proof.
  intros st. unfold copy_remaining. change (ps_iter (vs st)) with (ps_iter st). destruct (it_remaining _) as [(args & it)|]; [|reflexivity].
  cbn [omap]. change (ps_cur (vs st)) with (vl (ps_cur st)). rewrite vl_unprocessed. reflexivity.
Qed.
Lemma vs_all_results : forall rc st, set_all_results rc (vs st) = vs (set_all_results rc st).
Proof.
  intros rc st. unfold set_all_results, vs, visible_state, set_parents, set_cur. cbn. fold vl. f_equal; [apply vl_result|].
  rewrite !map_map. apply map_ext. intros l. apply vl_result.
Qed.

Ltac rel_one :=
  first [ (apply rel_emit; reflexivity) | apply rel_next | apply rel_next_value | apply rel_current | apply rel_command | apply rel_values
        | apply rel_set_values | apply rel_copy_remaining | apply rel_throw | apply rel_exit
        | apply rel_ret; reflexivity | (apply rel_modify; intros []; reflexivity) ].

Lemma rel_error : forall m, rel same (error cfg m) (error cfg m).
Proof.
  intros m. unfold error. eapply rel_bind; [apply rel_command|]. intros c. eapply rel_bind; [apply (rel_emit_visible (EvError c m))|]. intros _.
  destruct (s_auto_exit cfg); [apply rel_exit|]. eapply rel_bind; [apply rel_copy_remaining|]. intros _.
  eapply rel_bind; [apply rel_modify, vs_all_results|]. intros _. rel_one.
Qed.

Lemma vs_multi_parent : forall st, find_first_multi_command_parent (vs st) = find_first_multi_command_parent st.
Proof.
  intros st. unfold find_first_multi_command_parent. change (ps_parents (vs st)) with (map vl (ps_parents st)). generalize 1.
  induction (ps_parents st) as [|p l IH]; intros k; [reflexivity|]. cbn [map multi_parent_loop]. rewrite vl_command, vc_multi.
  destruct (c_multi _); [reflexivity|apply IH].
Qed.
Lemma vs_parent_command : forall st k, parent_command (vs st) k = option_map vc (parent_command st k).
Proof.
  intros st [|k]; cbn [parent_command]; [change (ps_cur (vs st)) with (vl (ps_cur st)); rewrite vl_command; reflexivity|].
  change (ps_parents (vs st)) with (map vl (ps_parents st)). rewrite nth_error_map. destruct (nth_error _ k); cbn; [rewrite vl_command|]; reflexivity.
Qed.
Definition vpair (x : option (cmd_data * nat)) : option (cmd_data * nat) := option_map (fun p => (vc (fst p), snd p)) x.
Lemma vs_sibling : forall st n, find_sibling_command cfg (vs st) n = vpair (find_sibling_command cfg st n).
Proof.
  intros st n. unfold find_sibling_command. change (ps_counter (vs st)) with (ps_counter st). destruct (negb _); [reflexivity|].
  rewrite vs_multi_parent. destruct (find_first_multi_command_parent st) as [k|]; [|reflexivity]. rewrite vs_parent_command.
  destruct (parent_command st k) as [p|]; [|reflexivity]. cbn [option_map]. rewrite vc_find_command. destruct (find_command p n _); reflexivity.
Qed.

Lemma vl_pop : forall k cur parents, pop_levels k (vl cur) (map vl parents) = (vl (fst (pop_levels k cur parents)), map vl (snd (pop_levels k cur parents))).
Proof.
  induction k as [|k IH]; intros cur parents; [reflexivity|]. destruct parents as [|p parents]; [reflexivity|]. cbn [map pop_levels].
  rewrite vl_add_sub. apply IH.
Qed.
Lemma rel_reactivate : forall k, rel same (reactivate k) (reactivate k).
Proof.
  intros k. apply rel_modify. intros st. change (ps_cur (vs st)) with (vl (ps_cur st)). change (ps_parents (vs st)) with (map vl (ps_parents st)).
  rewrite vl_pop. destruct (pop_levels k (ps_cur st) (ps_parents st)) as (cur & parents). cbn [fst snd]. rewrite vl_command. reflexivity.
Qed.

Lemma vs_count_values : forall fuel st min it r, count_values cfg fuel (vs st) min it r = count_values cfg fuel st min it r.
Proof.
  induction fuel as [|fuel IH]; intros st min it r; [reflexivity|]. cbn [count_values]. destruct (it_next_value it) as [([arg|] & it')|]; [|reflexivity|reflexivity].
  change (ps_command (vs st)) with (vc (ps_command st)). rewrite vc_find_command, vs_sibling. destruct (find_command _ arg _); [reflexivity|]. cbn [option_map].
  destruct (find_sibling_command cfg st arg); cbn [vpair option_map]; rewrite ?IH; reflexivity.
Qed.
Lemma vs_count_tokens : forall fuel st min it r, count_tokens cfg fuel (vs st) min it r = count_tokens cfg fuel st min it r.
Proof.
  induction fuel as [|fuel IH]; intros st min it r; [reflexivity|]. cbn [count_tokens]. destruct (it_next it) as [([arg|] & it')|]; [|apply vs_count_values|reflexivity].
  change (ps_command (vs st)) with (vc (ps_command st)). rewrite vc_find_option. destruct (find_option _ arg _ _) as [o|].
  - destruct (if negb _ then _ else _) as [it''|]; [|reflexivity]. destruct (o_type o); try reflexivity; try apply IH. apply vs_count_values.
  - destruct (is_option _ _); [apply IH|]. rewrite vc_find_command, vs_sibling. destruct (find_command _ arg _); [reflexivity|]. cbn [option_map].
    destruct (find_sibling_command cfg st arg); cbn [vpair option_map]; rewrite ?IH; reflexivity.
Qed.
Lemma rel_count : rel same (count_arguments cfg) (count_arguments cfg).
Proof.
  intros st. unfold count_arguments. change (ps_command (vs st)) with (vc (ps_command st)). rewrite vc_arguments, vs_count_tokens.
  change (ps_iter (vs st)) with (ps_iter st). destruct (count_tokens _ _ _ _ _ _); reflexivity.
Qed.
Lemma rel_start_counter : rel same (start_counter cfg) (start_counter cfg).
Proof.
  unfold start_counter. eapply rel_bind; [apply rel_command|]. intros c. rewrite vc_arguments. destruct (negb _); [rel_one|].
  eapply rel_bind; [apply rel_count|]. intros n. rel_one.
Qed.
Lemma rel_update_arguments : forall new, rel same (update_arguments cfg new) (update_arguments cfg new).
Proof.
  intros new. unfold update_arguments. destruct (is_empty new); [rel_one|]. eapply rel_bind.
  - intros st. change (ps_iter (vs st)) with (ps_iter st). instantiate (1 := same). destruct (it_insert _ _); reflexivity.
  - intros _. eapply rel_bind; [apply rel_command|]. intros c. rewrite vc_arguments. destruct (negb _); [rel_one|].
    eapply rel_bind; [apply (rel_gets _ same); reflexivity|]. intros current. eapply rel_bind; [apply rel_count|]. intros n. rel_one.
Qed.
Lemma rel_resolve : forall k, rel same (resolve_key k) (resolve_key k).
Proof.
  intros [name|v a] st; [|reflexivity]. unfold resolve_key. change (ps_cur (vs st)) with (vl (ps_cur st)). rewrite vl_command, vc_value_id.
  destruct (get_value_id _ _); reflexivity.
Qed.
Lemma rel_user_error : forall msg, rel same (user_error cfg msg) (user_error cfg msg).
Proof.
  intros msg. unfold user_error. eapply rel_bind; [apply (rel_gets _ vc); intros st; apply vl_command|]. intros c.
  eapply rel_bind; [apply (rel_emit_visible (EvError c (MsgUser _)))|]. intros _. destruct (s_auto_exit cfg); [apply rel_exit|apply rel_throw].
Qed.
Lemma rel_value_op : forall op, rel same (run_value_op cfg op) (run_value_op cfg op).
Proof.
  intros [k v|k v|k|msg|msg aid]; cbn [run_value_op].
  - eapply rel_bind; [apply rel_resolve|]. intros ids. apply (rel_set_values (fun s => assign_value s (fst ids) v (snd ids))).
  - eapply rel_bind; [apply rel_resolve|]. intros ids. apply (rel_set_values (fun s => append_value s (fst ids) v (snd ids))).
  - eapply rel_bind; [apply rel_resolve|]. intros ids. apply (rel_set_values (fun s => clear_value s (fst ids))).
  - apply rel_user_error.
  - eapply rel_bind; [apply (rel_gets _ same); intros st; change (ps_cur (vs st)) with (vl (ps_cur st)); rewrite vl_command; apply vc_get_name|].
    intros name. apply rel_user_error.
Qed.
Lemma rel_value_ops : forall ops, rel same (run_value_ops cfg ops) (run_value_ops cfg ops).
Proof. induction ops as [|op ops IH]; [apply rel_ret; reflexivity|]. cbn [run_value_ops]. eapply rel_bind; [apply rel_value_op|]. intros _. exact IH. Qed.
Lemma rel_texts : forall ts, rel same (emit_texts ts) (emit_texts ts).
Proof. induction ts as [|t ts IH]; [apply rel_ret; reflexivity|]. cbn [emit_texts]. eapply rel_bind; [apply rel_emit; reflexivity|]. intros _. exact IH. Qed.
Lemma rel_callback : forall cb ev v, visible_event ev = ev -> rel same (run_callback cfg cb ev v) (run_callback cfg cb ev v).
Proof.
  intros [f|] ev v Hev; [|apply rel_ret; reflexivity]. unfold run_callback. eapply rel_bind; [apply rel_emit, Hev|]. intros _.
  eapply rel_bind; [apply (rel_gets _ same); intros st; change (ps_cur (vs st)) with (vl (ps_cur st)); rewrite vl_values; reflexivity|]. intros eff. unfold same.
  eapply rel_bind; [rel_one|]. intros _. eapply rel_bind; [apply rel_texts|]. intros _. eapply rel_bind; [apply rel_value_ops|]. intros _.
  eapply rel_bind; [destruct (eff_throws eff); rel_one|]. intros _. apply rel_update_arguments.
Qed.
Lemma rel_mandatory : forall opts, rel same (has_all_mandatory cfg opts) (has_all_mandatory cfg opts).
Proof.
  induction opts as [|o opts IH]; [apply rel_ret; reflexivity|]. cbn [has_all_mandatory]. eapply rel_bind; [apply rel_values|]. intros v. unfold same.
  destruct (negb _ && _); [|exact IH]. eapply rel_bind; [apply rel_error|]. intros _. rel_one.
Qed.
Lemma rel_check_counts : rel same (check_counts cfg) (check_counts cfg).
Proof.
  unfold check_counts. eapply rel_bind; [apply rel_command|]. intros c. rewrite vc_options, vc_arguments, vc_require.
  eapply rel_bind; [apply rel_mandatory|]. intros ok. unfold same. destruct (negb ok); [rel_one|]. destruct (c_require c) as [req|]; [|intros st; reflexivity].
  eapply rel_bind; [apply (rel_gets _ (map vl)); intros st; apply vl_subs|]. intros subs. rewrite is_empty_map.
  destruct (req && is_empty subs); [eapply rel_bind; [apply rel_error|intros _; rel_one]|].
  eapply rel_bind; [apply (rel_gets _ same); reflexivity|]. intros ac. unfold same. destruct (is_complete ac).
  - eapply rel_bind; [|intros _; apply rel_ret; reflexivity]. apply rel_modify. intros st. rewrite <- vs_all_results. reflexivity.
  - destruct (get_min_max_count _) as (lo & hi). eapply rel_bind; [apply rel_error|intros _; rel_one].
Qed.
Lemma rel_operation : forall o f, rel same (apply_operation cfg o f) (apply_operation cfg o f).
Proof.
  intros o f. unfold apply_operation. destruct (o_operation o).
  - rel_one.
  - destruct (negb _).
    + eapply rel_bind; [apply (rel_set_values (fun s => assign_value s _ _ _))|]. intros _. rel_one.
    + eapply rel_bind; [apply rel_next_value|]. intros [v|].
      * eapply rel_bind; [apply (rel_set_values (fun s => assign_value s _ _ _))|]. intros _. rel_one.
      * eapply rel_bind; [apply rel_error|intros _; rel_one].
  - destruct (negb _).
    + eapply rel_bind; [apply (rel_set_values (fun s => append_value s _ _ _))|]. intros _. rel_one.
    + eapply rel_bind; [apply rel_next_value|]. intros [v|].
      * eapply rel_bind; [apply (rel_set_values (fun s => append_value s _ _ _))|]. intros _. rel_one.
      * eapply rel_bind; [apply rel_error|intros _; rel_one].
  - eapply rel_bind; [apply (rel_set_values (fun s => clear_value s _))|]. intros _. rel_one.
Qed.
Lemma rel_break : forall o, rel same (modify (fun st => set_cur st (set_breaking_option o (ps_cur st)))) (modify (fun st => set_cur st (set_breaking_option o (ps_cur st)))).
Proof. intros o. apply rel_modify. intros st. change (ps_cur (vs st)) with (vl (ps_cur st)). rewrite vl_breaking. reflexivity. Qed.
Lemma rel_type : forall o, rel same (apply_type o) (apply_type o).
Proof.
  intros o. unfold apply_type. destruct (o_type o).
  - rel_one.
  - eapply rel_bind; [apply rel_command|]. intros c. eapply rel_bind; [apply (rel_emit_visible (EvHelp c))|]. intros _.
    eapply rel_bind; [rel_one|]. intros _. eapply rel_bind; [apply rel_break|]. intros _. rel_one.
  - eapply rel_bind; [rel_one|]. intros _. eapply rel_bind; [apply rel_break|]. intros _. rel_one.
  - eapply rel_bind; [rel_one|]. intros _. eapply rel_bind; [apply rel_break|]. intros _. rel_one.
  - eapply rel_bind; [rel_one|]. intros _. rel_one.
  - eapply rel_bind; [rel_one|]. intros _. rel_one.
Qed.
Lemma rel_known_option : forall o f, rel same (process_known_option cfg o f) (process_known_option cfg o f).
Proof.
  intros o f. unfold process_known_option. eapply rel_bind; [apply rel_operation|]. intros [v|]; [|apply rel_ret; reflexivity]. unfold same.
  eapply rel_bind; [apply rel_callback; reflexivity|]. intros _. eapply rel_bind; [apply rel_callback; reflexivity|]. intros _. eapply rel_bind; [apply rel_type|]. intros r. rel_one.
Qed.

Definition vr (r : iter_result) : iter_result := visible_result r.

Lemma rel_option : forall f, rel vr (process_option cfg f) (process_option cfg f).
Proof.
  intros f. unfold process_option. eapply rel_bind; [apply rel_command|]. intros c. rewrite vc_find_option. destruct (find_option _ _ _ _) as [o|].
  - eapply rel_bind; [apply rel_known_option|]. intros (r & arg). unfold same. destruct r; try (apply rel_ret; reflexivity).
    + eapply rel_bind; [apply rel_check_counts|]. intros ok. unfold same. destruct (negb ok); [apply rel_ret; reflexivity|].
      eapply rel_bind; [apply (rel_gets _ same); apply vs_multi_parent|]. intros [k|]; cbn [same].
      * eapply rel_bind; [apply rel_reactivate|]. intros _. apply rel_ret. reflexivity.
      * eapply rel_bind; [apply rel_copy_remaining|]. intros _. apply rel_ret. reflexivity.
    + eapply rel_bind; [apply rel_copy_remaining|]. intros _. apply rel_ret. reflexivity.
    + destruct (s_auto_exit cfg); [apply rel_exit|]. eapply rel_bind; [apply rel_copy_remaining|]. intros _. apply rel_ret. reflexivity.
  - destruct (negb _).
    + eapply rel_bind; [apply rel_current|]. intros cur. eapply rel_bind; [apply rel_error|]. intros _. apply rel_ret. reflexivity.
    + eapply rel_bind; [apply rel_current|]. intros cur. unfold same. destruct (negb _).
      * eapply rel_bind; [apply rel_error|]. intros _. apply rel_ret. reflexivity.
      * eapply rel_bind; [|intros _; apply rel_ret; reflexivity]. apply rel_modify. intros st. change (ps_cur (vs st)) with (vl (ps_cur st)).
        rewrite vl_unprocessed. reflexivity.
Qed.
Lemma rel_process_command : forall c, rel vr (process_command cfg (vc c)) (process_command cfg c).
Proof.
  intros c. unfold process_command. eapply rel_bind; [apply rel_modify; intros st; reflexivity|]. intros _.
  eapply rel_bind; [apply rel_start_counter|]. intros _. eapply rel_bind; [apply rel_modify; intros []; reflexivity|]. intros _.
  eapply rel_bind; [apply rel_current|]. intros cur. apply rel_ret. reflexivity.
Qed.
Lemma rel_next_argument : rel same m_next_argument m_next_argument.
Proof. intros st. unfold m_next_argument. change (ps_counter (vs st)) with (ps_counter st). destruct (next_argument _). reflexivity. Qed.
Lemma rel_argument : forall v, rel vr (process_argument cfg v) (process_argument cfg v).
Proof.
  intros v. unfold process_argument. eapply rel_bind; [apply (rel_gets _ vpair); intros st; apply vs_sibling|]. intros [(c & k)|]; cbn [vpair option_map fst snd].
  - eapply rel_bind; [apply rel_reactivate|]. intros _. apply rel_process_command.
  - eapply rel_bind; [apply rel_next_argument|]. intros [a|]; cbn [same].
    + eapply rel_bind; [apply (rel_set_values (fun s => append_value s _ _ _))|]. intros _. eapply rel_bind; [apply rel_callback; reflexivity|]. intros _.
      eapply rel_bind; [apply rel_callback; reflexivity|]. intros _. apply rel_ret. reflexivity.
    + destruct (s_ignore_arguments cfg).
      * eapply rel_bind; [apply rel_modify; intros st; change (ps_cur (vs st)) with (vl (ps_cur st)); rewrite vl_unprocessed; reflexivity|]. intros _.
        eapply rel_bind; [apply rel_current|]. intros cur. apply rel_ret. reflexivity.
      * eapply rel_bind; [apply rel_error|]. intros _. apply rel_ret. reflexivity.
Qed.
Lemma rel_token : forall mode arg, rel vr (process_token cfg mode arg) (process_token cfg mode arg).
Proof.
  intros mode arg. unfold process_token. eapply rel_bind; [apply rel_command|]. intros c. destruct (_ && _); [apply rel_option|].
  rewrite vc_commands, is_empty_map. destruct (is_empty _); [apply rel_argument|]. rewrite vc_find_command. destruct (find_command _ _ _) as [d|]; cbn [option_map].
  - apply rel_process_command.
  - eapply rel_bind; [apply rel_error|]. intros _. apply rel_ret. reflexivity.
Qed.
Lemma rel_step : rel vr (next cfg) (next cfg).
Proof.
  unfold next. eapply rel_bind; [apply (rel_gets _ same); reflexivity|]. intros mode. unfold same.
  assert (T : forall m, (m = m_next \/ m = m_next_value) -> rel vr
    (t <- m ;; match t with
      | None => ok <- check_counts cfg ;; ret (mk_ir (if (ok : bool) then IC_DONE else IC_ERROR) ItNone [])
      | Some arg => process_token cfg mode arg end)
    (t <- m ;; match t with
      | None => ok <- check_counts cfg ;; ret (mk_ir (if (ok : bool) then IC_DONE else IC_ERROR) ItNone [])
      | Some arg => process_token cfg mode arg end)).
  { intros m Hm. eapply rel_bind; [destruct Hm as [->| ->]; [apply rel_next|apply rel_next_value]|]. intros [arg|]; cbn [same]; [apply rel_token|].
    eapply rel_bind; [apply rel_check_counts|]. intros ok. apply rel_ret. reflexivity. }
  destruct mode; [apply (T m_next); left; reflexivity|apply (T m_next_value); right; reflexivity|apply rel_ret; reflexivity|apply rel_throw].
Qed.
Lemma rel_loop : forall fuel, rel same (parse_loop cfg fuel) (parse_loop cfg fuel).
Proof.
  induction fuel as [|fuel IH]; [intros st; reflexivity|]. cbn [parse_loop]. eapply rel_bind; [apply rel_step|]. intros [code item v].
  assert (Ec : ir_code (vr (mk_ir code item v)) = code) by (destruct item; reflexivity). rewrite Ec. cbn [ir_code]. destruct code; try exact IH; apply rel_ret; reflexivity.
Qed.
End Parse.

Lemma run_visible : forall cfg fuel c args, run_parser cfg fuel (vc c) args = omap same (run_parser cfg fuel c args).
Proof.
  intros cfg fuel c args. unfold run_parser.
  assert (E : initial_state cfg (vc c) args = vs (initial_state cfg c args)).
  { unfold initial_state. rewrite vc_options. reflexivity. }
  rewrite E. apply (rel_bind _ _ same same); [apply rel_start_counter|]. intros _. apply rel_loop.
Qed.

Lemma const_parse : forall fuel d args, d_version d = [] ->
  parse_vector_const fuel (Some d) args = visible_end (fst (parse_vector fuel (Some d) args)).
Proof.
  intros fuel d args Hv. cbn [parse_vector_const parse_vector fst]. unfold parse_arguments. rewrite (finish_parser_copy d Hv).
  destruct (finish_parser d) as [q|e]; [|reflexivity]. cbn [map_exc]. change (d_settings (visible_data q)) with (d_settings q).
  change (d_command (visible_data q)) with (vc (d_command q)). rewrite run_visible.
  destruct (run_parser (d_settings q) fuel (d_command q) args); reflexivity.
Qed.
