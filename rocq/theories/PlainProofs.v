(** What is only meant for the help text has no influence on parsing: lemmas. *)
From Verif Require Import Base BaseProofs MStrings MOptIter MData MCounter MValues MParser MText MHelp MApi SIndex IndexProofs SDef DefProofs FinishProofs SPlain.
Open Scope nat_scope.

Definition map_exc {A B} (f : A -> B) (x : exc A) : exc B := match x with Val a => Val (f a) | Exn e => Exn e end.
Definition pa := plain_argument.
Definition po := plain_option.
Definition pe (e : str * opt_data) : str * opt_data := (fst e, po (snd e)).
Definition pn (e : N * arg_data) : N * arg_data := (fst e, pa (snd e)).

Lemma pa_twice : forall a, pa (pa a) = pa a. Proof. reflexivity. Qed.
Lemma po_twice : forall o, po (po o) = po o.
Proof. intros o. unfold po, plain_option. cbn. destruct (o_argument o); reflexivity. Qed.
Lemma po_argument : forall o, is_empty (o_argument (po o)) = is_empty (o_argument o).
Proof. intros o. unfold po, plain_option. cbn. destruct (o_argument o); reflexivity. Qed.
Lemma map_po_twice : forall l, map po (map po l) = map po l.
Proof. intros l. rewrite map_map. apply map_ext, po_twice. Qed.
Lemma pe_twice : forall e, pe (pe e) = pe e.
Proof. intros e. unfold pe. cbn. rewrite po_twice. reflexivity. Qed.
Lemma pc_twice : forall c, plain_command (plain_command c) = plain_command c.
Proof.
  induction c as [c IH] using cmd_nested_ind. destruct c as [args opts cmds cs nm fn tx vi rq mu se ai ix]. cbn. fold pa po. f_equal.
  - rewrite map_map. reflexivity.
  - apply map_po_twice.
  - cbn in IH. induction IH as [|d l Hd Hl IHl]; [reflexivity|]. cbn [map]. rewrite Hd, IHl. reflexivity.
  - rewrite map_map. apply map_ext, pe_twice.
Qed.

(** ** Definitions *)

Lemma update_require_map : forall r (f : cmd_data -> cmd_data) cmds, update_require r (map f cmds) = update_require r cmds.
Proof. intros r f [|c cmds]; reflexivity. Qed.
Lemma is_empty_map : forall A B (f : A -> B) l, is_empty (map f l) = is_empty l.
Proof. intros A B f [|]; reflexivity. Qed.

Lemma check_flags_plain : forall style o fl, check_flags style (po o) fl = check_flags style o fl.
Proof.
  intros style o. assert (E : forall f, check_flag_with_equal f (po o) = check_flag_with_equal f o).
  { intros f. unfold check_flag_with_equal. rewrite po_argument. reflexivity. }
  induction fl as [|f fl IH]; [reflexivity|]. cbn [check_flags]. rewrite IH.
  assert (E1 : check_standard_flag f (po o) = check_standard_flag f o) by (unfold check_standard_flag; rewrite E; reflexivity).
  assert (E2 : forall p, check_flag f p (po o) = check_flag f p o) by (intros p; unfold check_flag; rewrite E; reflexivity).
  rewrite E1, !E2. reflexivity.
Qed.
Lemma validate_plain : forall style o, validate_and_update (po o) style = map_exc po (validate_and_update o style).
Proof.
  intros style o. unfold validate_and_update. rewrite check_flags_plain, po_argument.
  change (o_flags (po o)) with (o_flags o). change (o_constant (po o)) with (o_constant o). change (o_operation (po o)) with (o_operation o).
  change (o_alias (po o)) with (o_alias o). change (o_optional (po o)) with (o_optional o).
  change (set_o_constant (po o) ($"1")) with (po (set_o_constant o ($"1"))).
  destruct (is_empty (o_flags o)); [reflexivity|]. destruct (check_flags _ _ _); [|reflexivity]. cbv zeta.
  destruct (negb _ && negb _); [reflexivity|]. destruct (o_operation o); repeat match goal with |- context [if ?b then _ else _] => destruct b end; reflexivity.
Qed.
Lemma validate_all_plain : forall style l, validate_all style (map po l) = map_exc (map po) (validate_all style l).
Proof.
  induction l as [|o l IH]; [reflexivity|]. cbn [map validate_all]. rewrite validate_plain, IH.
  destruct (validate_and_update o style); [|reflexivity]. cbn [map_exc]. destruct (validate_all style l); reflexivity.
Qed.
Lemma has_flag_plain : forall l f ci, has_flag (map po l) f ci = has_flag l f ci.
Proof. intros l f ci. unfold has_flag. induction l as [|o l IH]; [reflexivity|]. cbn [map existsb]. rewrite IH. reflexivity. Qed.
Lemma add_help_plain : forall l s s' st, map po (add_help_option (map po l) s' st) = map po (add_help_option l s st).
Proof.
  intros l s s' st. unfold add_help_option.
  assert (E : has_help_option (map po l) = has_help_option l).
  { unfold has_help_option. induction l as [|o l IH]; [reflexivity|]. cbn [map existsb]. rewrite IH. reflexivity. }
  assert (F : help_flags (map po l) st = help_flags l st) by (unfold help_flags; rewrite !has_flag_plain; reflexivity).
  rewrite E, F. destruct (negb _); [apply map_po_twice|]. destruct (has_help_option l); [apply map_po_twice|]. cbv zeta.
  destruct (is_empty _); [apply map_po_twice|]. rewrite !map_app, map_po_twice. reflexivity.
Qed.
Lemma add_version_plain : forall l s s' n v st, map po (add_version_option (map po l) s' n v st) = map po (add_version_option l s n v st).
Proof.
  intros l s s' n v st. unfold add_version_option. destruct (is_empty v); [apply map_po_twice|]. cbv zeta. rewrite has_flag_plain.
  destruct (has_flag _ _ _); [apply map_po_twice|]. rewrite !map_app, map_po_twice. reflexivity.
Qed.
Lemma argument_ids_plain : forall l m aid, set_argument_ids m aid (map pa l) =
  let '(l', m', aid') := set_argument_ids m aid l in (map pa l', m', aid').
Proof.
  induction l as [|a l IH]; intros m aid; [reflexivity|]. cbn [map set_argument_ids]. cbv zeta.
  change (a_alias (pa a)) with (a_alias a). change (a_name (pa a)) with (a_name a).
  destruct (if negb _ then _ else _) as (vid & m'). rewrite IH. destruct (set_argument_ids m' _ l) as ((l' & m'') & aid''). reflexivity.
Qed.
Lemma option_ids_plain : forall l m aid, set_option_ids m aid (map po l) =
  let '(l', m', aid') := set_option_ids m aid l in (map po l', m', aid').
Proof.
  induction l as [|o l IH]; intros m aid; [reflexivity|]. cbn [map set_option_ids]. cbv zeta.
  change (o_operation (po o)) with (o_operation o). change (o_alias (po o)) with (o_alias o). change (o_flags (po o)) with (o_flags o). change (o_value_id (po o)) with (o_value_id o).
  destruct (match o_operation o with OP_NONE => _ | _ => _ end) as (vid & m'). rewrite IH. destruct (set_option_ids m' _ l) as ((l' & m'') & aid''). reflexivity.
Qed.
Lemma ids_plain : forall args opts i a, set_internal_ids (map pa args) (map po opts) i a =
  let '(args', opts', i', a') := set_internal_ids args opts i a in (map pa args', map po opts', i', a').
Proof.
  intros args opts i a. unfold set_internal_ids. rewrite argument_ids_plain. destruct (set_argument_ids _ _ _) as ((args' & m1) & aid1).
  rewrite option_ids_plain. destruct (set_option_ids _ _ _) as ((opts' & m2) & aid2). reflexivity.
Qed.

Lemma sort_map : forall A B (f : A -> B) (la : A -> A -> bool) (lb : B -> B -> bool), (forall x y, lb (f x) (f y) = la x y) ->
  forall l, sort_by lb (map f l) = map f (sort_by la l).
Proof.
  intros A B f la lb H l. unfold sort_by. rewrite map_rev. f_equal.
  assert (I : forall x r, insert_back lb (f x) (map f r) = map f (insert_back la x r)).
  { intros x. induction r as [|y r IH]; [reflexivity|]. cbn [map insert_back]. rewrite H. destruct (la x y); cbn [map]; [rewrite IH|]; reflexivity. }
  change (@nil B) with (map f []). generalize (@nil A). induction l as [|x l IH]; intros acc; [reflexivity|]. cbn [map fold_left]. rewrite I. apply IH.
Qed.
Lemma entries_plain : forall l, index_entries (map po l) = map pe (index_entries l).
Proof.
  intros l. unfold index_entries. induction l as [|o l IH]; [reflexivity|]. cbn [map flat_map]. rewrite map_app, IH. f_equal.
  rewrite map_map. reflexivity.
Qed.
Lemma adjacent_plain : forall ci l, adjacent_find (fun a b : str * opt_data => are_equal (fst a) (fst b) ci) (map pe l) =
  option_map (fun p => (pe (fst p), pe (snd p))) (adjacent_find (fun a b : str * opt_data => are_equal (fst a) (fst b) ci) l).
Proof.
  intros ci. induction l as [|x l IH]; [reflexivity|]. destruct l as [|y l]; [reflexivity|].
  change (map pe (x :: y :: l)) with (pe x :: pe y :: map pe l). cbn [adjacent_find]. change (fst (pe x)) with (fst x). change (fst (pe y)) with (fst y).
  destruct (are_equal _ _ _); [reflexivity|]. exact IH.
Qed.
Lemma index_plain : forall ci l, build_option_index ci (map po l) = map_exc (map pe) (build_option_index ci l).
Proof.
  intros ci l. unfold build_option_index. rewrite entries_plain.
  rewrite (sort_map _ _ pe (fun a b => is_less (fst a) (fst b) ci)) by reflexivity. unfold check_index. rewrite adjacent_plain.
  destruct (adjacent_find _ _) as [(a & b)|]; cbn [option_map fst snd]; [|reflexivity]. change (fst (pe a)) with (fst a). change (fst (pe b)) with (fst b).
  destruct (str_eqb _ _); reflexivity.
Qed.

Lemma plain_fields : forall c, c_arguments (plain_command c) = map pa (c_arguments c) /\ c_options (plain_command c) = map po (c_options c) /\
  c_commands (plain_command c) = map plain_command (c_commands c) /\
  c_name (plain_command c) = c_name c /\ c_require (plain_command c) = c_require c /\ c_multi (plain_command c) = c_multi c.
Proof. intros []. repeat split. Qed.

(** Completing a definition up to its sub-commands depends on the plain options only. *)
Lemma finish_items : forall st opts1 opts2 args1 args2 i a, map po opts1 = map po opts2 -> map pa args1 = map pa args2 ->
  exists r1 r2, set_internal_ids args1 opts1 i a = r1 /\ set_internal_ids args2 opts2 i a = r2 /\
    map pa (fst (fst (fst r1))) = map pa (fst (fst (fst r2))) /\ map po (snd (fst (fst r1))) = map po (snd (fst (fst r2))) /\
    snd (fst r1) = snd (fst r2) /\ snd r1 = snd r2 /\
    map_exc (map pe) (build_option_index (s_case_insensitive st) (snd (fst (fst r1)))) =
    map_exc (map pe) (build_option_index (s_case_insensitive st) (snd (fst (fst r2)))).
Proof.
  intros st opts1 opts2 args1 args2 i a Eo Ea. eexists. eexists. split; [reflexivity|]. split; [reflexivity|].
  pose proof (ids_plain args1 opts1 i a) as H1. pose proof (ids_plain args2 opts2 i a) as H2. rewrite Eo, Ea, H2 in H1. clear H2.
  destruct (set_internal_ids args1 opts1 i a) as (((a1 & o1) & v1) & n1). destruct (set_internal_ids args2 opts2 i a) as (((a2 & o2) & v2) & n2).
  cbn [fst snd]. injection H1 as E1 E2 E3 E4. repeat split; try congruence. rewrite <- !index_plain. congruence.
Qed.
Lemma finish_plain : forall st c full i a, map_exc plain_command (finish_command st full i a (plain_command c)) = map_exc plain_command (finish_command st full i a c).
Proof.
  intros st. induction c as [c IH] using cmd_nested_ind. intros full i a. rewrite !finish_command_eq.
  destruct (plain_fields c) as (-> & -> & -> & -> & -> & ->). rewrite validate_all_plain.
  destruct (validate_all (s_style st) (c_options c)) as [opts1|e]; [|reflexivity]. cbn [map_exc]. rewrite update_require_map.
  destruct (update_require (c_require c) (c_commands c)) as [rq'|e]; [|reflexivity]. cbv zeta.
  destruct (finish_items st (add_help_option (map po opts1) (c_current_section (plain_command c)) st) (add_help_option opts1 (c_current_section c) st)
    (map pa (c_arguments c)) (c_arguments c) i (a + 1)%N) as (r1 & r2 & E1 & E2 & Ea & Eo & Ev & En & Ex).
  { apply add_help_plain. } { rewrite map_map. reflexivity. }
  rewrite E1, E2. destruct r1 as (((a1 & o1) & v1) & n1). destruct r2 as (((a2 & o2) & v2) & n2). cbn [fst snd] in *. subst v1 n1.
  destruct (build_option_index _ o1) as [x1|e1], (build_option_index _ o2) as [x2|e2]; cbn [map_exc] in Ex; try discriminate; [|inversion Ex; reflexivity].
  injection Ex as Ex.
  assert (G : map_exc (map plain_command) (finish_subs st (c_name c) v2 n2 (map plain_command (c_commands c))) =
    map_exc (map plain_command) (finish_subs st (c_name c) v2 n2 (c_commands c))).
  { clear - IH. induction IH as [|d l Hd Hl IHl]; [reflexivity|]. cbn [map finish_subs].
    assert (En : c_name (plain_command d) = c_name d) by (destruct d; reflexivity). rewrite En. specialize (Hd (c_name c ++ c_space :: c_name d) v2 n2).
    destruct (finish_command st _ v2 n2 (plain_command d)) as [d1|e1], (finish_command st _ v2 n2 d) as [d2|e2]; cbn [map_exc] in Hd; try discriminate; [|inversion Hd; reflexivity].
    injection Hd as Hd. destruct (finish_subs st (c_name c) v2 n2 (map plain_command l)), (finish_subs st (c_name c) v2 n2 l); cbn [map_exc] in IHl |- *; try discriminate; [|inversion IHl; reflexivity].
    injection IHl as IHl. cbn [map]. congruence. }
  destruct (finish_subs st (c_name c) v2 n2 (map plain_command (c_commands c))) as [s1|e1], (finish_subs st (c_name c) v2 n2 (c_commands c)) as [s2|e2]; cbn [map_exc] in G |- *; try discriminate; [|inversion G; reflexivity].
  injection G as G. cbn [plain_command c_arguments c_options c_commands c_name c_full_name c_require c_multi c_argument_id c_index]. fold pa po pe. congruence.
Qed.
Lemma finish_alike : forall st c1 c2 full i a, plain_command c1 = plain_command c2 ->
  map_exc plain_command (finish_command st full i a c1) = map_exc plain_command (finish_command st full i a c2).
Proof. intros st c1 c2 full i a E. rewrite <- (finish_plain st c1), <- (finish_plain st c2), E. reflexivity. Qed.

Lemma plain_set_items : forall c1 c2 o1 o2, plain_command c1 = plain_command c2 -> map po o1 = map po o2 ->
  plain_command (set_c_items c1 (c_arguments c1) o1 (c_commands c1)) = plain_command (set_c_items c2 (c_arguments c2) o2 (c_commands c2)).
Proof. intros [] [] o1 o2 E Eo. cbn in E |- *. injection E. intros. f_equal; assumption. Qed.

Lemma finish_parser_plain : forall p q, alike p q -> map_exc plain_data (finish_parser p) = map_exc plain_data (finish_parser q).
Proof.
  intros [c1 s v lw1 wr1] [c2 s2 v2 lw2 wr2] E. unfold alike, plain_data in E. cbn [d_command d_settings d_version] in E. injection E as Ec <- <-.
  unfold finish_parser. cbn [d_command d_settings d_version d_line_width d_word_rules].
  assert (En : c_name c1 = c_name c2) by (apply (f_equal c_name) in Ec; destruct c1, c2; exact Ec).
  assert (Ef : c_full_name c1 = c_full_name c2) by (apply (f_equal c_full_name) in Ec; destruct c1, c2; exact Ec).
  assert (Eo : map po (c_options c1) = map po (c_options c2)) by (apply (f_equal c_options) in Ec; destruct c1, c2; exact Ec).
  rewrite En, Ef.
  assert (F : plain_command (set_c_items c1 (c_arguments c1) (add_version_option (c_options c1) (c_current_section c1) (c_name c2) v s) (c_commands c1)) =
    plain_command (set_c_items c2 (c_arguments c2) (add_version_option (c_options c2) (c_current_section c2) (c_name c2) v s) (c_commands c2))).
  { apply plain_set_items; [exact Ec|]. rewrite <- (add_version_plain _ (c_current_section c1) []), <- (add_version_plain _ (c_current_section c2) []), Eo. reflexivity. }
  pose proof (finish_alike s _ _ (if is_empty (c_full_name c2) then c_name c2 else c_full_name c2) 0 0 F) as G.
  destruct (finish_command s _ 0 0 (set_c_items c1 _ _ _)), (finish_command s _ 0 0 (set_c_items c2 _ _ _)); cbn [map_exc] in G |- *; try discriminate; [|inversion G; reflexivity].
  injection G as G. unfold plain_data. cbn [d_command d_settings d_version]. congruence.
Qed.

(** ** Parsing *)

Definition vl := plain_level.
Definition vc := plain_command.
Definition vs := plain_state.

Lemma vc_arguments : forall c, c_arguments (vc c) = map pa (c_arguments c). Proof. intros []; reflexivity. Qed.
Lemma vc_options : forall c, c_options (vc c) = map po (c_options c). Proof. intros []; reflexivity. Qed.
Lemma vc_commands : forall c, c_commands (vc c) = map vc (c_commands c). Proof. intros []; reflexivity. Qed.
Lemma vc_name : forall c, c_name (vc c) = c_name c. Proof. intros []; reflexivity. Qed.
Lemma vc_full_name : forall c, c_full_name (vc c) = c_full_name c. Proof. intros []; reflexivity. Qed.
Lemma vc_require : forall c, c_require (vc c) = c_require c. Proof. intros []; reflexivity. Qed.
Lemma vc_multi : forall c, c_multi (vc c) = c_multi c. Proof. intros []; reflexivity. Qed.
Lemma vc_index : forall c, c_index (vc c) = map pe (c_index c). Proof. intros []; reflexivity. Qed.
Lemma vl_command : forall l, l_command (vl l) = vc (l_command l). Proof. intros []; reflexivity. Qed.
Lemma vl_values : forall l, l_values (vl l) = l_values l. Proof. intros []; reflexivity. Qed.
Lemma vl_subs : forall l, l_subs (vl l) = map vl (l_subs l). Proof. intros []; reflexivity. Qed.
Lemma vl_unprocessed : forall l x, add_unprocessed (vl l) x = vl (add_unprocessed l x). Proof. intros []; reflexivity. Qed.
Lemma vl_result : forall l x, set_result x (vl l) = vl (set_result x l). Proof. intros []; reflexivity. Qed.
Lemma vl_breaking : forall l x, set_breaking_option (po x) (vl l) = vl (set_breaking_option x l). Proof. intros []; reflexivity. Qed.
Lemma vl_set_values : forall l x, set_l_values (vl l) x = vl (set_l_values l x). Proof. intros []; reflexivity. Qed.
Lemma vl_add_sub : forall l x, add_sub (vl l) (vl x) = vl (add_sub l x).
Proof. intros [] x. unfold add_sub, vl. cbn. rewrite map_app. reflexivity. Qed.
Lemma vl_new : forall c, new_level (vc c) = vl (new_level c). Proof. intros c. reflexivity. Qed.


Lemma vc_find_command : forall c n ci, find_command (vc c) n ci = option_map vc (find_command c n ci).
Proof.
  intros c n ci. unfold find_command. rewrite vc_commands. induction (c_commands c) as [|d l IH]; [reflexivity|].
  cbn [map find]. rewrite vc_name. destruct (are_equal _ _ _); [reflexivity|exact IH].
Qed.
Lemma lower_map : forall A B (f : A -> B) (la : A -> bool) (lb : B -> bool) l, (forall x, lb (f x) = la x) -> lower_bound lb (map f l) = lower_bound la l.
Proof.
  intros A B f la lb l H. unfold lower_bound. rewrite map_length. generalize 0. generalize (length l) at 2 4. generalize (length l).
  induction n as [|n IH]; intros len first; [reflexivity|]. cbn [lower_bound_loop]. destruct len as [|len]; [reflexivity|]. cbv zeta. rewrite nth_error_map.
  destruct (nth_error l _) as [x|]; cbn [option_map]; [|reflexivity]. rewrite H. destruct (la x); apply IH.
Qed.
Lemma find_impl_plain : forall ix f ab ci, find_option_impl (map pe ix) f ab ci = option_map po (find_option_impl ix f ab ci).
Proof.
  intros ix f ab ci. unfold find_option_impl. rewrite (lower_map _ _ pe (fun e => is_less (fst e) f ci)) by reflexivity. cbv zeta. rewrite !nth_error_map.
  destruct (nth_error ix _) as [(g & o)|]; cbn [option_map pe fst snd]; [|reflexivity]. destruct (str_eqb _ _); [reflexivity|]. destruct (_ && _); [reflexivity|].
  destruct (negb ab); [reflexivity|]. destruct (negb _); [reflexivity|]. destruct (nth_error ix _) as [(h & o2)|]; cbn [option_map pe fst snd]; [|reflexivity].
  destruct (starts_with _ _ _); reflexivity.
Qed.
Lemma vc_find_option : forall c f ab ci, find_option (vc c) f ab ci = option_map po (find_option c f ab ci).
Proof.
  intros. unfold find_option, find_option_in. rewrite vc_index, !find_impl_plain. destruct (find_option_impl _ f _ _); [reflexivity|]. cbn [option_map].
  destruct (_ && _); [|reflexivity]. destruct (find_option_impl _ _ _ _) as [o|]; [|reflexivity]. cbn [option_map]. rewrite po_argument. destruct (is_empty _); reflexivity.
Qed.
Lemma vc_get_name : forall c id, get_name (vc c) id = get_name c id.
Proof.
  intros. unfold get_name. rewrite vc_arguments, vc_options.
  assert (F : find (fun a => (a_argument_id a =? id)%N) (map pa (c_arguments c)) = option_map pa (find (fun a => (a_argument_id a =? id)%N) (c_arguments c))).
  { induction (c_arguments c) as [|a l IH]; [reflexivity|]. cbn [map find]. change (a_argument_id (pa a)) with (a_argument_id a). destruct (_ =? _)%N; [reflexivity|exact IH]. }
  assert (G : find (fun a => (o_argument_id a =? id)%N) (map po (c_options c)) = option_map po (find (fun a => (o_argument_id a =? id)%N) (c_options c))).
  { induction (c_options c) as [|a l IH]; [reflexivity|]. cbn [map find]. change (o_argument_id (po a)) with (o_argument_id a). destruct (_ =? _)%N; [reflexivity|exact IH]. }
  rewrite F, G. destruct (find _ (c_arguments c)); [reflexivity|]. destruct (find _ (c_options c)); reflexivity.
Qed.
Lemma vc_value_id : forall c n, get_value_id (vc c) n = get_value_id c n.
Proof.
  intros. unfold get_value_id, make_ids.
  assert (E : id_entries (vc c) = id_entries c).
  { unfold id_entries. rewrite vc_arguments, vc_options. f_equal; [induction (c_arguments c) as [|a l IH]|induction (c_options c) as [|a l IH]];
      try reflexivity; cbn [map flat_map]; rewrite IH; reflexivity. }
  rewrite E. reflexivity.
Qed.
Lemma min_max_plain : forall l, get_min_max_count (map pa l) = get_min_max_count l.
Proof. intros l. unfold get_min_max_count. generalize (0%N, 0%N). induction l as [|a l IH]; intros acc; [reflexivity|]. cbn [map fold_left]. rewrite IH. reflexivity. Qed.
Lemma requires_plain : forall l, requires_argument_count (map pa l) = requires_argument_count l.
Proof.
  intros l. unfold requires_argument_count. generalize true. induction l as [|a l IH]; intros b; [reflexivity|]. cbn [map requires_count_loop].
  change (a_min (pa a)) with (a_min a). change (a_max (pa a)) with (a_max a). rewrite IH. reflexivity.
Qed.
Definition pk := plain_counter_state.
Lemma plain_counter_plain : forall l, plain_counter (map pa l) = pk (plain_counter l).
Proof.
  intros l. unfold plain_counter.
  assert (E : find_first_optional (map pa l) = find_first_optional l).
  { unfold find_first_optional. generalize 0 at 1 3. generalize 0. induction l as [|a l IH]; intros r i; [reflexivity|]. cbn [map find_first_optional_loop].
    change (a_min (pa a)) with (a_min a). apply IH. }
  rewrite E. cbv zeta. unfold pk, plain_counter_state. cbn [ac_counters ac_index ac_counter ac_first_optional]. f_equal. fold pa pn.
  generalize (find_first_optional l). generalize 0. clear E. induction l as [|a l IH]; intros i fo; [reflexivity|]. cbn [map make_counters_loop].
  rewrite map_app, <- IH. f_equal. change (a_min (pa a)) with (a_min a). change (a_max (pa a)) with (a_max a). destruct (_ && _); reflexivity.
Qed.
Lemma skip_plain : forall l i, skip_empty (map pn l) i = skip_empty l i.
Proof. induction l as [|(k & a) l IH]; intros i; [reflexivity|]. cbn [map skip_empty pn fst snd]. rewrite IH. reflexivity. Qed.
Lemma decrement_plain : forall l i, decrement_at (map pn l) i = map pn (decrement_at l i).
Proof. induction l as [|(k & a) l IH]; intros [|i]; try reflexivity. cbn [map decrement_at pn fst snd]. rewrite IH. reflexivity. Qed.
Lemma next_argument_plain : forall ac, next_argument (pk ac) = (option_map pa (fst (next_argument ac)), pk (snd (next_argument ac))).
Proof.
  intros ac. unfold next_argument. change (ac_counters (pk ac)) with (map pn (ac_counters ac)). change (ac_index (pk ac)) with (ac_index ac).
  change (ac_counter (pk ac)) with (ac_counter ac). change (ac_first_optional (pk ac)) with (ac_first_optional ac).
  rewrite skipn_map, skip_plain. cbv zeta. rewrite nth_error_map. destruct (nth_error _ _) as [(k & a)|]; cbn [option_map pn fst snd]; [|reflexivity].
  rewrite decrement_plain. reflexivity.
Qed.
Lemma counted_plain : forall l n i, counted_counter (map pa l) n i = pk (counted_counter l n i).
Proof.
  intros l n i. unfold counted_counter.
  assert (E : make_counters_n (map pa l) n = map pn (make_counters_n l n)).
  { unfold make_counters_n. rewrite min_max_plain. destruct (get_min_max_count l) as (lo & hi). cbv zeta. generalize (if (n <? lo)%N then 0%N else if (hi <? n)%N then (hi - lo)%N else (n - lo)%N).
    induction l as [|a l IH]; intros m; [reflexivity|]. cbn [map distribute]. change (a_min (pa a)) with (a_min a). change (a_max (pa a)) with (a_max a).
    destruct (_ || _); [|destruct (_ <=? _)%N]; cbn [map]; rewrite IH; reflexivity. }
  rewrite E. cbv zeta. rewrite map_length. change (mk_counter (map pn (make_counters_n l n)) 0 0 (length (make_counters_n l n))) with (pk (mk_counter (make_counters_n l n) 0 0 (length (make_counters_n l n)))).
  generalize (mk_counter (make_counters_n l n) 0 0 (length (make_counters_n l n))). induction (N.to_nat i) as [|k IH]; intros ac; [reflexivity|]. cbn [consume_initial].
  rewrite next_argument_plain. destruct (next_argument ac) as ([a|] & ac'); cbn [fst snd option_map]; [apply IH|reflexivity].
Qed.
Lemma complete_plain : forall ac, is_complete (pk ac) = is_complete ac.
Proof.
  intros ac. unfold is_complete. change (ac_counters (pk ac)) with (map pn (ac_counters ac)). change (ac_index (pk ac)) with (ac_index ac).
  change (ac_first_optional (pk ac)) with (ac_first_optional ac). rewrite nth_error_map. destruct (nth_error _ _) as [(k & a)|]; reflexivity.
Qed.

Definition omap {A} (h : A -> A) (x : outcome A) : outcome A :=
  match x with
  | Ret a st => Ret (h a) (vs st)
  | Exits c st => Exits c (vs st)
  | Throws e st => Throws e (vs st)
  | Undefined => Undefined
  | NoFuel => NoFuel
  end.

Definition rel {A} (h : A -> A) (m1 m2 : M A) : Prop := forall st, m1 (vs st) = omap h (m2 st).
Definition same {A} (x : A) : A := x.

Lemma rel_bind : forall A B (g : A -> A) (h : B -> B) m1 m2 f1 f2, rel g m1 m2 -> (forall a, rel h (f1 (g a)) (f2 a)) ->
  rel h (bind m1 f1) (bind m2 f2).
Proof.
  intros A B g h m1 m2 f1 f2 Hm Hf st. unfold bind. rewrite Hm. destruct (m2 st) as [a st'| | | |]; cbn [omap]; try reflexivity. apply Hf.
Qed.
Lemma rel_ret : forall A (h : A -> A) a b, a = h b -> rel h (ret a) (ret b).
Proof. intros A h a b -> st. reflexivity. Qed.
Lemma rel_modify : forall f g, (forall st, f (vs st) = vs (g st)) -> rel same (modify f) (modify g).
Proof. intros f g H st. unfold modify. rewrite H. reflexivity. Qed.
Lemma rel_gets : forall A (h : A -> A) f g, (forall st, f (vs st) = h (g st)) -> rel h (gets f) (gets g).
Proof. intros A h f g H st. unfold gets. rewrite H. reflexivity. Qed.
Lemma rel_throw : forall A (h : A -> A) e, rel h (throw e) (throw e). Proof. intros A h e st. reflexivity. Qed.
Lemma rel_exit : forall A (h : A -> A) e, rel h (exit_with e) (exit_with e). Proof. intros A h e st. reflexivity. Qed.
Lemma rel_emit_visible : forall e, rel same (emit (plain_event e)) (emit e).
Proof. intros e. apply rel_modify. intros []. unfold add_event, vs, plain_state. cbn. rewrite map_app. reflexivity. Qed.
Lemma rel_emit : forall e, plain_event e = e -> rel same (emit e) (emit e).
Proof. intros e H. rewrite <- H at 1. apply rel_emit_visible. Qed.
Lemma rel_next : rel same m_next m_next.
Proof. intros st. unfold m_next. change (ps_iter (vs st)) with (ps_iter st). destruct (it_next _) as [(r & it)|]; reflexivity. Qed.
Lemma rel_next_value : rel same m_next_value m_next_value.
Proof. intros st. unfold m_next_value. change (ps_iter (vs st)) with (ps_iter st). destruct (it_next_value _) as [(r & it)|]; reflexivity. Qed.
Lemma rel_current : rel same m_current m_current.
Proof. intros st. unfold m_current. change (ps_iter (vs st)) with (ps_iter st). destruct (it_current _); reflexivity. Qed.
Lemma rel_command : rel vc (gets ps_command) (gets ps_command).
Proof. apply rel_gets. reflexivity. Qed.
Lemma rel_values : rel same (gets (fun st => l_values (ps_cur st))) (gets (fun st => l_values (ps_cur st))).
Proof. apply rel_gets. intros st. apply vl_values. Qed.
Lemma rel_set_values : forall F, rel same (modify (fun st => set_values st (F (l_values (ps_cur st))))) (modify (fun st => set_values st (F (l_values (ps_cur st))))).
Proof.
  intros F. apply rel_modify. intros st. unfold set_values. change (ps_cur (vs st)) with (vl (ps_cur st)). rewrite vl_values, vl_set_values. reflexivity.
Qed.

Section Parse.
Variable cfg : settings.
Hypothesis Blind : blind cfg.

Lemma rel_copy_remaining : rel same copy_remaining copy_remaining.
Proof.
  intros st. unfold copy_remaining. change (ps_iter (vs st)) with (ps_iter st). destruct (it_remaining _) as [(args & it)|]; [|reflexivity].
  cbn [omap]. change (ps_cur (vs st)) with (vl (ps_cur st)). rewrite vl_unprocessed. reflexivity.
Qed.
Lemma vs_all_results : forall rc st, set_all_results rc (vs st) = vs (set_all_results rc st).
Proof.
  intros rc st. unfold set_all_results, vs, plain_state, set_parents, set_cur. cbn. fold vl. f_equal; [apply vl_result|].
  rewrite !map_map. apply map_ext. intros l. apply vl_result.
Qed.

Ltac rel_one :=
  first [ (apply rel_emit; reflexivity) | apply rel_next | apply rel_next_value | apply rel_current | apply rel_command | apply rel_values
        | apply rel_set_values | apply rel_copy_remaining | apply rel_throw | apply rel_exit
        | apply rel_ret; reflexivity | (apply rel_modify; intros []; reflexivity) ].

Lemma rel_error : forall m, rel same (error cfg m) (error cfg m).
Proof.
  intros m. unfold error. eapply rel_bind; [apply rel_command|]. intros c. eapply rel_bind; [apply (rel_emit_visible (EvError c m))|]. intros _.
  destruct (s_auto_exit cfg); [apply rel_exit|]. eapply rel_bind; [apply rel_copy_remaining|]. intros _.
  eapply rel_bind; [apply rel_modify, vs_all_results|]. intros _. rel_one.
Qed.

Lemma vs_multi_parent : forall st, find_first_multi_command_parent (vs st) = find_first_multi_command_parent st.
Proof.
  intros st. unfold find_first_multi_command_parent. change (ps_parents (vs st)) with (map vl (ps_parents st)). generalize 1.
  induction (ps_parents st) as [|p l IH]; intros k; [reflexivity|]. cbn [map multi_parent_loop]. rewrite vl_command, vc_multi.
  destruct (c_multi _); [reflexivity|apply IH].
Qed.
Lemma vs_parent_command : forall st k, parent_command (vs st) k = option_map vc (parent_command st k).
Proof.
  intros st [|k]; cbn [parent_command]; [change (ps_cur (vs st)) with (vl (ps_cur st)); rewrite vl_command; reflexivity|].
  change (ps_parents (vs st)) with (map vl (ps_parents st)). rewrite nth_error_map. destruct (nth_error _ k); cbn; [rewrite vl_command|]; reflexivity.
Qed.
Definition vpair (x : option (cmd_data * nat)) : option (cmd_data * nat) := option_map (fun p => (vc (fst p), snd p)) x.
Lemma vs_sibling : forall st n, find_sibling_command cfg (vs st) n = vpair (find_sibling_command cfg st n).
Proof.
  intros st n. unfold find_sibling_command. change (ps_counter (vs st)) with (pk (ps_counter st)). rewrite complete_plain. destruct (negb _); [reflexivity|].
  rewrite vs_multi_parent. destruct (find_first_multi_command_parent st) as [k|]; [|reflexivity]. rewrite vs_parent_command.
  destruct (parent_command st k) as [p|]; [|reflexivity]. cbn [option_map]. rewrite vc_find_command. destruct (find_command p n _); reflexivity.
Qed.

Lemma vl_pop : forall k cur parents, pop_levels k (vl cur) (map vl parents) = (vl (fst (pop_levels k cur parents)), map vl (snd (pop_levels k cur parents))).
Proof.
  induction k as [|k IH]; intros cur parents; [reflexivity|]. destruct parents as [|p parents]; [reflexivity|]. cbn [map pop_levels].
  rewrite vl_add_sub. apply IH.
Qed.
Lemma rel_reactivate : forall k, rel same (reactivate k) (reactivate k).
Proof.
  intros k. apply rel_modify. intros st. change (ps_cur (vs st)) with (vl (ps_cur st)). change (ps_parents (vs st)) with (map vl (ps_parents st)).
  rewrite vl_pop. destruct (pop_levels k (ps_cur st) (ps_parents st)) as (cur & parents). cbn [fst snd]. rewrite vl_command. reflexivity.
Qed.

Lemma vs_count_values : forall fuel st min it r, count_values cfg fuel (vs st) min it r = count_values cfg fuel st min it r.
Proof.
  induction fuel as [|fuel IH]; intros st min it r; [reflexivity|]. cbn [count_values]. destruct (it_next_value it) as [([arg|] & it')|]; [|reflexivity|reflexivity].
  change (ps_command (vs st)) with (vc (ps_command st)). rewrite vc_find_command, vs_sibling. destruct (find_command _ arg _); [reflexivity|]. cbn [option_map].
  destruct (find_sibling_command cfg st arg); cbn [vpair option_map]; rewrite ?IH; reflexivity.
Qed.
Lemma vs_count_tokens : forall fuel st min it r, count_tokens cfg fuel (vs st) min it r = count_tokens cfg fuel st min it r.
Proof.
  induction fuel as [|fuel IH]; intros st min it r; [reflexivity|]. cbn [count_tokens]. destruct (it_next it) as [([arg|] & it')|]; [|apply vs_count_values|reflexivity].
  change (ps_command (vs st)) with (vc (ps_command st)). rewrite vc_find_option. destruct (find_option _ arg _ _) as [o|]; cbn [option_map].
  - rewrite po_argument. change (o_type (po o)) with (o_type o). destruct (if negb _ then _ else _) as [it''|]; [|reflexivity]. destruct (o_type o); try reflexivity; try apply IH. apply vs_count_values.
  - destruct (is_option _ _); [apply IH|]. rewrite vc_find_command, vs_sibling. destruct (find_command _ arg _); [reflexivity|]. cbn [option_map].
    destruct (find_sibling_command cfg st arg); cbn [vpair option_map]; rewrite ?IH; reflexivity.
Qed.
Lemma rel_count : rel same (count_arguments cfg) (count_arguments cfg).
Proof.
  intros st. unfold count_arguments. change (ps_command (vs st)) with (vc (ps_command st)). rewrite vc_arguments, min_max_plain, vs_count_tokens.
  change (ps_iter (vs st)) with (ps_iter st). destruct (count_tokens _ _ _ _ _ _); reflexivity.
Qed.
Lemma rel_start_counter : rel same (start_counter cfg) (start_counter cfg).
Proof.
  unfold start_counter. eapply rel_bind; [apply rel_command|]. intros c. rewrite vc_arguments, requires_plain. destruct (negb _); [apply rel_modify; intros st; rewrite plain_counter_plain; reflexivity|].
  eapply rel_bind; [apply rel_count|]. intros n. apply rel_modify. intros st. unfold same. rewrite counted_plain. reflexivity.
Qed.
Lemma rel_update_arguments : forall new, rel same (update_arguments cfg new) (update_arguments cfg new).
Proof.
  intros new. unfold update_arguments. destruct (is_empty new); [rel_one|]. eapply rel_bind.
  - intros st. change (ps_iter (vs st)) with (ps_iter st). instantiate (1 := same). destruct (it_insert _ _); reflexivity.
  - intros _. eapply rel_bind; [apply rel_command|]. intros c. rewrite vc_arguments, requires_plain. destruct (negb _); [rel_one|].
    eapply rel_bind; [apply (rel_gets _ same); reflexivity|]. intros current. eapply rel_bind; [apply rel_count|]. intros n. apply rel_modify. intros st. unfold same. rewrite counted_plain. reflexivity.
Qed.
Lemma rel_resolve : forall k, rel same (resolve_key k) (resolve_key k).
Proof.
  intros [name|v a] st; [|reflexivity]. unfold resolve_key. change (ps_cur (vs st)) with (vl (ps_cur st)). rewrite vl_command, vc_value_id.
  destruct (get_value_id _ _); reflexivity.
Qed.
Lemma rel_user_error : forall msg, rel same (user_error cfg msg) (user_error cfg msg).
Proof.
  intros msg. unfold user_error. eapply rel_bind; [apply (rel_gets _ vc); intros st; apply vl_command|]. intros c.
  eapply rel_bind; [apply (rel_emit_visible (EvError c (MsgUser _)))|]. intros _. destruct (s_auto_exit cfg); [apply rel_exit|apply rel_throw].
Qed.
Lemma rel_value_op : forall op, rel same (run_value_op cfg op) (run_value_op cfg op).
Proof.
  intros [k v|k v|k|msg|msg aid]; cbn [run_value_op].
  - eapply rel_bind; [apply rel_resolve|]. intros ids. apply (rel_set_values (fun s => assign_value s (fst ids) v (snd ids))).
  - eapply rel_bind; [apply rel_resolve|]. intros ids. apply (rel_set_values (fun s => append_value s (fst ids) v (snd ids))).
  - eapply rel_bind; [apply rel_resolve|]. intros ids. apply (rel_set_values (fun s => clear_value s (fst ids))).
  - apply rel_user_error.
  - eapply rel_bind; [apply (rel_gets _ same); intros st; change (ps_cur (vs st)) with (vl (ps_cur st)); rewrite vl_command; apply vc_get_name|].
    intros name. apply rel_user_error.
Qed.
Lemma rel_value_ops : forall ops, rel same (run_value_ops cfg ops) (run_value_ops cfg ops).
Proof. induction ops as [|op ops IH]; [apply rel_ret; reflexivity|]. cbn [run_value_ops]. eapply rel_bind; [apply rel_value_op|]. intros _. exact IH. Qed.
Lemma rel_texts : forall ts, rel same (emit_texts ts) (emit_texts ts).
Proof. induction ts as [|t ts IH]; [apply rel_ret; reflexivity|]. cbn [emit_texts]. eapply rel_bind; [apply rel_emit; reflexivity|]. intros _. exact IH. Qed.
Lemma rel_callback : forall cb ev v, plain_event ev = ev -> rel same (run_callback cfg cb ev v) (run_callback cfg cb ev v).
Proof.
  intros [f|] ev v Hev; [|apply rel_ret; reflexivity]. unfold run_callback. eapply rel_bind; [apply rel_emit, Hev|]. intros _.
  eapply rel_bind; [apply (rel_gets _ same); intros st; change (ps_cur (vs st)) with (vl (ps_cur st)); rewrite vl_values; reflexivity|]. intros eff. unfold same.
  eapply rel_bind; [rel_one|]. intros _. eapply rel_bind; [apply rel_texts|]. intros _. eapply rel_bind; [apply rel_value_ops|]. intros _.
  eapply rel_bind; [destruct (eff_throws eff); rel_one|]. intros _. apply rel_update_arguments.
Qed.
Lemma rel_mandatory : forall opts, rel same (has_all_mandatory cfg (map po opts)) (has_all_mandatory cfg opts).
Proof.
  induction opts as [|o opts IH]; [apply rel_ret; reflexivity|]. cbn [map has_all_mandatory]. eapply rel_bind; [apply rel_values|]. intros v. unfold same.
  destruct (negb _ && _); [|exact IH]. eapply rel_bind; [apply rel_error|]. intros _. rel_one.
Qed.
Lemma rel_check_counts : rel same (check_counts cfg) (check_counts cfg).
Proof.
  unfold check_counts. eapply rel_bind; [apply rel_command|]. intros c. rewrite vc_options, vc_arguments, vc_require.
  eapply rel_bind; [apply rel_mandatory|]. intros ok. unfold same. destruct (negb ok); [rel_one|]. destruct (c_require c) as [req|]; [|intros st; reflexivity].
  eapply rel_bind; [apply (rel_gets _ (map vl)); intros st; apply vl_subs|]. intros subs. rewrite is_empty_map.
  destruct (req && is_empty subs); [eapply rel_bind; [apply rel_error|intros _; rel_one]|].
  eapply rel_bind; [apply (rel_gets _ pk); reflexivity|]. intros ac. rewrite complete_plain. destruct (is_complete ac).
  - eapply rel_bind; [|intros _; apply rel_ret; reflexivity]. apply rel_modify. intros st. rewrite <- vs_all_results. reflexivity.
  - rewrite min_max_plain. destruct (get_min_max_count _) as (lo & hi). eapply rel_bind; [apply rel_error|intros _; rel_one].
Qed.
Lemma rel_operation : forall o f, rel same (apply_operation cfg (po o) f) (apply_operation cfg o f).
Proof.
  intros o f. unfold apply_operation. change (o_operation (po o)) with (o_operation o). change (o_constant (po o)) with (o_constant o). change (o_value_id (po o)) with (o_value_id o). change (o_argument_id (po o)) with (o_argument_id o). destruct (o_operation o).
  - rel_one.
  - destruct (negb _).
    + eapply rel_bind; [apply (rel_set_values (fun s => assign_value s _ _ _))|]. intros _. rel_one.
    + eapply rel_bind; [apply rel_next_value|]. intros [v|].
      * eapply rel_bind; [apply (rel_set_values (fun s => assign_value s _ _ _))|]. intros _. rel_one.
      * eapply rel_bind; [apply rel_error|intros _; rel_one].
  - destruct (negb _).
    + eapply rel_bind; [apply (rel_set_values (fun s => append_value s _ _ _))|]. intros _. rel_one.
    + eapply rel_bind; [apply rel_next_value|]. intros [v|].
      * eapply rel_bind; [apply (rel_set_values (fun s => append_value s _ _ _))|]. intros _. rel_one.
      * eapply rel_bind; [apply rel_error|intros _; rel_one].
  - eapply rel_bind; [apply (rel_set_values (fun s => clear_value s _))|]. intros _. rel_one.
Qed.
Lemma rel_break : forall o, rel same (modify (fun st => set_cur st (set_breaking_option (po o) (ps_cur st)))) (modify (fun st => set_cur st (set_breaking_option o (ps_cur st)))).
Proof. intros o. apply rel_modify. intros st. change (ps_cur (vs st)) with (vl (ps_cur st)). rewrite vl_breaking. reflexivity. Qed.
Lemma rel_type : forall o, rel same (apply_type (po o)) (apply_type o).
Proof.
  intros o. unfold apply_type. change (o_type (po o)) with (o_type o). destruct (o_type o).
  - rel_one.
  - eapply rel_bind; [apply rel_command|]. intros c. eapply rel_bind; [apply (rel_emit_visible (EvHelp c))|]. intros _.
    eapply rel_bind; [rel_one|]. intros _. eapply rel_bind; [apply rel_break|]. intros _. rel_one.
  - eapply rel_bind; [rel_one|]. intros _. eapply rel_bind; [apply rel_break|]. intros _. rel_one.
  - eapply rel_bind; [rel_one|]. intros _. eapply rel_bind; [apply rel_break|]. intros _. rel_one.
  - eapply rel_bind; [rel_one|]. intros _. rel_one.
  - eapply rel_bind; [rel_one|]. intros _. rel_one.
Qed.
Lemma option_cb_plain : forall o, option_cb cfg (po o) = option_cb cfg o.
Proof. intros o. unfold option_cb. destruct (s_option_callback cfg) as [f|] eqn:E; [|reflexivity]. cbn [option_map]. rewrite (proj2 Blind f E (po o) o (po_twice o)). reflexivity. Qed.
Lemma argument_cb_plain : forall a, argument_cb cfg (pa a) = argument_cb cfg a.
Proof. intros a. unfold argument_cb. destruct (s_argument_callback cfg) as [f|] eqn:E; [|reflexivity]. cbn [option_map]. rewrite (proj1 Blind f E (pa a) a (pa_twice a)). reflexivity. Qed.
Lemma rel_known_option : forall o f, rel same (process_known_option cfg (po o) f) (process_known_option cfg o f).
Proof.
  intros o f. unfold process_known_option. eapply rel_bind; [apply rel_operation|]. intros [v|]; [|apply rel_ret; reflexivity]. unfold same. rewrite option_cb_plain. change (o_callback (po o)) with (o_callback o). change (o_argument_id (po o)) with (o_argument_id o).
  eapply rel_bind; [apply rel_callback; reflexivity|]. intros _. eapply rel_bind; [apply rel_callback; reflexivity|]. intros _. eapply rel_bind; [apply rel_type|]. intros r. rel_one.
Qed.

Definition vr (r : iter_result) : iter_result := plain_result r.

Lemma rel_option : forall f, rel vr (process_option cfg f) (process_option cfg f).
Proof.
  intros f. unfold process_option. eapply rel_bind; [apply rel_command|]. intros c. rewrite vc_find_option. destruct (find_option _ _ _ _) as [o|]; cbn [option_map].
  - eapply rel_bind; [apply rel_known_option|]. intros (r & arg). unfold same. destruct r; try (apply rel_ret; reflexivity).
    + eapply rel_bind; [apply rel_check_counts|]. intros ok. unfold same. destruct (negb ok); [apply rel_ret; reflexivity|].
      eapply rel_bind; [apply (rel_gets _ same); apply vs_multi_parent|]. intros [k|]; cbn [same].
      * eapply rel_bind; [apply rel_reactivate|]. intros _. apply rel_ret. reflexivity.
      * eapply rel_bind; [apply rel_copy_remaining|]. intros _. apply rel_ret. reflexivity.
    + eapply rel_bind; [apply rel_copy_remaining|]. intros _. apply rel_ret. reflexivity.
    + destruct (s_auto_exit cfg); [apply rel_exit|]. eapply rel_bind; [apply rel_copy_remaining|]. intros _. apply rel_ret. reflexivity.
  - destruct (negb _).
    + eapply rel_bind; [apply rel_current|]. intros cur. eapply rel_bind; [apply rel_error|]. intros _. apply rel_ret. reflexivity.
    + eapply rel_bind; [apply rel_current|]. intros cur. unfold same. destruct (negb _).
      * eapply rel_bind; [apply rel_error|]. intros _. apply rel_ret. reflexivity.
      * eapply rel_bind; [|intros _; apply rel_ret; reflexivity]. apply rel_modify. intros st. change (ps_cur (vs st)) with (vl (ps_cur st)).
        rewrite vl_unprocessed. reflexivity.
Qed.
Lemma rel_process_command : forall c, rel vr (process_command cfg (vc c)) (process_command cfg c).
Proof.
  intros c. unfold process_command. eapply rel_bind; [apply rel_modify; intros st; reflexivity|]. intros _.
  eapply rel_bind; [apply rel_start_counter|]. intros _. eapply rel_bind; [apply rel_modify; intros []; reflexivity|]. intros _.
  eapply rel_bind; [apply rel_current|]. intros cur. apply rel_ret. reflexivity.
Qed.
Lemma rel_next_argument : rel (option_map pa) m_next_argument m_next_argument.
Proof. intros st. unfold m_next_argument. change (ps_counter (vs st)) with (pk (ps_counter st)). rewrite next_argument_plain. destruct (next_argument _). reflexivity. Qed.
Lemma rel_argument : forall v, rel vr (process_argument cfg v) (process_argument cfg v).
Proof.
  intros v. unfold process_argument. eapply rel_bind; [apply (rel_gets _ vpair); intros st; apply vs_sibling|]. intros [(c & k)|]; cbn [vpair option_map fst snd].
  - eapply rel_bind; [apply rel_reactivate|]. intros _. apply rel_process_command.
  - eapply rel_bind; [apply rel_next_argument|]. intros [a|]; cbn [option_map].
    + rewrite argument_cb_plain. change (a_callback (pa a)) with (a_callback a). change (a_value_id (pa a)) with (a_value_id a). change (a_argument_id (pa a)) with (a_argument_id a). eapply rel_bind; [apply (rel_set_values (fun s => append_value s _ _ _))|]. intros _. eapply rel_bind; [apply rel_callback; reflexivity|]. intros _.
      eapply rel_bind; [apply rel_callback; reflexivity|]. intros _. apply rel_ret. reflexivity.
    + destruct (s_ignore_arguments cfg).
      * eapply rel_bind; [apply rel_modify; intros st; change (ps_cur (vs st)) with (vl (ps_cur st)); rewrite vl_unprocessed; reflexivity|]. intros _.
        eapply rel_bind; [apply rel_current|]. intros cur. apply rel_ret. reflexivity.
      * eapply rel_bind; [apply rel_error|]. intros _. apply rel_ret. reflexivity.
Qed.
Lemma rel_token : forall mode arg, rel vr (process_token cfg mode arg) (process_token cfg mode arg).
Proof.
  intros mode arg. unfold process_token. eapply rel_bind; [apply rel_command|]. intros c. destruct (_ && _); [apply rel_option|].
  rewrite vc_commands, is_empty_map. destruct (is_empty _); [apply rel_argument|]. rewrite vc_find_command. destruct (find_command _ _ _) as [d|]; cbn [option_map].
  - apply rel_process_command.
  - eapply rel_bind; [apply rel_error|]. intros _. apply rel_ret. reflexivity.
Qed.
Lemma rel_step : rel vr (next cfg) (next cfg).
Proof.
  unfold next. eapply rel_bind; [apply (rel_gets _ same); reflexivity|]. intros mode. unfold same.
  assert (T : forall m, (m = m_next \/ m = m_next_value) -> rel vr
    (t <- m ;; match t with
      | None => ok <- check_counts cfg ;; ret (mk_ir (if (ok : bool) then IC_DONE else IC_ERROR) ItNone [])
      | Some arg => process_token cfg mode arg end)
    (t <- m ;; match t with
      | None => ok <- check_counts cfg ;; ret (mk_ir (if (ok : bool) then IC_DONE else IC_ERROR) ItNone [])
      | Some arg => process_token cfg mode arg end)).
  { intros m Hm. eapply rel_bind; [destruct Hm as [->| ->]; [apply rel_next|apply rel_next_value]|]. intros [arg|]; cbn [same]; [apply rel_token|].
    eapply rel_bind; [apply rel_check_counts|]. intros ok. apply rel_ret. reflexivity. }
  destruct mode; [apply (T m_next); left; reflexivity|apply (T m_next_value); right; reflexivity|apply rel_ret; reflexivity|apply rel_throw].
Qed.
Lemma rel_loop : forall fuel, rel same (parse_loop cfg fuel) (parse_loop cfg fuel).
Proof.
  induction fuel as [|fuel IH]; [intros st; reflexivity|]. cbn [parse_loop]. eapply rel_bind; [apply rel_step|]. intros [code item v].
  assert (Ec : ir_code (vr (mk_ir code item v)) = code) by (destruct item; reflexivity). rewrite Ec. cbn [ir_code]. destruct code; try exact IH; apply rel_ret; reflexivity.
Qed.
End Parse.

Lemma initial_values_plain : forall l, initial_values (map po l) = initial_values l.
Proof. intros l. unfold initial_values. generalize (@nil (N * (str * N))). induction l as [|o l IH]; intros acc; [reflexivity|]. cbn [map fold_left]. rewrite IH. reflexivity. Qed.
Lemma initial_plain : forall cfg c args, initial_state cfg (vc c) args = vs (initial_state cfg c args).
Proof. intros cfg c args. unfold initial_state. rewrite vc_options, initial_values_plain. reflexivity. Qed.
Lemma run_plain : forall cfg fuel c args, blind cfg -> run_parser cfg fuel (vc c) args = omap same (run_parser cfg fuel c args).
Proof.
  intros cfg fuel c args B. unfold run_parser. rewrite initial_plain.
  apply (rel_bind _ _ same same); [apply rel_start_counter|]. intros _. apply (rel_loop cfg B).
Qed.

(** ** Parsers that differ in such texts only *)

Lemma parse_plain : forall fuel p q args, alike p q -> blind (d_settings p) ->
  plain_end (parse_arguments fuel p args) = plain_end (parse_arguments fuel q args).
Proof.
  intros fuel p q args A B. pose proof (finish_parser_plain p q A) as F. unfold parse_arguments.
  assert (S : forall x y, finish_parser x = Val y -> d_settings y = d_settings x).
  { intros x y H. unfold finish_parser in H. destruct (finish_command _ _ _ _ _); [|discriminate]. injection H as <-. reflexivity. }
  destruct (finish_parser p) as [p1|e1] eqn:Ep, (finish_parser q) as [q1|e2]; cbn [map_exc] in F; try discriminate; [|injection F as ->; reflexivity].
  apply S in Ep. injection F as Fc Fs Fv.
  pose proof (run_plain (d_settings p1) fuel (d_command p1) args) as R1. pose proof (run_plain (d_settings q1) fuel (d_command q1) args) as R2.
  rewrite <- Fs, Ep in *. specialize (R1 B). specialize (R2 B). unfold vc in R1, R2. rewrite Fc, R2 in R1.
  destruct (run_parser _ fuel (d_command p1) args), (run_parser _ fuel (d_command q1) args); cbn [omap] in R1; try discriminate; cbn [plain_end]; unfold vs in R1; congruence.
Qed.

Lemma pl_seen : forall l m, plain_level l = plain_level m -> seen_of l = seen_of m.
Proof.
  fix IH 1. intros [c1 v1 u1 r1 s1 l1] [c2 v2 u2 r2 s2 l2] E. cbn in E. injection E as Ec -> -> -> _ El. cbn [seen_of l_values l_unprocessed l_result l_command l_subs].
  assert (N : c_name c1 = c_name c2) by (apply (f_equal c_name) in Ec; destruct c1, c2; exact Ec). rewrite N. f_equal.
  revert l2 El. induction l1 as [|x l1 IHl]; intros [|y l2] El; try discriminate; [reflexivity|]. cbn [map] in El |- *. injection El as Ex El. rewrite (IH x y Ex), (IHl l2 El). reflexivity.
Qed.
Lemma pe_deeds : forall l m, map plain_event l = map plain_event m -> map deed_of l = map deed_of m.
Proof.
  induction l as [|e l IH]; intros [|f m] E; try discriminate; [reflexivity|]. cbn [map] in E |- *. injection E as E1 E2. rewrite (IH m E2). f_equal.
  destruct e, f; cbn in E1; try discriminate; try (injection E1; intros; subst; reflexivity); injection E1; intros; subst; cbn [deed_of]; f_equal;
    match goal with H : plain_command ?a = plain_command ?b |- c_full_name ?a = c_full_name ?b => apply (f_equal c_full_name) in H; destruct a, b; exact H end.
Qed.
Lemma vl_toplevel : forall st, toplevel (vs st) = vl (toplevel st).
Proof.
  intros st. unfold toplevel. change (ps_parents (vs st)) with (map vl (ps_parents st)). change (ps_cur (vs st)) with (vl (ps_cur st)). rewrite map_length, vl_pop. reflexivity.
Qed.
Lemma ends_plain : forall x y, plain_end x = plain_end y -> same_ends x y.
Proof.
  assert (Ev : forall s t, vs s = vs t -> map deed_of (ps_events s) = map deed_of (ps_events t)).
  { intros s t E. apply pe_deeds. apply (f_equal ps_events) in E. exact E. }
  intros [s|a s|e| |] [t|b t|f| |] E; cbn [plain_end] in E; try discriminate; cbn [same_ends]; try exact I.
  - assert (Es : vs s = vs t) by (unfold vs; congruence). split; [|apply Ev, Es]. apply pl_seen. change (vl (toplevel s) = vl (toplevel t)). rewrite <- !vl_toplevel, Es. reflexivity.
  - assert (Es : vs s = vs t) by (unfold vs; congruence). split; [congruence|apply Ev, Es].
  - congruence.
Qed.
Lemma next_plain : forall cfg s t, blind cfg -> plain_state s = plain_state t -> plain_outcome (next cfg s) = plain_outcome (next cfg t).
Proof.
  intros cfg s t B E. pose proof (rel_step cfg B s) as H1. pose proof (rel_step cfg B t) as H2. change (vs s) with (plain_state s) in H1. change (vs t) with (plain_state t) in H2.
  rewrite E, H2 in H1. destruct (next cfg s), (next cfg t); cbn [omap] in H1; cbn [plain_outcome]; unfold vs, vr in H1; congruence.
Qed.

(** ** Programs *)

Lemma iterates_plain : forall cfg, blind cfg -> forall n s t, plain_state s = plain_state t -> iterates_alike n cfg s t.
Proof.
  intros cfg B. induction n as [|n IH]; intros s t E; [exact I|]. cbn [iterates_alike]. pose proof (next_plain cfg s t B E) as N. split; [exact N|].
  intros a s' b t' Es Et. rewrite Es, Et in N. cbn [plain_outcome] in N. assert (E' : plain_state s' = plain_state t') by congruence.
  destruct (ends_plain (PReturn s') (PReturn t')) as (V & D); [cbn [plain_end]; rewrite E'; reflexivity|]. split; [exact V|]. split; [exact D|]. apply IH, E'.
Qed.

Definition pd := option_map plain_data.
Definition ok_data (p : option parser_data) : Prop := match p with Some d => blind (d_settings d) | None => True end.

Lemma copy_plain : forall c, plain_command (copy_command c) = copy_command (plain_command c).
Proof.
  induction c as [c IH] using cmd_nested_ind. destruct c as [args opts cmds cs nm fn tx vi rq mu se ai ix]. cbn. f_equal. cbn in IH.
  induction IH as [|d l Hd Hl IHl]; [reflexivity|]. cbn [map]. rewrite Hd, IHl. reflexivity.
Qed.
Lemma alike_copy : forall p q, alike p q -> alike (make_copy p) (make_copy q).
Proof.
  intros p q A. unfold alike, plain_data, make_copy in *. cbn [d_command d_settings d_version]. injection A as Ac As Av. rewrite !copy_plain, Ac, As. reflexivity.
Qed.
Lemma alike_settings : forall p q, alike p q -> d_settings p = d_settings q.
Proof. intros p q A. injection A as Ac As Av. exact As. Qed.
Lemma alike_field : forall p q, alike p q -> c_name (d_command p) = c_name (d_command q) /\ map pa (c_arguments (d_command p)) = map pa (c_arguments (d_command q)) /\
  map po (c_options (d_command p)) = map po (c_options (d_command q)) /\ map plain_command (c_commands (d_command p)) = map plain_command (c_commands (d_command q)).
Proof.
  intros p q A. injection A as Ac As Av. destruct (plain_fields (d_command p)) as (E1 & E2 & E3 & E4 & _). destruct (plain_fields (d_command q)) as (F1 & F2 & F3 & F4 & _).
  rewrite <- E1, <- E2, <- E3, <- E4, <- F1, <- F2, <- F3, <- F4, Ac. repeat split.
Qed.
Lemma alike_empty : forall A B (f : A -> B) l m, map f l = map f m -> is_empty l = is_empty m.
Proof. intros A B f [|] [|]; intros E; try discriminate; reflexivity. Qed.
Lemma alike_name : forall p q s, alike p q -> alike (set_d_name p s) (set_d_name q s).
Proof.
  intros [c1 s1 v1 lw1 wr1] [c2 s2 v2 lw2 wr2] s A. unfold alike, plain_data, set_d_name in *. cbn [d_command d_settings d_version] in *. injection A as Ac <- <-. f_equal.
  destruct c1, c2. cbn in Ac |- *. injection Ac. intros. f_equal; assumption.
Qed.

Lemma answer_parse : forall fuel p q args, alike p q -> blind (d_settings p) -> same_ends (parse_arguments fuel p args) (parse_arguments fuel q args).
Proof. intros. apply ends_plain, parse_plain; assumption. Qed.
Lemma answer_iterator : forall p q args, alike p q -> blind (d_settings p) ->
  same_answer (R_iterator (make_argument_iterator p args)) (R_iterator (make_argument_iterator q args)).
Proof.
  intros p q args A B. pose proof (finish_parser_plain p q A) as F. unfold make_argument_iterator.
  assert (S : forall x y, finish_parser x = Val y -> d_settings y = d_settings x).
  { intros x y H. unfold finish_parser in H. destruct (finish_command _ _ _ _ _); [|discriminate]. injection H as <-. reflexivity. }
  destruct (finish_parser p) as [p1|e1] eqn:Ep, (finish_parser q) as [q1|e2]; cbn [map_exc] in F; try discriminate; [|injection F as ->; reflexivity].
  apply S in Ep. injection F as Fc Fs Fv. rewrite <- Fs, Ep in *.
  pose proof (rel_start_counter (d_settings p) (initial_state (d_settings p) (d_command p1) args)) as R1.
  pose proof (rel_start_counter (d_settings p) (initial_state (d_settings p) (d_command q1) args)) as R2.
  rewrite <- initial_plain in R1, R2. unfold vc in R1, R2. rewrite Fc, R2 in R1.
  destruct (start_counter _ (initial_state _ (d_command p1) args)), (start_counter _ (initial_state _ (d_command q1) args)); cbn [omap] in R1; try discriminate; cbn [same_answer]; try exact I.
  - split; [reflexivity|]. intros n. apply iterates_plain; [exact B|]. unfold vs in R1. congruence.
  - congruence.
Qed.

Lemma alike_set : forall p q u v, alike p q -> (forall c d, plain_command c = plain_command d -> plain_command (u c) = plain_command (v d)) ->
  alike (set_d_command p (u (d_command p))) (set_d_command q (v (d_command q))).
Proof.
  intros p q u v A H. unfold alike, plain_data, set_d_command in *. cbn [d_command d_settings d_version]. injection A as Ac As Av. rewrite (H _ _ Ac), As, Av. reflexivity.
Qed.

Lemma update_for_help : forall u c, for_help_command u = true -> plain_command (cmd_update u c) = plain_command c.
Proof. intros u [] H. destruct u; try discriminate; reflexivity. Qed.
Lemma update_plain : forall u c d, plain_command c = plain_command d -> plain_command (cmd_update u c) = plain_command (cmd_update u d).
Proof. intros u [] [] E. cbn in E. injection E. intros. destruct u; cbn; f_equal; assumption. Qed.

Lemma call_for_help : forall fuel c p, for_help c = true -> pd (snd (call_parser fuel c p)) = pd p /\ (ok_data p -> ok_data (snd (call_parser fuel c p))).
Proof.
  intros fuel c [d|] H; destruct c as [| | | |u| | | | | | | | | | | | | |]; try discriminate; try destruct u; try discriminate; cbn; split; try reflexivity; try exact (fun x => x);
    unfold plain_data; cbn; do 2 f_equal; apply update_for_help; reflexivity.
Qed.

(** One call of each of two programs. *)
Definition stays (fuel : nat) (c d : parser_call) (p q : option parser_data) : Prop :=
  same_answer (fst (call_parser fuel c p)) (fst (call_parser fuel d q)) /\
  pd (snd (call_parser fuel c p)) = pd (snd (call_parser fuel d q)) /\ ok_data (snd (call_parser fuel c p)).

Lemma stays_add : forall A (pl : A -> A) checked (add : cmd_data -> option A -> exc cmd_data),
  (forall a b c d, option_map pl a = option_map pl b -> plain_command c = plain_command d -> map_exc plain_command (add c a) = map_exc plain_command (add d b)) ->
  forall a b p q, option_map pl a = option_map pl b -> pd p = pd q -> ok_data p ->
  same_answer (fst (add_data checked add a p)) (fst (add_data checked add b q)) /\
  pd (snd (add_data checked add a p)) = pd (snd (add_data checked add b q)) /\ ok_data (snd (add_data checked add a p)).
Proof.
  intros A pl checked add H a b [p|] [q|] Ea Ep Ok; try discriminate; [|repeat split]. injection Ep as Ac As Av.
  pose proof (H a b _ _ Ea Ac) as H1. unfold add_data, add_to.
  assert (G : forall (x : exc cmd_data) (y : exc cmd_data), map_exc plain_command x = map_exc plain_command y ->
    let f (z : exc cmd_data) (w : parser_data) := match match z with Exn e => (Raised e, @None A, Some (d_command w)) | Val d' => (Done tt, None, Some d') end with
      | (r, _, Some c) => (R_call r, Some (set_d_command w c)) | (r, _, None) => (R_call r, Some w) end in
    same_answer (fst (f x p)) (fst (f y q)) /\ pd (snd (f x p)) = pd (snd (f y q)) /\ ok_data (snd (f x p))).
  { intros [x|e] [y|e'] E; cbn [map_exc] in E; try discriminate; injection E as E; cbv zeta beta iota; cbn [fst snd pd option_map];
      unfold plain_data; cbn [d_command d_settings d_version set_d_command]; (split; [|split; [|exact Ok]]).
    - reflexivity.
    - rewrite E, As, Av. reflexivity.
    - rewrite E. reflexivity.
    - rewrite Ac, As, Av. reflexivity. }
  destruct a, b; try discriminate.
  - apply (G _ _ H1).
  - destruct checked; [|apply (G _ _ H1)]. cbn [fst snd pd option_map]. unfold plain_data. cbn [d_command d_settings d_version set_d_command]. split; [reflexivity|]. split; [rewrite Ac, As, Av; reflexivity|exact Ok].
Qed.

Lemma add_argument_plain : forall a b c d, option_map plain_argument a = option_map plain_argument b -> plain_command c = plain_command d ->
  map_exc plain_command (add_argument c a) = map_exc plain_command (add_argument d b).
Proof.
  intros [a|] [b|] c d E Ec; try discriminate; [|reflexivity]. assert (Ea : pa a = pa b) by (unfold pa; cbn in E; congruence). clear E. destruct c as [args opts cmds cs nm fn tx vi rq mu se ai ix], d as [args2 opts2 cmds2 cs2 nm2 fn2 tx2 vi2 rq2 mu2 se2 ai2 ix2].
  cbn in Ec. injection Ec. intros. cbn [add_argument c_commands]. rewrite (alike_empty _ _ _ cmds cmds2) by eassumption. destruct (negb _); [reflexivity|].
  assert (En : a_name a = a_name b) by (apply (f_equal a_name) in Ea; exact Ea). rewrite En. destruct (is_empty (a_name b)); [reflexivity|]. cbv zeta. cbn [map_exc]. f_equal. cbn. f_equal; try assumption.
  rewrite !map_app. f_equal; [assumption|]. cbn [map]. f_equal. transitivity (pa a); [destruct (is_empty _); reflexivity|]. rewrite Ea. destruct (is_empty _); reflexivity.
Qed.
Lemma add_option_plain : forall a b c d, option_map plain_option a = option_map plain_option b -> plain_command c = plain_command d ->
  map_exc plain_command (add_option c a) = map_exc plain_command (add_option d b).
Proof.
  intros [a|] [b|] c d E Ec; try discriminate; [|reflexivity]. assert (Ea : po a = po b) by (unfold po; cbn [option_map] in E; congruence). clear E. destruct c as [args opts cmds cs nm fn tx vi rq mu se ai ix], d as [args2 opts2 cmds2 cs2 nm2 fn2 tx2 vi2 rq2 mu2 se2 ai2 ix2].
  cbn in Ec. injection Ec. intros. cbn [add_option]. 
  assert (En : o_flags a = o_flags b) by (apply (f_equal o_flags) in Ea; exact Ea). rewrite En. destruct (is_empty (o_flags b)); [reflexivity|]. cbv zeta. cbn [map_exc]. f_equal.
  cbn [set_c_items plain_command c_arguments c_options c_commands c_name c_full_name c_require c_multi c_argument_id c_index]. f_equal; try assumption.
  rewrite !map_app. f_equal; [assumption|]. cbn [map]. f_equal. transitivity (po a); [destruct (is_empty _); reflexivity|]. rewrite Ea. destruct (is_empty _); reflexivity.
Qed.
Lemma add_command_plain : forall a b c d, option_map plain_command a = option_map plain_command b -> plain_command c = plain_command d ->
  map_exc plain_command (add_command c a) = map_exc plain_command (add_command d b).
Proof.
  intros [a|] [b|] c d E Ec; try discriminate; [|reflexivity]. assert (Ea : plain_command a = plain_command b) by (cbn [option_map] in E; congruence). clear E. destruct c as [args opts cmds cs nm fn tx vi rq mu se ai ix], d as [args2 opts2 cmds2 cs2 nm2 fn2 tx2 vi2 rq2 mu2 se2 ai2 ix2].
  cbn in Ec. injection Ec. intros. cbn [add_command c_arguments]. rewrite (alike_empty _ _ _ args args2) by eassumption. destruct (negb _); [reflexivity|].
  assert (En : c_name a = c_name b) by (apply (f_equal c_name) in Ea; destruct a, b; exact Ea). rewrite En. destruct (is_empty (c_name b)); [reflexivity|]. cbv zeta. cbn [map_exc]. f_equal.
  cbn [set_c_items plain_command c_arguments c_options c_commands c_name c_full_name c_require c_multi c_argument_id c_index]. f_equal; try assumption.
  rewrite !map_app. f_equal; [assumption|]. cbn [map]. f_equal.
  assert (S : forall x (t : bool) s, plain_command (if t then set_c_section x s else x) = plain_command x) by (intros [] [|] s; reflexivity). rewrite !S. exact Ea.
Qed.

Lemma update_blind : forall u s, blind s ->
  match u with
  | S_argument_callback (Some f) => forall a b, plain_argument a = plain_argument b -> f a = f b
  | S_option_callback (Some f) => forall a b, plain_option a = plain_option b -> f a = f b
  | _ => True
  end -> blind (update_settings u s).
Proof.
  intros u [] (B1 & B2) H. destruct u as [| | | | | |[f|]|[f|]|]; split; cbn in *; try assumption; intros g E; try discriminate; injection E as <-; exact H.
Qed.

Lemma call_stays : forall fuel c d, same_call c d -> forall p q, pd p = pd q -> ok_data p -> stays fuel c d p q.
Proof.
  intros fuel c d H p q E Ok. unfold stays. destruct H as [a b Ea|a b Ea|a b Ea|c Nh Hc].
  - apply (stays_add _ plain_argument true add_argument add_argument_plain); assumption.
  - apply (stays_add _ plain_option true add_option add_option_plain); assumption.
  - apply (stays_add _ plain_command false add_command add_command_plain); assumption.
  - destruct c as [a|a|a|a|u|u|s|s|n|s|args|args|argv|argv|args|args|argv|argv|n l]; try discriminate.
    + apply (stays_add _ plain_argument true add_argument add_argument_plain); [reflexivity|assumption|assumption].
    + apply (stays_add _ plain_option true add_option add_option_plain); [reflexivity|assumption|assumption].
    + apply (stays_add _ plain_command false add_command add_command_plain); [reflexivity|assumption|assumption].
    + destruct Hc.
    + destruct p as [p|], q as [q|]; try discriminate; [|repeat split]. assert (A : alike p q) by (unfold alike; unfold pd in E; cbn in E; congruence). cbn. split; [reflexivity|split; [|exact Ok]].
      f_equal. apply (alike_set p q (cmd_update u) (cmd_update u) A). intros c d. apply update_plain.
    + destruct p as [p|], q as [q|]; try discriminate; [|repeat split]. assert (A : alike p q) by (unfold alike; unfold pd in E; cbn in E; congruence). cbn. split; [reflexivity|]. split.
      * f_equal. unfold plain_data. cbn [d_command d_settings d_version set_d_settings]. injection A as Ac As Av. rewrite Ac, As, Av. reflexivity.
      * apply update_blind; assumption.
    + destruct p as [p|], q as [q|]; try discriminate; [|repeat split]. assert (A : alike p q) by (unfold alike; unfold pd in E; cbn in E; congruence). cbn [call_parser].
      unfold set_option_style. rewrite (alike_settings p q A). destruct (alike_field p q A) as (_ & _ & Eo & _). rewrite (alike_empty _ _ _ _ _ Eo).
      destruct (style_eqb _ _); [cbn; split; [reflexivity|split; [f_equal; exact A|exact Ok]]|]. destruct (negb _); [cbn; split; [reflexivity|split; [f_equal; exact A|exact Ok]]|].
      cbn. split; [reflexivity|]. split; [|rewrite <- (alike_settings p q A); exact Ok].
      f_equal. unfold plain_data. cbn [d_command d_settings d_version]. injection A as Ac As Av. rewrite Ac, Av. reflexivity.
    + destruct p as [p|], q as [q|]; try discriminate; [|repeat split]. cbn. split; [reflexivity|split; [|exact Ok]]. unfold pd in E. cbn in E. injection E as Ac As Av. unfold plain_data. cbn [d_command d_settings d_version]. congruence.
    + destruct p as [p|], q as [q|]; try discriminate; [|repeat split]. assert (A : alike p q) by (unfold alike; unfold pd in E; cbn in E; congruence). cbn. split; [|repeat split]. apply answer_parse; assumption.
    + destruct p as [p|], q as [q|]; try discriminate; [|repeat split]. assert (A : alike p q) by (unfold alike; unfold pd in E; cbn in E; congruence). cbn. split; [|split; [exact E|exact Ok]]. apply answer_parse; [apply alike_copy, A|exact Ok].
    + destruct argv as [|name args]; destruct p as [p|], q as [q|]; try discriminate; try (repeat split; fail); assert (A : alike p q) by (unfold alike; unfold pd in E; cbn in E; congruence).
      * cbn. split; [|repeat split]. apply answer_parse; assumption.
      * cbn [call_parser parse_argv]. destruct (alike_field p q A) as (En & _). rewrite En. cbn. split; [|repeat split]. apply answer_parse; destruct (_ && _); try assumption. apply alike_name, A.
    + destruct argv as [|name args]; (destruct p as [p|], q as [q|]; try discriminate; [|repeat split]); assert (A : alike p q) by (unfold alike; unfold pd in E; cbn in E; congruence);
        cbn; (split; [|split; [exact E|exact Ok]]); apply answer_parse; try (apply alike_copy, A); exact Ok.
    + destruct p as [p|], q as [q|]; try discriminate; [|repeat split]. assert (A : alike p q) by (unfold alike; unfold pd in E; cbn in E; congruence).
      split; [|split; [reflexivity|exact I]]. exact (answer_iterator p q args A Ok).
    + destruct p as [p|], q as [q|]; try discriminate; [|repeat split]. assert (A : alike p q) by (unfold alike; unfold pd in E; cbn in E; congruence).
      split; [|split; [exact E|exact Ok]]. exact (answer_iterator _ _ args (alike_copy p q A) Ok).
    + destruct argv as [|name args]; [split; [reflexivity|split; [exact E|exact Ok]]|]. destruct p as [p|], q as [q|]; try discriminate; [|repeat split]. assert (A : alike p q) by (unfold alike; unfold pd in E; cbn in E; congruence).
      split; [|split; [reflexivity|exact I]]. exact (answer_iterator p q args A Ok).
    + destruct argv as [|name args]; [split; [reflexivity|split; [exact E|exact Ok]]|]. destruct p as [p|], q as [q|]; try discriminate; [|repeat split]. assert (A : alike p q) by (unfold alike; unfold pd in E; cbn in E; congruence).
      split; [|split; [exact E|exact Ok]]. exact (answer_iterator _ _ args (alike_copy p q A) Ok).
Qed.

Lemma same_call_help : forall c d, same_call c d -> for_help c = false /\ for_help d = false.
Proof. intros c d []; split; try reflexivity; assumption. Qed.

Lemma program_plain : forall fuel cs ds, same_program cs ds -> forall p q, pd p = pd q -> ok_data p -> Forall2 same_answer (answers fuel cs p) (answers fuel ds q).
Proof.
  intros fuel cs ds H. induction H as [|c cs ds Hc H IH|c cs ds Hc H IH|c d cs ds Hc H IH]; intros p q E Ok.
  - constructor.
  - cbn [answers]. destruct (call_for_help fuel c p Hc) as (E1 & K1). destruct (call_parser fuel c p) as (x & p1). rewrite Hc. cbn [snd] in *. apply IH; [congruence|apply K1, Ok].
  - cbn [answers]. destruct (call_for_help fuel c q Hc) as (E1 & K1). destruct (call_parser fuel c q) as (x & p1). rewrite Hc. cbn [snd] in *. apply IH; [congruence|exact Ok].
  - cbn [answers]. destruct (call_stays fuel c d Hc p q E Ok) as (An & E1 & K1). destruct (same_call_help c d Hc) as (-> & ->).
    destruct (call_parser fuel c p) as (x & p1), (call_parser fuel d q) as (y & q1). cbn [fst snd] in *. constructor; [exact An|]. apply IH; assumption.
Qed.
