(** What is only meant for parsing has no influence on help and error texts: lemmas. *)
From Verif Require Import Base BaseProofs MStrings MOptIter MData MCounter MValues MParser MText MHelp MApi SIndex IndexProofs SDef DefProofs FinishProofs SShown.
Open Scope nat_scope.

Definition sa := shown_argument.
Definition so := shown_option.
Definition sc := shown_command.

(** ** Texts *)

Lemma for_each_map : forall A B (f : A -> B) (g : A -> fstep) (h : B -> fstep), (forall x, h (f x) = g x) -> forall l, for_each h (map f l) = for_each g l.
Proof. intros A B f g h H. induction l as [|x l IH]; [reflexivity|]. cbn [map for_each]. rewrite H, IH. reflexivity. Qed.
Lemma fold_map : forall A B C (f : A -> B) (g : C -> A -> C) (h : C -> B -> C), (forall s x, h s (f x) = g s x) ->
  forall l s, fold_left h (map f l) s = fold_left g l s.
Proof. intros A B C f g h H. induction l as [|x l IH]; intros s; [reflexivity|]. cbn [map fold_left]. rewrite H. apply IH. Qed.

Lemma stop_shown : forall t, is_stop_option (shown_type t) = is_stop_option t.
Proof. intros []; reflexivity. Qed.
Lemma brief_shown : forall o b, get_brief_option_name (so o) b = get_brief_option_name o b.
Proof. intros o b. unfold get_brief_option_name. cbn [so shown_option o_optional o_type o_flags o_argument]. rewrite stop_shown. reflexivity. Qed.

Lemma sc_options : forall c, c_options (sc c) = map so (c_options c). Proof. intros []; reflexivity. Qed.
Lemma sc_arguments : forall c, c_arguments (sc c) = map sa (c_arguments c). Proof. intros []; reflexivity. Qed.
Lemma sc_commands : forall c, c_commands (sc c) = map sc (c_commands c). Proof. intros []; reflexivity. Qed.
Lemma sc_full_name : forall c, c_full_name (sc c) = c_full_name c. Proof. intros []; reflexivity. Qed.
Lemma sc_name : forall c, c_name (sc c) = c_name c. Proof. intros []; reflexivity. Qed.
Lemma sc_require : forall c, c_require (sc c) = c_require c. Proof. intros []; reflexivity. Qed.
Lemma sc_visibility : forall c, c_visibility (sc c) = c_visibility c. Proof. intros []; reflexivity. Qed.
Lemma sc_section : forall c, c_section (sc c) = c_section c. Proof. intros []; reflexivity. Qed.
Lemma sc_texts : forall c id, get_custom_text (sc c) id = get_custom_text c id. Proof. intros []; reflexivity. Qed.
Lemma empty_map : forall A B (f : A -> B) l, is_empty (map f l) = is_empty l. Proof. intros A B f [|]; reflexivity. Qed.

Lemma custom_shown : forall c id b, write_custom_text (sc c) id b = write_custom_text c id b.
Proof. intros. unfold write_custom_text. rewrite sc_texts. reflexivity. Qed.
Lemma brief_usage_shown : forall c b, write_brief_usage (sc c) b = write_brief_usage c b.
Proof.
  intros c b. unfold write_brief_usage.
  assert (E1 : write_stop_and_help_usage (sc c) = write_stop_and_help_usage c).
  { unfold write_stop_and_help_usage. rewrite sc_options, sc_full_name. apply for_each_map. intros o. rewrite brief_shown.
    cbn [so shown_option o_visibility o_type]. rewrite stop_shown. reflexivity. }
  assert (E2 : write_brief_regular_options (sc c) = write_brief_regular_options c).
  { unfold write_brief_regular_options. rewrite sc_options. apply for_each_map. intros o. rewrite brief_shown.
    cbn [so shown_option o_visibility o_type]. rewrite stop_shown. reflexivity. }
  assert (E3 : write_brief_arguments (sc c) = write_brief_arguments c).
  { unfold write_brief_arguments. rewrite sc_arguments. apply for_each_map. reflexivity. }
  assert (E4 : write_brief_commands (sc c) = write_brief_commands c).
  { unfold write_brief_commands. rewrite sc_commands, sc_require, empty_map.
    assert (L : forall l f, brief_commands_loop f (map sc l) = brief_commands_loop f l).
    { induction l as [|d l IH]; intros f; [reflexivity|]. cbn [map brief_commands_loop]. rewrite sc_visibility, sc_name, !IH. reflexivity. }
    rewrite L. reflexivity. }
  rewrite E1, E2, E3, E4, sc_full_name. reflexivity.
Qed.
Lemma usage_shown : forall c b, write_usage (sc c) b = write_usage c b.
Proof. intros c b. unfold write_usage. rewrite !custom_shown, !sc_texts, !brief_usage_shown. reflexivity. Qed.
Lemma sections_shown : forall c b, write_argument_sections (sc c) b = write_argument_sections c b.
Proof.
  intros c b. unfold write_argument_sections.
  assert (E1 : forall s, add_arguments (sc c) s = add_arguments c s).
  { intros s. unfold add_arguments. rewrite sc_arguments, sc_texts. apply fold_map. reflexivity. }
  assert (E2 : forall s, add_commands (sc c) s = add_commands c s).
  { intros s. unfold add_commands. rewrite sc_commands, sc_texts. apply fold_map. intros t x. rewrite sc_visibility, sc_section, sc_name, sc_texts. reflexivity. }
  assert (E3 : forall s, add_options (sc c) s = add_options c s).
  { intros s. unfold add_options. rewrite sc_options, sc_texts. apply fold_map. reflexivity. }
  rewrite E1, E2, E3. reflexivity.
Qed.
Lemma formatter_shown : forall n d, help_formatter n (shown_data d) = help_formatter n d.
Proof. reflexivity. Qed.
Lemma help_shown : forall n d c, write_help_text n (shown_data d) (sc c) = write_help_text n d c.
Proof.
  intros n d c. unfold write_help_text, usage_result. rewrite formatter_shown, !sc_texts, !custom_shown, usage_shown, sections_shown. reflexivity.
Qed.
Lemma error_shown : forall n d c m, write_error_message n (shown_data d) (sc c) m = write_error_message n d c m.
Proof.
  intros n d c m. unfold write_error_message. rewrite formatter_shown, !sc_texts, !custom_shown, usage_shown, sc_full_name. reflexivity.
Qed.

Lemma help_alike : forall n p q c d, look_alike p q -> same_looks c d -> write_help_text n p c = write_help_text n q d.
Proof. intros n p q c d A L. rewrite <- (help_shown n p), <- (help_shown n q). unfold sc. rewrite A, L. reflexivity. Qed.
Lemma error_alike : forall n p q c d m, look_alike p q -> same_looks c d -> write_error_message n p c m = write_error_message n q d m.
Proof. intros n p q c d m A L. rewrite <- (error_shown n p), <- (error_shown n q). unfold sc. rewrite A, L. reflexivity. Qed.

(** ** Definitions *)

Lemma validate_shown : forall style l l', validate_all style l = Val l' -> map so l' = map so l.
Proof.
  induction l as [|o l IH]; intros l' H; cbn [validate_all] in H; [injection H as <-; reflexivity|].
  destruct (validate_and_update o style) as [o'|] eqn:E; [|discriminate]. destruct (validate_all style l) as [r|] eqn:Er; [|discriminate]. injection H as <-.
  cbn [map]. rewrite (IH r eq_refl). f_equal. unfold validate_and_update in E. destruct (is_empty (o_flags o)); [discriminate|].
  destruct (check_flags _ _ _); [|discriminate]. cbv zeta in E. destruct (negb _ && negb _); [discriminate|].
  destruct (o_operation o); repeat match type of E with (if ?b then _ else _) = _ => destruct b end; try discriminate; injection E as <-; try reflexivity.
  destruct (_ || _); reflexivity.
Qed.
Lemma flags_shown : forall l m, map so l = map so m -> forall f ci, has_flag l f ci = has_flag m f ci.
Proof.
  induction l as [|o l IH]; intros [|o' m] E f ci; try discriminate; [reflexivity|]. cbn [map] in E.
  assert (F : o_flags o = o_flags o') by (apply (f_equal (fun x => match x with y :: _ => o_flags y | [] => [] end)) in E; exact E).
  assert (T : map so l = map so m) by congruence. unfold has_flag in *. cbn [existsb]. rewrite F, (IH m T f ci). reflexivity.
Qed.
Lemma help_option_shown : forall l m, map so l = map so m -> has_help_option l = has_help_option m.
Proof.
  induction l as [|o l IH]; intros [|o' m] E; try discriminate; [reflexivity|]. cbn [map] in E.
  assert (F : shown_type (o_type o) = shown_type (o_type o')) by (apply (f_equal (fun x => match x with y :: _ => o_type y | [] => OT_HELP end)) in E; exact E).
  assert (T : map so l = map so m) by congruence. unfold has_help_option in *. cbn [existsb]. rewrite (IH m T). f_equal.
  destruct (o_type o), (o_type o'); try discriminate; reflexivity.
Qed.
Lemma add_help_shown : forall l m s st st', map so l = map so m -> shown_settings st = shown_settings st' ->
  map so (add_help_option l s st) = map so (add_help_option m s st').
Proof.
  intros l m s st st' E Es. unfold add_help_option, help_flags. injection Es as Ey Ec Eg. rewrite Ey, Ec, Eg, (help_option_shown l m E), !(flags_shown l m E).
  destruct (negb _); [exact E|]. destruct (has_help_option m); [exact E|]. cbv zeta. destruct (is_empty _); [exact E|]. rewrite !map_app, E. reflexivity.
Qed.
Lemma add_version_shown : forall l m s n v w st st', map so l = map so m -> is_empty v = is_empty w -> shown_settings st = shown_settings st' ->
  map so (add_version_option l s n v st) = map so (add_version_option m s n w st').
Proof.
  intros l m s n v w st st' E Ev Es. unfold add_version_option. injection Es as Ey Ec Eg. rewrite Ey, Ec, Ev, (flags_shown l m E).
  destruct (is_empty w); [exact E|]. cbv zeta. destruct (has_flag _ _ _); [exact E|]. rewrite !map_app, E. reflexivity.
Qed.
Lemma ids_shown : forall args opts i a, let r := set_internal_ids args opts i a in
  map sa (fst (fst (fst r))) = map sa args /\ map so (snd (fst (fst r))) = map so opts.
Proof.
  intros args opts i a. unfold set_internal_ids.
  assert (A : forall l m n, map sa (fst (fst (set_argument_ids m n l))) = map sa l).
  { induction l as [|x l IH]; intros m n; [reflexivity|]. cbn [set_argument_ids]. cbv zeta. destruct (if negb _ then _ else _) as (vid & m').
    specialize (IH m' (n + 1)%N). destruct (set_argument_ids m' _ l) as ((l' & m2) & n2). cbn [fst map] in *. rewrite IH. reflexivity. }
  assert (O : forall l m n, map so (fst (fst (set_option_ids m n l))) = map so l).
  { induction l as [|x l IH]; intros m n; [reflexivity|]. cbn [set_option_ids]. cbv zeta. destruct (match o_operation x with OP_NONE => _ | _ => _ end) as (vid & m').
    specialize (IH m' (n + 1)%N). destruct (set_option_ids m' _ l) as ((l' & m2) & n2). cbn [fst map] in *. rewrite IH. reflexivity. }
  specialize (A args (mk_ids [] i) a). destruct (set_argument_ids _ _ args) as ((args' & m1) & aid1). specialize (O opts m1 aid1).
  destruct (set_option_ids _ _ opts) as ((opts' & m2) & aid2). cbn [fst snd] in *. split; assumption.
Qed.
Lemma require_shown : forall r l m, is_empty l = is_empty m -> update_require r l = update_require r m.
Proof. intros r l m E. unfold update_require. rewrite E. reflexivity. Qed.
Lemma alike_empty : forall A B (f : A -> B) l m, map f l = map f m -> is_empty l = is_empty m.
Proof. intros A B f [|] [|]; intros E; try discriminate; reflexivity. Qed.

Lemma finish_shown : forall st st', shown_settings st = shown_settings st' -> forall c d full i a j b c' d', sc c = sc d ->
  finish_command st full i a c = Val c' -> finish_command st' full j b d = Val d' -> sc c' = sc d'.
Proof.
  intros st st' Es. induction c as [c IH] using cmd_nested_ind. intros d full i a j b c' d' E Hc Hd. rewrite finish_command_eq in Hc, Hd.
  assert (Eo : map so (c_options c) = map so (c_options d)) by (rewrite <- !sc_options, E; reflexivity).
  assert (Ea : map sa (c_arguments c) = map sa (c_arguments d)) by (rewrite <- !sc_arguments, E; reflexivity).
  assert (Ec : map sc (c_commands c) = map sc (c_commands d)) by (rewrite <- !sc_commands, E; reflexivity).
  assert (Er : c_require c = c_require d) by (rewrite <- (sc_require c), <- (sc_require d), E; reflexivity).
  assert (En : c_name c = c_name d) by (rewrite <- (sc_name c), <- (sc_name d), E; reflexivity).
  assert (Eq : c_current_section c = c_current_section d) by (apply (f_equal c_current_section) in E; destruct c, d; exact E).
  assert (Et : c_texts c = c_texts d) by (apply (f_equal c_texts) in E; destruct c, d; exact E).
  assert (Ev : c_visibility c = c_visibility d) by (rewrite <- (sc_visibility c), <- (sc_visibility d), E; reflexivity).
  assert (Ex : c_section c = c_section d) by (rewrite <- (sc_section c), <- (sc_section d), E; reflexivity).
  destruct (validate_all (s_style st) (c_options c)) as [o1|] eqn:V1; [|discriminate]. destruct (validate_all (s_style st') (c_options d)) as [o2|] eqn:V2; [|discriminate].
  apply validate_shown in V1, V2. assert (Eo2 : map so o1 = map so o2) by congruence.
  rewrite Er, (require_shown _ _ _ (alike_empty _ _ _ _ _ Ec)) in Hc. destruct (update_require (c_require d) (c_commands d)) as [rq|]; [|discriminate]. cbv zeta in Hc, Hd.
  pose proof (add_help_shown o1 o2 (c_current_section d) st st' Eo2 Es) as Eh. rewrite Eq in Hc.
  pose proof (ids_shown (c_arguments c) (add_help_option o1 (c_current_section d) st) i (a + 1)%N) as (I1 & I2). pose proof (ids_shown (c_arguments d) (add_help_option o2 (c_current_section d) st') j (b + 1)%N) as (I3 & I4).
  destruct (set_internal_ids (c_arguments c) _ _ _) as (((a1 & p1) & v1) & n1). destruct (set_internal_ids (c_arguments d) _ _ _) as (((a2 & p2) & v2) & n2). cbn [fst snd] in *.
  destruct (build_option_index _ p1); [|discriminate]. destruct (build_option_index _ p2); [|discriminate].
  destruct (finish_subs st (c_name c) v1 n1 (c_commands c)) as [s1|] eqn:F1; [|discriminate]. destruct (finish_subs st' (c_name d) v2 n2 (c_commands d)) as [s2|] eqn:F2; [|discriminate].
  injection Hc as <-. injection Hd as <-.
  assert (G : map sc s1 = map sc s2).
  { rewrite En in F1. clear - IH Ec F1 F2. apply finish_subs_forall2 in F1, F2. revert s1 F1 s2 F2 Ec. generalize (c_commands d). induction IH as [|x l Hx Hl IHl]; intros m s1 F1 s2 F2 Ec.
    - destruct m; [|discriminate]. inversion F1; subst. inversion F2; subst. reflexivity.
    - destruct m as [|y m]; [discriminate|]. inversion F1; subst. inversion F2; subst. cbn [map] in Ec |- *.
      assert (E1 : sc x = sc y) by congruence. assert (E2 : map sc l = map sc m) by congruence.
      f_equal; [|eapply IHl; eassumption]. assert (N : c_name x = c_name y) by (rewrite <- (sc_name x), <- (sc_name y), E1; reflexivity).
      match goal with H1 : finish_command st _ _ _ x = _, H2 : finish_command st' _ _ _ y = _ |- _ => rewrite N in H1; exact (Hx y _ _ _ _ _ _ _ E1 H1 H2) end. }
  cbn [sc shown_command c_arguments c_options c_commands c_current_section c_name c_full_name c_texts c_visibility c_require c_section]. fold sa so sc.
  f_equal; congruence.
Qed.

Lemma version_empty : forall v w : str, match v with [] => [] | _ => $"1" end = match w with [] => [] | _ => $"1" end -> is_empty v = is_empty w.
Proof. intros [|] [|]; intros H; try discriminate; reflexivity. Qed.

Lemma finish_parser_shown : forall p q p' q', look_alike p q -> finish_parser p = Val p' -> finish_parser q = Val q' -> look_alike p' q'.
Proof.
  intros [c s v lw wr] [d t w lx wx] p' q' A Hp Hq. unfold look_alike, shown_data in *. cbn [d_command d_settings d_version d_line_width d_word_rules] in A.
  assert (Ac : sc c = sc d) by (apply (f_equal d_command) in A; exact A). assert (As : shown_settings s = shown_settings t) by (apply (f_equal d_settings) in A; exact A).
  assert (Av : match v with [] => [] | _ => $"1" end = match w with [] => [] | _ => $"1" end) by (apply (f_equal d_version) in A; exact A).
  assert (Al : lw = lx) by (apply (f_equal d_line_width) in A; exact A). assert (Aw : wr = wx) by (apply (f_equal d_word_rules) in A; exact A).
  unfold finish_parser in Hp, Hq. cbn [d_command d_settings d_version d_line_width d_word_rules] in Hp, Hq.
  destruct (finish_command s _ 0 0 _) as [c'|] eqn:F1; [|discriminate]. destruct (finish_command t _ 0 0 _) as [d'|] eqn:F2; [|discriminate]. injection Hp as <-. injection Hq as <-.
  cbn [d_command d_settings d_version d_line_width d_word_rules].
  assert (Ef : (if is_empty (c_full_name c) then c_name c else c_full_name c) = (if is_empty (c_full_name d) then c_name d else c_full_name d)).
  { rewrite <- (sc_full_name c), <- (sc_name c), Ac, sc_full_name, sc_name. reflexivity. }
  rewrite Ef in F1.
  assert (X : sc c' = sc d').
  { refine (finish_shown s t As _ _ _ _ _ _ _ _ _ _ F1 F2). clear F1 F2.
    assert (Eo : map so (c_options c) = map so (c_options d)) by (rewrite <- !sc_options, Ac; reflexivity).
    assert (En : c_name c = c_name d) by (rewrite <- (sc_name c), <- (sc_name d), Ac; reflexivity).
    assert (Eq : c_current_section c = c_current_section d) by (apply (f_equal c_current_section) in Ac; destruct c, d; exact Ac).
    pose proof (add_version_shown _ _ (c_current_section d) (c_name d) v w s t Eo (version_empty v w Av) As) as Eh. rewrite En, Eq. revert Eh.
    generalize (add_version_option (c_options c) (c_current_section d) (c_name d) v s). generalize (add_version_option (c_options d) (c_current_section d) (c_name d) w t).
    intros l1 l2 Eh. clear - Ac Eh. destruct c, d. cbn in Ac |- *. injection Ac. intros. f_equal; assumption. }
  unfold sc in X. rewrite X, As, Al, Aw. exact (f_equal (fun z => mk_data (shown_command d') (shown_settings t) z lx wx) Av).
Qed.

Lemma copy_shown : forall c d, sc c = sc d -> sc (copy_command c) = sc (copy_command d).
Proof.
  induction c as [c IH] using cmd_nested_ind. intros [args2 opts2 cmds2 cs2 nm2 fn2 tx2 vi2 rq2 mu2 se2 ai2 ix2] E. destruct c as [args opts cmds cs nm fn tx vi rq mu se ai ix].
  assert (Ec : map sc cmds = map sc cmds2) by (apply (f_equal c_commands) in E; exact E). cbn [c_commands] in IH.
  assert (G : map sc (map copy_command cmds) = map sc (map copy_command cmds2)).
  { clear - IH Ec. revert cmds2 Ec. induction IH as [|x l Hx Hl IHl]; intros [|y m] Ec; try discriminate; [reflexivity|].
    cbn [map] in Ec |- *. rewrite (Hx y) by congruence. rewrite (IHl m) by congruence. reflexivity. }
  cbn in E |- *. injection E. intros. f_equal; assumption.
Qed.
Lemma alike_copy : forall p q, look_alike p q -> look_alike (make_copy p) (make_copy q).
Proof.
  intros p q A. assert (Ac : sc (d_command p) = sc (d_command q)) by (apply (f_equal d_command) in A; exact A).
  assert (As : shown_settings (d_settings p) = shown_settings (d_settings q)) by (apply (f_equal d_settings) in A; exact A).
  assert (Al : d_line_width p = d_line_width q) by (apply (f_equal d_line_width) in A; exact A). assert (Aw : d_word_rules p = d_word_rules q) by (apply (f_equal d_word_rules) in A; exact A).
  unfold look_alike, shown_data, make_copy. cbn [d_command d_settings d_version d_line_width d_word_rules]. pose proof (copy_shown _ _ Ac) as C. unfold sc in C. rewrite C, As, Al, Aw. reflexivity.
Qed.

Lemma find_command_shown : forall ci n l m, map sc l = map sc m ->
  match find (fun d => are_equal (c_name d) n ci) l, find (fun d => are_equal (c_name d) n ci) m with
  | Some x, Some y => sc x = sc y
  | None, None => True
  | _, _ => False
  end.
Proof.
  intros ci n. induction l as [|x l IH]; intros [|y m] E; try discriminate; [exact I|]. cbn [map] in E. assert (E1 : sc x = sc y) by congruence. assert (E2 : map sc l = map sc m) by congruence.
  cbn [find]. assert (N : c_name x = c_name y) by (rewrite <- (sc_name x), <- (sc_name y), E1; reflexivity). rewrite N. destruct (are_equal _ _ _); [exact E1|apply IH, E2].
Qed.
Lemma path_shown : forall ci path c d, sc c = sc d ->
  match find_path ci c path, find_path ci d path with
  | Val x, Val y => sc x = sc y
  | Exn e, Exn f => e = f
  | _, _ => False
  end.
Proof.
  intros ci. induction path as [|n path IH]; intros c d E; [exact E|]. cbn [find_path]. unfold find_command.
  assert (Ec : map sc (c_commands c) = map sc (c_commands d)) by (rewrite <- !sc_commands, E; reflexivity).
  pose proof (find_command_shown ci n _ _ Ec) as F. destruct (find _ (c_commands c)) as [x|], (find _ (c_commands d)) as [y|]; try contradiction; [apply IH, F|reflexivity].
Qed.

Lemma subcommand_help_shown : forall n p q p' q' path, look_alike p q -> finish_parser (make_copy p) = Val p' -> finish_parser (make_copy q) = Val q' ->
  write_subcommand_help_text n (Some p) path = write_subcommand_help_text n (Some q) path.
Proof.
  intros n p q p' q' path A Hp Hq. unfold write_subcommand_help_text. rewrite Hp, Hq.
  pose proof (finish_parser_shown _ _ _ _ (alike_copy p q A) Hp Hq) as A'.
  assert (Ci : s_case_insensitive (d_settings p') = s_case_insensitive (d_settings q')) by (apply (f_equal (fun d => s_case_insensitive (d_settings d))) in A'; exact A').
  assert (Ac : sc (d_command p') = sc (d_command q')) by (apply (f_equal d_command) in A'; exact A').
  rewrite Ci. pose proof (path_shown (s_case_insensitive (d_settings q')) path _ _ Ac) as P.
  destruct (find_path _ (d_command p') path) as [x|e], (find_path _ (d_command q') path) as [y|f]; try contradiction; [|rewrite P; reflexivity].
  rewrite (help_alike n p' q' x y A' P). reflexivity.
Qed.

Lemma call_for_parsing : forall fuel c d, for_parsing c = true -> exists e, call_parser fuel c (Some d) = (R_call (Done tt), Some e) /\ look_alike d e.
Proof.
  intros fuel c [cm s v lw wr] H. destruct c as [| | | |u|u| | | | | | | | | | | | |]; try discriminate; destruct u; try discriminate;
    (eexists; split; [reflexivity|]); unfold look_alike, shown_data; cbn; destruct s; try reflexivity; destruct cm; reflexivity.
Qed.
