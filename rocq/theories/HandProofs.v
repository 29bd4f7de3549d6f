(** The generated options are the same as options added by hand (C96). *)
From Verif Require Import Base BaseProofs MStrings MOptIter MData MCounter MValues MParser
  MText MHelp MApi MOutput SDef SHand FinishProofs.
Open Scope nat_scope.

Lemma validate_keeps : forall style o o', validate_and_update o style = Val o' ->
  o_flags o' = o_flags o /\ o_type o' = o_type o.
Proof.
  intros style o o'. unfold validate_and_update. destruct (is_empty (o_flags o)); [discriminate|].
  destruct (check_flags _ _ _); [|discriminate]. cbv zeta.
  destruct (negb _ && negb _); [discriminate|].
  destruct (o_operation o);
    repeat match goal with |- context [if ?b then _ else _] => destruct b end; try discriminate;
    intros E; injection E as <-; split; reflexivity.
Qed.

Lemma validate_all_keeps : forall style opts opts', validate_all style opts = Val opts' ->
  Forall2 (fun o o' => o_flags o' = o_flags o /\ o_type o' = o_type o) opts opts'.
Proof.
  induction opts as [|o opts IH]; cbn [validate_all]; intros opts' E.
  - injection E as <-. constructor.
  - destruct (validate_and_update o style) as [o'|] eqn:Eo; [|discriminate].
    destruct (validate_all style opts) as [r|]; [|discriminate]. injection E as <-.
    constructor; [exact (validate_keeps _ _ _ Eo)|apply IH; reflexivity].
Qed.

Lemma validate_app : forall style opts h h', validate_and_update h style = Val h' ->
  validate_all style (opts ++ [h]) =
  match validate_all style opts with Val l => Val (l ++ [h']) | Exn e => Exn e end.
Proof.
  intros style opts h h' E. induction opts as [|o opts IH]; cbn [validate_all app].
  - rewrite E. reflexivity.
  - destruct (validate_and_update o style); [|reflexivity]. rewrite IH. destruct (validate_all style opts); reflexivity.
Qed.

Lemma same_taken : forall ci flag opts opts', Forall2 (fun o o' => o_flags o' = o_flags o /\ o_type o' = o_type o) opts opts' ->
  has_flag opts' flag ci = taken ci opts flag.
Proof.
  intros ci flag opts opts' F. unfold has_flag, taken. induction F as [|o o' l l' (E & _) F IH]; [reflexivity|].
  cbn [existsb]. rewrite E, IH. reflexivity.
Qed.

Lemma same_help : forall opts opts', Forall2 (fun o o' => o_flags o' = o_flags o /\ o_type o' = o_type o) opts opts' ->
  has_help_option opts' = existsb (fun o => match o_type o with OT_HELP => true | _ => false end) opts.
Proof.
  intros opts opts' F. unfold has_help_option. induction F as [|o o' l l' (_ & E) F IH]; [reflexivity|].
  cbn [existsb]. rewrite E, IH. destruct (o_type o); reflexivity.
Qed.

Lemma same_free : forall s opts opts', Forall2 (fun o o' => o_flags o' = o_flags o /\ o_type o' = o_type o) opts opts' ->
  help_flags opts' s = free_flags s opts.
Proof.
  intros s opts opts' F. unfold help_flags, free_flags. cbv zeta.
  destruct (s_style s); cbn [usual_flags filter]; rewrite ?(same_taken _ _ _ _ F);
    repeat match goal with |- context [taken ?a ?b ?c] => destruct (taken a b c) end; reflexivity.
Qed.

(** The options that the two parsers work with. *)
Lemma same_options : forall s opts section, s_generate_help s = true ->
  validate_all (s_style s)
    (if needs_help s opts then opts ++ [hand_help (free_flags s opts) section] else opts) =
  match validate_all (s_style s) opts with Val l => Val (add_help_option l section s) | Exn e => Exn e end.
Proof.
  intros s opts section G. destruct (validate_all (s_style s) opts) as [l|e] eqn:E.
  - pose proof (validate_all_keeps _ _ _ E) as F. unfold add_help_option. rewrite G. cbn [negb].
    rewrite (same_help _ _ F), (same_free _ _ _ F). unfold needs_help.
    destruct (existsb _ opts); [cbn [negb andb]; exact E|]. cbn [negb andb].
    destruct (free_flags s opts) as [|f fs] eqn:Ef; [exact E|]. cbn [is_empty].
    rewrite <- Ef. erewrite validate_app; [rewrite E; reflexivity|].
    rewrite Ef. unfold free_flags in Ef. cbv zeta in Ef. revert Ef.
    destruct (s_style s); cbn [usual_flags filter];
      repeat match goal with |- context [taken ?a ?b ?c] => destruct (taken a b c) end;
      cbn [negb firstn]; intros Ef; try discriminate; injection Ef as <- <-; vm_compute; reflexivity.
  - destruct (needs_help s opts); [|exact E].
    destruct (validate_and_update (hand_help (free_flags s opts) section) (s_style s)) as [h|e'] eqn:Eh.
    + rewrite (validate_app _ _ _ _ Eh), E. reflexivity.
    + clear Eh. revert e E. induction opts as [|o opts IH]; cbn [validate_all]; [discriminate|]. 
      generalize (hand_help (free_flags s (o :: opts)) section). clear IH. intros h e.
      cbn [app validate_all]. destruct (validate_and_update o (s_style s)); [|auto].
      clear. revert e. 
      assert (G : forall l e, validate_all (s_style s) l = Exn e -> validate_all (s_style s) (l ++ [h]) = Exn e).
      { induction l as [|x l IH]; cbn [app validate_all]; [discriminate|]. intros e.
        destruct (validate_and_update x (s_style s)); [|auto]. destruct (validate_all (s_style s) l) as [r|e']; [discriminate|].
        intros X. injection X as ->. rewrite (IH e eq_refl). reflexivity. }
      intros e. destruct (validate_all (s_style s) opts) as [r|e'] eqn:E'; [discriminate|]. intros X.
      rewrite (G _ _ E'). exact X.
Qed.

Lemma hand_finish_command : forall s, s_generate_help s = true -> forall c full i a,
  finish_command (with_generation false s) full i a (help_by_hand s c) = finish_command s full i a c.
Proof.
  intros s G. induction c as [c IH] using cmd_nested_ind. intros full i a. rewrite !finish_command_eq.
  change (s_style (with_generation false s)) with (s_style s).
  change (s_case_insensitive (with_generation false s)) with (s_case_insensitive s).
  destruct c as [args opts cmds cursec name full0 texts vis require multi sec aid index].
  cbn [help_by_hand c_options c_commands c_require c_current_section c_arguments c_name c_texts c_visibility c_multi c_section] in *.
  rewrite (same_options s opts cursec G).
  destruct (validate_all (s_style s) opts) as [opts1|e]; [|reflexivity].
  replace (update_require require (map (help_by_hand s) cmds)) with (update_require require cmds) by (destruct cmds; reflexivity).
  destruct (update_require require cmds) as [rq'|e]; [|reflexivity]. cbv zeta.
  change (add_help_option (add_help_option opts1 cursec s) cursec (with_generation false s)) with (add_help_option opts1 cursec s).
  destruct (set_internal_ids _ _ _ _) as (((args' & opts') & vid') & aid').
  destruct (build_option_index _ _) as [idx|e]; [|reflexivity].
  assert (S : finish_subs (with_generation false s) name vid' aid' (map (help_by_hand s) cmds) = finish_subs s name vid' aid' cmds).
  { induction IH as [|d l Hd Hl IHl]; [reflexivity|]. cbn [map finish_subs].
    replace (c_name (help_by_hand s d)) with (c_name d) by (destruct d; reflexivity). rewrite Hd, IHl. reflexivity. }
  rewrite S. reflexivity.
Qed.

Lemma hand_finish : forall p, s_generate_help (d_settings p) = true -> d_version p = [] ->
  finish_parser (help_by_hand_parser p) =
  match finish_parser p with
  | Val q => Val (mk_data (d_command q) (with_generation false (d_settings q)) (d_version q) (d_line_width q) (d_word_rules q))
  | Exn e => Exn e
  end.
Proof.
  intros p G V. unfold finish_parser, add_version_option. cbn [d_command d_settings d_version d_line_width d_word_rules help_by_hand_parser].
  rewrite V. cbn [is_empty]. cbv zeta.
  assert (I : forall c, set_c_items c (c_arguments c) (c_options c) (c_commands c) = c) by (intros []; reflexivity).
  rewrite !I.
  replace (c_full_name (help_by_hand (d_settings p) (d_command p))) with (c_full_name (d_command p)) by (destruct (d_command p); reflexivity).
  replace (c_name (help_by_hand (d_settings p) (d_command p))) with (c_name (d_command p)) by (destruct (d_command p); reflexivity).
  rewrite (hand_finish_command _ G). destruct (finish_command _ _ _ _ _); reflexivity.
Qed.

Lemma version_finish : forall p,
  match finish_parser p, finish_parser (version_by_hand_parser p) with
  | Val q, Val r => r = mk_data (d_command q) (d_settings q) [] (d_line_width q) (d_word_rules q)
  | Exn e, Exn e' => e' = e
  | _, _ => False
  end.
Proof.
  intros p. unfold version_by_hand_parser. cbv zeta.
  set (s := d_settings p). set (c := d_command p).
  assert (I : forall c, set_c_items c (c_arguments c) (c_options c) (c_commands c) = c) by (intros []; reflexivity).
  assert (W : usual_version_flag (s_style s) = version_flag (s_style s)) by (destruct (s_style s); reflexivity).
  unfold finish_parser. cbn [d_command d_settings d_version d_line_width d_word_rules]. fold s c. cbv zeta.
  unfold add_version_option. cbn [is_empty]. cbv zeta. rewrite W.
  destruct (is_empty (d_version p)).
  { cbn [orb]. rewrite I. destruct (finish_command _ _ _ _ _); reflexivity. }
  change (has_flag (c_options c) (version_flag (s_style s)) (s_case_insensitive s))
    with (taken (s_case_insensitive s) (c_options c) (version_flag (s_style s))).
  destruct (taken _ _ _); cbn [orb]; rewrite ?I.
  { destruct (finish_command _ _ _ _ _); reflexivity. }
  cbn [c_full_name c_name].
  match goal with |- context [finish_command s ?f _ _ (set_c_items c ?x ?y ?z)] =>
    match goal with |- context [finish_command s f _ _ (mk_cmd ?a1 ?a2 ?a3 ?a4 ?a5 ?a6 ?a7 ?a8 ?a9 ?b1 ?b2 ?b3 ?b4)] =>
      assert (E : finish_command s f 0 0 (set_c_items c x y z) =
        finish_command s f 0 0 (mk_cmd a1 a2 a3 a4 a5 a6 a7 a8 a9 b1 b2 b3 b4)) end end.
  { rewrite !finish_command_eq. destruct c as [args opts cmds cursec name full0 texts vis require multi sec aid index].
    cbn [set_c_items c_options c_commands c_require c_current_section c_arguments c_name c_texts c_visibility c_multi c_section].
    rewrite !(validate_app _ _ _ (mk_opt [version_flag (s_style s)] ($"Display the program version.") cursec [] [] ($"1") []
      (Some (fun _ _ _ => mk_eff [name ++ c_space :: d_version p ++ [c_lf]] [] false [])) OP_ASSIGN OT_STOP vis_normal true 0 0)).
    - reflexivity.
    - destruct (s_style s); vm_compute; reflexivity.
    - destruct (s_style s); vm_compute; reflexivity. }
  rewrite E. clear E. match goal with |- context [finish_command s ?f 0%N 0%N ?x] => destruct (finish_command s f 0%N 0%N x) end; reflexivity.
Qed.

(* ------------------------------------------------------------------------ *)
(** ** Parsing *)

Lemma by_hand_finish : forall p, s_generate_help (d_settings p) = true ->
  finish_parser (by_hand p) =
  match finish_parser p with
  | Val q => Val (mk_data (d_command q) (with_generation false (d_settings q)) [] (d_line_width q) (d_word_rules q))
  | Exn e => Exn e
  end.
Proof.
  intros p G. unfold by_hand. rewrite (hand_finish (version_by_hand_parser p) G eq_refl).
  pose proof (version_finish p) as V. destruct (finish_parser p) as [q|e], (finish_parser (version_by_hand_parser p)) as [r|e'].
  - rewrite V. reflexivity.
  - destruct V.
  - destruct V.
  - rewrite V. reflexivity.
Qed.

Lemma same_output : forall console custom c s v q evs,
  write_events console custom (mk_data c s v (d_line_width q) (d_word_rules q)) evs = write_events console custom q evs.
Proof.
  intros console custom c s v q. induction evs as [|e evs IH]; [reflexivity|]. cbn [write_events]. rewrite IH.
  change (event_text console (mk_data c s v (d_line_width q) (d_word_rules q)) e) with (event_text console q e). reflexivity.
Qed.

Lemma by_hand_program : forall console custom fuel p args, s_generate_help (d_settings p) = true ->
  parse_and_write console custom fuel (by_hand p) args = parse_and_write console custom fuel p args.
Proof.
  intros console custom fuel p args G. unfold parse_and_write. rewrite (by_hand_finish p G).
  destruct (finish_parser p) as [q|e]; [|reflexivity]. cbn [d_settings d_command].
  change (run_parser (with_generation false (d_settings q)) fuel (d_command q) args) with (run_parser (d_settings q) fuel (d_command q) args).
  unfold with_output. destruct (run_parser (d_settings q) fuel (d_command q) args); rewrite ?same_output; reflexivity.
Qed.

Lemma by_hand_iterator : forall p args, s_generate_help (d_settings p) = true ->
  match make_argument_iterator p args, make_argument_iterator (by_hand p) args with
  | Done (s, st), Done (s', st') => s' = with_generation false s /\ st' = st
  | Raised e, Raised e' => e' = e
  | Crash, Crash => True
  | _, _ => False
  end.
Proof.
  intros p args G. unfold make_argument_iterator. rewrite (by_hand_finish p G).
  destruct (finish_parser p) as [q|e]; [|reflexivity]. cbn [d_settings d_command].
  change (start_counter (with_generation false (d_settings q)) (initial_state (with_generation false (d_settings q)) (d_command q) args))
    with (start_counter (d_settings q) (initial_state (d_settings q) (d_command q) args)).
  destruct (start_counter _ _); auto.
Qed.

Lemma generation_next : forall b s st, next (with_generation b s) st = next s st.
Proof. reflexivity. Qed.
