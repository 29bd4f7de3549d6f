(** Proofs that finishing keeps what was declared (C69), and what adding items does (C15). *)
From Verif Require Import Base BaseProofs MStrings MData SStrings StrProofs SIndex IndexProofs SDef DefProofs FinishProofs SKept.
Open Scope nat_scope.

(** ** Adding items *)

Lemma in_section_if : forall s cur, (if is_empty s then cur else s) = in_section s cur.
Proof. intros [|c s] cur; reflexivity. Qed.

Lemma add_argument_proof : forall c a c', add_argument c (Some a) = Val c' <->
  c_commands c = [] /\ a_name a <> [] /\
  exists a', arg_in (in_section (a_section a) (c_current_section c)) a a' /\
    with_items c c' (c_arguments c ++ [a']) (c_options c) (c_commands c).
Proof.
  intros c a c'. unfold add_argument. destruct (is_empty (c_commands c)) eqn:E1; cbn [negb].
  2:{ split; [discriminate|]. intros (H & _). rewrite H in E1. discriminate. }
  apply is_empty_true in E1. destruct (is_empty (a_name a)) eqn:E2.
  { split; [discriminate|]. intros (_ & H & _). apply is_empty_true in E2. congruence. }
  apply is_empty_false in E2.
  assert (X : (if is_empty (a_section a) then set_a_section a (c_current_section c) else a) =
              set_a_section a (in_section (a_section a) (c_current_section c))).
  { destruct a as [? ? [|] ? ? ? ? ? ? ?]; reflexivity. }
  rewrite X. split.
  - intros H. injection H as <-. split; [exact E1|]. split; [exact E2|]. eexists. split; reflexivity.
  - intros (_ & _ & a' & -> & ->). reflexivity.
Qed.

Lemma add_option_proof : forall c o c', add_option c (Some o) = Val c' <->
  o_flags o <> [] /\
  exists o', opt_in (in_section (o_section o) (c_current_section c)) o o' /\
    with_items c c' (c_arguments c) (c_options c ++ [o']) (c_commands c).
Proof.
  intros c o c'. unfold add_option. destruct (is_empty (o_flags o)) eqn:E2.
  { split; [discriminate|]. intros (H & _). apply is_empty_true in E2. congruence. }
  apply is_empty_false in E2.
  assert (X : (if is_empty (o_section o) then set_o_section o (c_current_section c) else o) =
              set_o_section o (in_section (o_section o) (c_current_section c))).
  { destruct o as [? ? [|] ? ? ? ? ? ? ? ? ? ? ?]; reflexivity. }
  rewrite X. split.
  - intros H. injection H as <-. split; [exact E2|]. eexists. split; reflexivity.
  - intros (_ & a' & -> & ->). reflexivity.
Qed.

Lemma add_command_proof : forall c d c', add_command c (Some d) = Val c' <->
  c_arguments c = [] /\ c_name d <> [] /\
  exists d', cmd_in (in_section (c_section d) (c_current_section c)) d d' /\
    with_items c c' (c_arguments c) (c_options c) (c_commands c ++ [d']).
Proof.
  intros c d c'. unfold add_command. destruct (is_empty (c_arguments c)) eqn:E1; cbn [negb].
  2:{ split; [discriminate|]. intros (H & _). rewrite H in E1. discriminate. }
  apply is_empty_true in E1. destruct (is_empty (c_name d)) eqn:E2.
  { split; [discriminate|]. intros (_ & H & _). apply is_empty_true in E2. congruence. }
  apply is_empty_false in E2.
  assert (X : (if is_empty (c_section d) then set_c_section d (c_current_section c) else d) =
              set_c_section d (in_section (c_section d) (c_current_section c))).
  { destruct d as [? ? ? ? ? ? ? ? ? ? [|] ? ?]; reflexivity. }
  rewrite X. split.
  - intros H. injection H as <-. split; [exact E1|]. split; [exact E2|]. eexists. split; reflexivity.
  - intros (_ & _ & a' & -> & ->). reflexivity.
Qed.

(** ** Finishing *)

Lemma constant_eq : forall o, match o_operation o with
    | OP_ASSIGN => if is_empty (o_argument o) && is_empty (o_constant o) then $"1" else o_constant o
    | OP_CLEAR => if is_empty (o_argument o) && is_empty (o_constant o) then [] else $"1"
    | _ => o_constant o
    end = full_constant o.
Proof.
  intros o. unfold full_constant. destruct (o_operation o), (o_argument o), (o_constant o); reflexivity.
Qed.

Lemma validated_kept : forall o style o', validate_and_update o style = Val o' -> kept_opt o o'.
Proof.
  intros o style o' H. apply validate_result_proof in H. destruct H as ((A1 & A2 & A3 & A4 & A5 & A6 & A7 & A8 & A9 & A10 & A11 & _) & E).
  rewrite constant_eq in E. repeat split; assumption.
Qed.

Lemma kept_ids : forall o o1 o', kept_opt o o1 -> same_opt o1 o' -> kept_opt o o'.
Proof. intros o o1 o' H (aid & vid & ->). exact H. Qed.

Lemma same_arg_kept : forall a a', same_arg a a' -> kept_arg a a'.
Proof. intros a a' (aid & vid & ->). repeat split. Qed.

Lemma forall2_kept : forall style opts opts1 opts2, Forall2 (fun o o' => validate_and_update o style = Val o') opts opts1 ->
  Forall2 same_opt opts1 opts2 -> Forall2 kept_opt opts opts2.
Proof.
  intros style opts opts1 opts2 H. revert opts2. induction H as [|o o1 opts opts1 E H IH]; intros opts2 H2; inversion H2; subst; constructor.
  - eapply kept_ids; [eapply validated_kept, E|assumption].
  - apply IH. assumption.
Qed.

Lemma update_require_val : forall rq cmds r, update_require rq cmds = Val r ->
  r = Some (match rq with Some b => b | None => match cmds : list cmd_data with [] => false | _ => true end end) /\
  (rq = Some true -> cmds <> []).
Proof.
  intros rq cmds r H. unfold update_require in H. destruct rq as [[|]|], cmds as [|d cmds]; cbn in H; try discriminate; injection H as <-;
    (split; [reflexivity|]; intros E; try discriminate; congruence).
Qed.

(** The help option does not depend on how the other options have been completed. *)
Lemma validate_all_types : forall style opts opts1, Forall2 (fun o o' => validate_and_update o style = Val o') opts opts1 ->
  map o_type opts1 = map o_type opts.
Proof.
  intros style opts opts1 H. induction H as [|o o1 opts opts1 E H IH]; [reflexivity|]. cbn [map].
  apply validated_kept in E. destruct E as (_ & _ & _ & _ & _ & _ & _ & _ & _ & E & _). rewrite E, IH. reflexivity.
Qed.

Lemma help_wanted_eq : forall st opts opts1, map o_type opts1 = map o_type opts -> all_flags opts1 = all_flags opts ->
  help_wanted st opts1 -> help_wanted st opts.
Proof.
  intros st opts opts1 T F (G & NH & f & Hf & Fr). split; [exact G|]. split.
  - intros o Ho Eo. assert (X : In OT_HELP (map o_type opts1)) by (rewrite T, <- Eo; apply in_map, Ho).
    apply in_map_iff in X. destruct X as (o1 & E1 & H1). apply (NH o1 H1 E1).
  - exists f. split; [exact Hf|]. unfold free_flag in *. rewrite <- F. exact Fr.
Qed.

Lemma unused_pick : forall ci opts l, unused ci opts l (filter (fun f => negb (has_flag opts f ci)) l).
Proof.
  intros ci opts l. induction l as [|f l IH]; cbn [filter]; [constructor|]. pose proof (has_flag_free opts f ci) as X.
  destruct (has_flag opts f ci); cbn [negb]; constructor; try exact IH; [|apply X; reflexivity]. intros Y. apply X in Y. discriminate.
Qed.
Lemma help_flags_unused : forall opts st, exists fs, unused (s_case_insensitive st) opts (default_help_flags (s_style st)) fs /\
  help_flags opts st = match s_style st, fs with DASH, f :: _ => [f] | _, _ => fs end.
Proof.
  intros opts st. eexists. split; [apply unused_pick|]. unfold help_flags, default_help_flags. cbv zeta.
  destruct (s_style st); cbn [filter]; repeat (destruct (has_flag opts _ (s_case_insensitive st)); cbn [negb app]); reflexivity.
Qed.

Lemma help_option_eq : forall st sec opts opts' o, all_flags opts = all_flags opts' -> help_option st sec opts o -> help_option st sec opts' o.
Proof.
  intros st sec opts opts' o E H. unfold help_option in *. repeat (destruct H as (? & H); split; [assumption|]).
  destruct H as (fs & U & Ef). exists fs. split; [|exact Ef]. clear Ef. induction U; constructor; auto; unfold free_flag in *; rewrite <- E; assumption.
Qed.

Lemma help_part : forall opts sec st, exists helps, add_help_option opts sec st = opts ++ helps /\
  (help_wanted st opts /\ (exists o, helps = [o] /\ help_option st sec opts o) \/ ~ help_wanted st opts /\ helps = []).
Proof.
  intros opts sec st. pose proof (help_added_proof opts sec st) as A.
  destruct (add_help_cases opts sec st) as [(E & C)|(o & E & T & N0 & F & O & Ar & K & Op & G & NH)].
  - exists []. rewrite app_nil_r. split; [exact E|]. right. split; [|reflexivity]. intros (G & NH & f & Hf & Fr).
    destruct C as [C|[(o & Ho & To)|C]]; [congruence|apply (NH o Ho To)|apply (C f Hf Fr)].
  - exists [o]. split; [exact E|]. left. split.
    + destruct A as (A & _). destruct A as (A1 & A2 & A3); [exists o; split; assumption|].
      split; [exact A1|]. split; [|exact A3]. intros o' Ho' To'. apply A2. exists o'. split; assumption.
    + exists o. split; [reflexivity|].
      assert (X : o_section o = sec /\ o_help o = $"Display this help text." /\ o_alias o = [] /\ o_initial_value o = [] /\ o_callback o = None /\ o_visibility o = vis_normal).
      { unfold add_help_option in E. destruct (s_generate_help st); cbn [negb] in E; [|congruence].
        assert (Y : forall l : list opt_data, l <> l ++ [o]).
        { intros l Hl. rewrite <- (app_nil_r l) in Hl at 1. apply app_inv_head in Hl. discriminate. }
        destruct (has_help_option opts); [apply Y in E; destruct E|]. destruct (is_empty (help_flags opts st)); [apply Y in E; destruct E|].
        apply app_inv_head in E. injection E as <-. repeat split. }
      destruct X as (X1 & X2 & X3 & X4 & X5 & X6).
      pose proof (help_flags_unused opts st) as Y. rewrite <- F in Y.
      unfold help_option. repeat (split; [assumption|]). exact Y.
Qed.

Lemma forall2_app_inv_left : forall {A B} (R : A -> B -> Prop) l1 l2 l, Forall2 R (l1 ++ l2) l ->
  exists l1' l2', l = l1' ++ l2' /\ Forall2 R l1 l1' /\ Forall2 R l2 l2'.
Proof. intros A B R l1 l2 l H. apply Forall2_app_inv_l in H. destruct H as (l1' & l2' & H1 & H2 & ->). eauto. Qed.

Lemma forall2_weaken : forall {A B} (R Q : A -> B -> Prop) l l', (forall x y, R x y -> Q x y) -> Forall2 R l l' -> Forall2 Q l l'.
Proof. intros A B R Q l l' H F. induction F; constructor; auto. Qed.

Lemma finish_kept : forall st c full sid aid c', finish_command st full sid aid c = Val c' -> kept st full c c'.
Proof.
  intros st c. induction c as [c IH] using cmd_nested_ind. intros full sid aid c' H. pose proof H as H0.
  apply finish_finished in H. destruct H as (opts1 & vid' & aid' & V & U & Si & _ & Fs & _ & En & Ef & Em).
  assert (Rest : c_texts c' = c_texts c /\ c_visibility c' = c_visibility c /\ c_section c' = c_section c).
  { rewrite finish_command_eq, V in H0. destruct (update_require _ _); [|discriminate]. cbv zeta in H0. rewrite Si in H0.
    destruct (build_option_index _ _); [|discriminate]. destruct (finish_subs _ _ _ _ _); [|discriminate]. injection H0 as <-. repeat split. }
  destruct Rest as (Et & Ev & Es).
  apply validate_all_forall2 in V. apply update_require_val in U. destruct U as (Ur & Uc).
  apply set_internal_ids_spec in Si. destruct Si as (_ & _ & _ & Fa & Fo).
  destruct (help_part opts1 (c_current_section c) st) as (helps & Eh & Ch). rewrite Eh in Fo.
  apply forall2_app_inv_left in Fo. destruct Fo as (opts' & helps' & Eo & F1 & F2).
  pose proof (validate_all_types _ _ _ V) as T.
  assert (Fl : all_flags opts1 = all_flags (c_options c)).
  { clear - V. induction V as [|o o1 l l1 E V IHV]; [reflexivity|]. unfold all_flags in *. cbn [flat_map]. rewrite IHV. apply validated_kept in E. destruct E as (-> & _). reflexivity. }
  eapply kept_command with (opts' := opts') (helps := helps'); try eassumption.
  - clear - Fa. induction Fa; constructor; [apply same_arg_kept; assumption|assumption].
  - eapply forall2_kept; eassumption.
  - destruct Ch as [(W & o & -> & Ho)|(W & ->)].
    + left. split; [eapply help_wanted_eq; [exact T|exact Fl|exact W]|]. inversion F2 as [|? o' ? ? (ai & vi & ->) F3]; subst. inversion F3; subst.
      eexists. split; [reflexivity|]. apply (help_option_eq st (c_current_section c) _ _ _ Fl Ho).
    + right. split; [|inversion F2; reflexivity]. intros W'. apply W. eapply help_wanted_eq; [symmetry; exact T|symmetry; exact Fl|exact W'].
  - rewrite Forall_forall in IH. assert (G : Forall2 (fun d d' => In d (c_commands c) /\ finish_command st (c_name c ++ c_space :: c_name d) vid' aid' d = Val d') (c_commands c) (c_commands c')).
    { clear - Fs. induction Fs; constructor; [split; [left; reflexivity|assumption]|].
      eapply forall2_weaken; [|exact IHFs]. intros ? ? (? & ?). split; [right; assumption|assumption]. }
    eapply forall2_weaken; [|exact G]. intros d d' (Hd & Ed). exact (IH d Hd _ _ _ _ Ed).
Qed.

Lemma version_part : forall p, exists extra,
  add_version_option (c_options (d_command p)) (c_current_section (d_command p)) (c_name (d_command p)) (d_version p) (d_settings p) =
    c_options (d_command p) ++ extra /\
  (version_wanted p /\ (exists o, extra = [o] /\ version_option p o) \/ ~ version_wanted p /\ extra = []).
Proof.
  intros p. unfold add_version_option. destruct (is_empty (d_version p)) eqn:E.
  { exists []. rewrite app_nil_r. split; [reflexivity|]. right. split; [|reflexivity]. apply is_empty_true in E. intros (H & _). congruence. }
  apply is_empty_false in E. assert (Ev : version_flag (s_style (d_settings p)) = version_name (s_style (d_settings p))) by (destruct (s_style _); reflexivity).
  rewrite Ev. destruct (has_flag _ _ _) eqn:F.
  - exists []. rewrite app_nil_r. split; [reflexivity|]. right. split; [|reflexivity]. intros (_ & H).
    apply has_flag_free in H. congruence.
  - eexists. split; [reflexivity|]. left. split; [split; [exact E|apply has_flag_free, F]|].
    eexists. split; [reflexivity|]. unfold version_option. cbn. repeat split. eexists. split; [reflexivity|]. reflexivity.
Qed.

Lemma finish_parser_kept_proof : forall p q, finish_parser p = Val q ->
  d_settings q = d_settings p /\ d_version q = d_version p /\ d_line_width q = d_line_width p /\
  d_word_rules q = d_word_rules p /\
  exists extra top,
    (version_wanted p /\ (exists o, extra = [o] /\ version_option p o) \/ ~ version_wanted p /\ extra = []) /\
    with_items (d_command p) top (c_arguments (d_command p)) (c_options (d_command p) ++ extra) (c_commands (d_command p)) /\
    kept (d_settings p) (match c_full_name (d_command p) with [] => c_name (d_command p) | s => s end) top (d_command q).
Proof.
  intros p q H. unfold finish_parser in H. cbv zeta in H. destruct (version_part p) as (extra & E & W). rewrite E in H.
  destruct (finish_command _ _ _ _ _) as [c2|] eqn:F; [|discriminate]. injection H as <-.
  do 4 (split; [reflexivity|]). exists extra. eexists. split; [exact W|]. split; [reflexivity|].
  apply finish_kept in F. cbn [d_command].
  replace (match c_full_name (d_command p) with [] => c_name (d_command p) | s => s end)
    with (if is_empty (c_full_name (d_command p)) then c_name (d_command p) else c_full_name (d_command p)) by (destruct (c_full_name (d_command p)); reflexivity).
  exact F.
Qed.
