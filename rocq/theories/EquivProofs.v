(** Two command lines that differ in the spelling of one option (C04, C05). *)
From Verif Require Import Base BaseProofs MStrings MOptIter MData MCounter MValues MParser
  STok SIndex SDef SValues SCounter SParser SStep SEquiv
  TokProofs IndexProofs DefProofs FinishProofs ValuesProofs CounterProofs CounterInv
  MonadProofs FrameProofs InvProofs NextProofs ParseProofs StepProofs StepProofs2
  SimProofs SimProofs2 SimProofs3.
Open Scope nat_scope.

(** ** From one option on *)

Section Cfg.
Variable cfg : settings.

Lemma apply_operation_reads : forall o flag st v it', wf_iter (ps_iter st) ->
  reads_value o (ps_iter st) v it' ->
  apply_operation cfg o flag st =
    Ret (Some v) (set_values (set_iter st it') (op_values o v (l_values (ps_cur st)))).
Proof.
  intros o flag st v it' W Rd.
  destruct (apply_operation_exact cfg o flag st W) as [(v2 & it2 & Rd2 & _ & _ & E)|(it2 & Tk & Nv & _)].
  - destruct Rd as [(Tk & Ev)|(Nt & -> & ->)], Rd2 as [(Tk2 & Ev2)|(Nt2 & -> & ->)]; try contradiction.
    + rewrite Ev in Ev2. apply Ok_inj in Ev2. injection Ev2 as -> ->. exact E.
    + exact E.
  - destruct Rd as [(_ & Ev)|(Nt & _)]; [|contradiction]. rewrite Ev in Nv. discriminate.
Qed.

Definition concludes (o : opt_data) (ra : option_result * str) : M iter_result :=
  let (r, arg) := ra in conclude cfg o r arg.

Lemma option_runs : forall o flag st it v it', wf_iter it ->
  find_option (ps_command st) flag (s_abbreviations cfg) (s_case_insensitive cfg) = Some o ->
  reads_value o it v it' ->
  process_option cfg flag (set_iter st it) =
    bind (act cfg o v) (concludes o) (started o st v it').
Proof.
  intros o flag st it v it' W F Rd. unfold process_option. rewrite bind_gets.
  change (ps_command (set_iter st it)) with (ps_command st). rewrite F.
  unfold process_known_option. rewrite bind_assoc. unfold bind at 1.
  rewrite (apply_operation_reads o flag (set_iter st it) v it' W Rd). reflexivity.
Qed.

Lemma act_mode : forall o v s, wf_iter (ps_iter s) -> ps_mode s = ARGUMENTS_AND_OPTIONS ->
  when (fun ra s' => fst ra = result_of (o_type o) /\
          (o_type o = OT_NORMAL -> ps_mode s' = ARGUMENTS_AND_OPTIONS) /\
          (o_type o <> OT_NORMAL -> o_type o <> OT_LAST_OPTION -> ps_mode s' = ST_DONE) /\
          wf_iter (ps_iter s'))
    (act cfg o v s).
Proof.
  intros o v s W M. unfold act.
  eapply when_seq; [eapply when_post; apply run_callback_any; [exact W|reflexivity]|].
  cbv beta. intros _ s1 (F1 & _).
  pose proof (cf_wf _ _ F1 W) as W1. pose proof (cf_mode _ _ F1) as M1.
  eapply when_seq; [eapply when_post; apply run_callback_any; [exact W1|reflexivity]|].
  cbv beta. intros _ s2 (F2 & _).
  pose proof (cf_wf _ _ F2 W1) as W2. pose proof (cf_mode _ _ F2) as M2. rewrite M1, M in M2.
  unfold apply_type. destruct (o_type o); simpl;
    (split; [reflexivity|]); (split; [intros; congruence|]); (split; [intros; congruence|]); exact W2.
Qed.

Lemma conclude_mode : forall o r v s, wf_iter (ps_iter s) -> r <> OR_LAST_ARGUMENT ->
  when (fun _ s' => ps_mode s' = ps_mode s) (conclude cfg o r v s).
Proof.
  intros o r v s W N0.
  assert (C : forall x : iter_result, when (fun _ s' => ps_mode s' = ps_mode s) ((copy_remaining ;;; ret x) s)).
  { intros x. destruct (copy_remaining_eq s W) as (l & it & _ & _ & _ & E). unfold bind. rewrite E. reflexivity. }
  destruct r; cbn [conclude]; try contradiction; try exact (C _); try reflexivity.
  destruct (s_auto_exit cfg); [exact Logic.I|apply C].
Qed.

(** Where only arguments are read from now on. *)
Lemma option_mode : forall o v s, wf_iter (ps_iter s) -> ps_mode s = ARGUMENTS_AND_OPTIONS ->
  when (fun _ s' => ps_mode s' = ARGUMENTS_ONLY -> o_type o = OT_LAST_OPTION \/ o_type o = OT_LAST_ARGUMENT)
    (bind (act cfg o v) (concludes o) s).
Proof.
  intros o v s W M. eapply when_seq; [apply act_mode; assumption|].
  cbv beta. intros (r, arg) s1 (Er & M1 & M2 & W1). cbn [fst concludes] in *.
  destruct (o_type o) eqn:T; cbn [result_of] in Er; subst r.
  all: try (eapply when_mono; [apply conclude_mode; [exact W1|discriminate]|]; cbv beta; intros a s2 E X;
    rewrite E in X; rewrite ?(M1 eq_refl), ?(M2 ltac:(discriminate) ltac:(discriminate)) in X; discriminate X).
  all: destruct (conclude _ _ _ _ _); simpl; unfold T1; auto.
Qed.

Lemma option_code : forall o v s,
  when (fun r _ => ir_code r = IC_OPTION \/ ir_code r = IC_ERROR) (bind (act cfg o v) (concludes o) s).
Proof.
  intros o v s. eapply when_seq with (Q1 := fun _ _ => True).
  { destruct (act cfg o v s); simpl; unfold T1; auto. }
  intros (r, arg) s1 _. cbn [concludes].
  assert (C : when (fun r _ => ir_code r = IC_OPTION \/ ir_code r = IC_ERROR)
                ((copy_remaining ;;; ret (mk_ir IC_OPTION (ItOption o) arg)) s1)).
  { unfold bind, copy_remaining. destruct (it_remaining _) as [(l, it)|]; simpl; auto. }
  destruct r; cbn [conclude]; try exact C; try (simpl; auto; fail).
  - eapply when_seq with (Q1 := fun _ _ => True).
    { destruct (check_counts cfg s1); simpl; unfold T1; auto. }
    intros ok s2 _. destruct (negb ok); [simpl; auto|]. rewrite bind_gets.
    destruct (find_first_multi_command_parent s2).
    + unfold bind, reactivate, modify. simpl. auto.
    + unfold bind, copy_remaining. destruct (it_remaining _) as [(l, it)|]; simpl; auto.
  - destruct (s_auto_exit cfg); [exact Logic.I|exact C].
Qed.

Lemma same_outcome_when : forall E A (RA : A -> A -> Prop) (Q : rel) P o1 o2,
  same_outcome E RA Q o1 o2 -> when P o1 ->
  same_outcome E RA (fun s t => Q s t /\ exists a, P a s) o1 o2.
Proof.
  intros E A RA Q P [a s|c s|e s| |] [b t|d t|f t| |] H1 H2; simpl in *; auto.
  destruct H1 as (A1 & A2 & A3). eauto 6.
Qed.

(** The same option with the same value. *)
Lemma same_option : forall E R o v s t f1 f2 i1 i2 j1 j2, good R ->
  same_state E s t -> ps_mode s = ARGUMENTS_AND_OPTIONS ->
  wf_iter i1 -> wf_iter i2 ->
  it_next (ps_iter s) = Ok (Some f1, i1) -> it_next (ps_iter t) = Ok (Some f2, i2) ->
  looks_like_option (s_style cfg) f1 -> looks_like_option (s_style cfg) f2 ->
  find_option (ps_command s) f1 (s_abbreviations cfg) (s_case_insensitive cfg) = Some o ->
  find_option (ps_command s) f2 (s_abbreviations cfg) (s_case_insensitive cfg) = Some o ->
  reads_value o i1 v j1 -> reads_value o i2 v j2 -> R j1 j2 ->
  same_outcome E eq (fun s' t' => going R s' t' /\
    (ps_mode s' = ARGUMENTS_ONLY -> o_type o = OT_LAST_OPTION \/ o_type o = OT_LAST_ARGUMENT))
    (next cfg s) (next cfg t).
Proof.
  intros E R o v s t f1 f2 i1 i2 j1 j2 G S0 M W1 W2 N1 N2 L1 L2 F1 F2 V1 V2 HJ.
  assert (M2 : ps_mode t = ARGUMENTS_AND_OPTIONS) by (rewrite (ss_mode S0); exact M).
  rewrite (next_option_eq cfg s f1 i1 M N1 L1), (next_option_eq cfg t f2 i2 M2 N2 L2).
  rewrite (option_runs o f1 s i1 v j1 W1 F1 V1).
  rewrite (option_runs o f2 t i2 v j2 W2); [|rewrite (ss_command S0); exact F2|exact V2].
  pose proof (alike_next_wf _ _ (g_next _ G _ _ HJ)) as (Wj & _).
  pose proof (option_mode o v (started o s v j1) Wj M) as Mo.
  assert (S1 : same_state E (started o s v j1) (started o t v j2)) by (forms S0; same).
  assert (X : same_outcome E ir_alike (going R) (bind (act cfg o v) (concludes o) (started o s v j1))
                (bind (act cfg o v) (concludes o) (started o t v j2))).
  { assert (Y : sim (EvR := E) (iters R) (going R) ir_alike (bind (act cfg o v) (concludes o)) (bind (act cfg o v) (concludes o))).
    { apply act_then; [exact G| |].
      - intros _. eapply sim_mono with (P := iters R) (Q := iters R); [auto|intros a b _ Hi _; exact Hi|].
        apply sim_ret, ir_refl.
      - intros T1 T2. apply conclude_sim; assumption. }
    apply Y; assumption. }
  pose proof (same_outcome_when _ _ _ _ _ _ _ X Mo) as Z.
  destruct (bind (act cfg o v) (concludes o) (started o s v j1)) as [r s'|? ?|? ?| |] eqn:E1,
    (bind (act cfg o v) (concludes o) (started o t v j2)) as [r' t'|? ?|? ?| |]; simpl in Z |- *; auto.
  destruct Z as ((C1 & C2 & C3) & S2 & Q1 & a & Q2). split; [|auto].
  pose proof (option_code o v (started o s v j1)) as Co. rewrite E1 in Co. simpl in Co.
  destruct r as [rc ri rv], r' as [rc' ri' rv']. cbn in *. subst rc' ri'. rewrite C3; [reflexivity| |];
    destruct Co as [-> | ->]; discriminate.
Qed.

Lemma forget_states : forall E A (RA : A -> A -> Prop) (Q : rel) o1 o2,
  same_outcome E RA Q o1 o2 -> same_outcome E RA any_states o1 o2.
Proof.
  intros E A RA Q o1 o2 X. destruct o1, o2; simpl in *; try contradiction; auto.
  destruct X as (X & Y & _). split; [exact X|]. split; [exact Y|exact Logic.I].
Qed.

(** Ready for the next call of next(). *)
Definition ready : rel := fun s t => going alike_next s t /\
  (ps_mode s = ARGUMENTS_ONLY -> alike (ps_iter s) (ps_iter t)).

Hypothesis NU : s_ignore_options cfg = false.

Lemma next_ready : sim (EvR := ev_alike) ready (going alike) ir_alike (next cfg) (next cfg).
Proof.
  intros s t S0 (G & H). destruct (ps_mode s) eqn:M.
  - apply next_sim_options; auto. apply G. left. exact M.
  - apply next_sim; auto.
    intros _. apply H. reflexivity.
  - apply next_sim; auto. intros [X|X]; rewrite M in X; discriminate X.
  - apply next_sim; auto. intros [X|X]; rewrite M in X; discriminate X.
Qed.

Lemma loop_ready : forall fuel, sim (EvR := ev_alike) ready anyrel eq (parse_loop cfg fuel) (parse_loop cfg fuel).
Proof.
  intros [|fuel]; [intros s t _ _; exact Logic.I|]. cbn [parse_loop].
  eapply sim_bind; [apply next_ready|]. intros r q (E & _). rewrite E.
  destruct (ir_code q); try (apply loop_sim; exact NU);
    (intros s t S0 _; simpl; split; [reflexivity|]; split; [exact S0|exact Logic.I]).
Qed.

Lemma loop_after_next : forall s t fuel, same_outcome ev_alike ir_alike ready (next cfg s) (next cfg t) ->
  same_outcome ev_alike eq anyrel (parse_loop cfg fuel s) (parse_loop cfg fuel t).
Proof.
  intros s t [|fuel] H; [exact Logic.I|]. cbn [parse_loop]. unfold bind.
  destruct (next cfg s) as [r s'|c s'|e s'| |], (next cfg t) as [q t'|d t'|f t'| |]; simpl in H |- *;
    try contradiction; auto.
  destruct H as ((E & _) & S0 & Rd). rewrite E.
  destruct (ir_code q); try (apply loop_ready; assumption);
    (simpl; split; [reflexivity|]; split; [exact S0|exact Logic.I]).
Qed.

(** ** A group of flags *)

Lemma group_tokens : forall p g post, g <> [] -> p <> "-"%char ->
  it_next (it_start KStandard (("-"%char :: p :: g) :: post)) =
    Ok (Some ["-"%char; p], mk_iter KStandard (("-"%char :: p :: g) :: post) (At 2)).
Proof.
  intros p g post Ng Np. destruct g as [|g0 g]; [contradiction|].
  unfold it_next, it_start, std_next, std_first. cbn [it_kind it_args it_pos pos_nonzero length Nat.leb nth_error].
  change (Ascii.eqb "-"%char c_dash) with true. cbn [negb].
  destruct (Ascii.eqb_spec p c_dash) as [->|]; [contradiction Np; reflexivity|]. reflexivity.
Qed.

Lemma single_tokens : forall p post,
  it_next (it_start KStandard (["-"%char; p] :: post)) =
    Ok (Some ["-"%char; p], mk_iter KStandard (["-"%char; p] :: post) Npos).
Proof. reflexivity. Qed.

Lemma group_alike : forall p g post, g <> [] -> p <> "-"%char -> hd_error g <> Some "-"%char ->
  alike_next (mk_iter KStandard (("-"%char :: p :: g) :: post) (At 2))
    (mk_iter KStandard (["-"%char; p] :: ("-"%char :: g) :: post) Npos).
Proof.
  intros p g post Ng Np Nh.
  replace (("-"%char :: g) :: post) with (rest_of (skipn 2 ("-"%char :: p :: g)) post)
    by (destruct g; [contradiction|reflexivity]).
  apply an_group with (x := p); auto; simpl; lia.
Qed.

Lemma group_next : forall s t p g post, same_state ev_alike s t -> ps_mode s = ARGUMENTS_AND_OPTIONS ->
  s_style cfg = STANDARD -> it_kind (ps_iter s) = KStandard -> it_kind (ps_iter t) = KStandard ->
  before_args (ps_iter s) (("-"%char :: p :: g) :: post) ->
  before_args (ps_iter t) (["-"%char; p] :: ("-"%char :: g) :: post) ->
  g <> [] -> p <> "-"%char -> hd_error g <> Some "-"%char ->
  (forall o, find_option (ps_command s) ["-"%char; p] (s_abbreviations cfg) (s_case_insensitive cfg) = Some o ->
     ~ takes_value o /\ o_type o <> OT_LAST_OPTION /\ o_type o <> OT_LAST_ARGUMENT) ->
  same_outcome ev_alike ir_alike ready (next cfg s) (next cfg t).
Proof.
  intros s t p g post S0 M St K1 K2 B1 B2 Ng Np Nh Ho.
  unfold before_args in B1, B2. rewrite K1, group_tokens in B1 by assumption.
  rewrite K2, single_tokens in B2.
  pose proof (group_alike p g post Ng Np Nh) as A. pose proof (alike_next_wf _ _ A) as (W1 & W2).
  assert (L : looks_like_option (s_style cfg) ["-"%char; p]) by (rewrite St; do 2 eexists; reflexivity).
  destruct (find_option (ps_command s) ["-"%char; p] (s_abbreviations cfg) (s_case_insensitive cfg)) as [o|] eqn:F.
  - destruct (Ho o eq_refl) as (Nt & T1 & T2).
    eapply same_outcome_mono; [| |eapply (same_option ev_alike alike_next o []);
      [exact good_next|exact S0|exact M|exact W1|exact W2|exact B1|exact B2
      |exact L|exact L|exact F|exact F|right; auto|right; auto|exact A]].
    + intros a _ <-. apply ir_refl.
    + intros s' t' _ (Q1 & Q2). split; [exact Q1|]. intros X. destruct (Q2 X); contradiction.
  - assert (M2 : ps_mode t = ARGUMENTS_AND_OPTIONS) by (rewrite (ss_mode S0); exact M).
    rewrite (next_option_eq cfg s _ _ M B1 L), (next_option_eq cfg t _ _ M2 B2 L).
    unfold process_option. rewrite !bind_gets.
    change (ps_command (set_iter s ?i)) with (ps_command s). change (ps_command (set_iter t ?i)) with (ps_command t).
    rewrite (ss_command S0), F, NU. cbn [negb].
    pose proof (unknown_sim cfg alike_next alike good_next) as U.
    eapply same_outcome_mono; [intros a b Hab; exact Hab| |apply U].
    2:{ forms S0. same. }
    2:{ split; [exact A|]. split; discriminate. }
    intros s' t' _ Q. split; [intros Pr; apply an_alike, Q, Pr|]. intros Ma. apply Q. right. exact Ma.
Qed.

(** ** Spellings of a value *)

Definition lookups (c : cmd_data) : Prop := forall f o, chooses cfg c f o ->
  find_option c f (s_abbreviations cfg) (s_case_insensitive cfg) = Some o.

Definition style_kind : iter_kind := match s_style cfg with
  | SLASH => KPrefix c_slash | DASH => KPrefix c_dash | STANDARD => KStandard end.

(** The tokenizer after the value has been read. *)
Inductive past (post : list str) : opt_iter -> Prop :=
| past_std : forall a, past post (mk_iter KStandard (a :: post) Npos)
| past_pre : forall p a k, k <> At 0 -> pos_in k a -> past post (mk_iter (KPrefix p) (a :: post) k).

Lemma firstn_cut : forall (a b : str), firstn (S (length a)) (a ++ c_eq :: b) = a ++ [c_eq].
Proof. induction a as [|x a IH]; intros b; [reflexivity|]. cbn [length app firstn]. f_equal. apply IH. Qed.
Lemma skipn_cut : forall (a b : str), skipn (S (length a)) (a ++ c_eq :: b) = b.
Proof. induction a as [|x a IH]; intros b; [reflexivity|]. apply IH. Qed.

Lemma length_cut : forall (a b : str), S (length a) <= length (a ++ c_eq :: b).
Proof. intros a b. rewrite app_length. cbn [length]. lia. Qed.

Lemma spelled : forall c o v sp post, lookups c -> spelling cfg c o v sp ->
  exists flag i i', it_next (it_start style_kind (sp ++ post)) = Ok (Some flag, i) /\
    looks_like_option (s_style cfg) flag /\ chooses cfg c flag o /\ wf_iter i /\
    it_next_value i = Ok (Some v, i') /\ past post i' /\ it_kind i' = style_kind.
Proof.
  intros c o v sp post Lk H. unfold style_kind.
  assert (Le : forall n, ~ In c_eq n ->
    std_first ((($"--" ++ n ++ c_eq :: v)) :: post) =
      Ok (Some ($"--" ++ n ++ [c_eq]), mk_iter KStandard (($"--" ++ n ++ c_eq :: v) :: post) (At (S (length ($"--" ++ n)))))).
  { intros n Nn. change ($"--" ++ n ++ c_eq :: v) with ("-"%char :: "-"%char :: n ++ c_eq :: v).
    unfold std_first. cbn [length]. rewrite app_length. cbn [length].
    destruct (Nat.leb_spec (S (S (length n + S (length v)))) 2); [lia|].
    cbn [nth_error]. change (Ascii.eqb "-"%char c_dash) with true. cbn [negb].
    assert (Nd : ~ In c_eq ($"--" ++ n)).
    { intros [X|[X|X]]; try discriminate X. contradiction. }
    change ("-"%char :: "-"%char :: n ++ c_eq :: v) with (($"--" ++ n) ++ c_eq :: v).
    rewrite (find_char_app _ _ v Nd), firstn_cut, <- app_assoc. reflexivity. }
  assert (Lp : forall p n, ~ In c_eq n -> n <> [] -> p <> c_eq ->
    pre_first p ((p :: n ++ c_eq :: v) :: post) =
      Ok (Some (p :: n ++ [c_eq]), mk_iter (KPrefix p) ((p :: n ++ c_eq :: v) :: post) (At (S (length (p :: n)))))).
  { intros p n Nn N1 Np. unfold pre_first. cbn [app length]. rewrite app_length. cbn [length].
    destruct n as [|n0 n]; [contradiction|].
    destruct (Nat.leb_spec (S (length (n0 :: n) + S (length v))) 2); [cbn [length] in *; lia|].
    cbn [nth_error]. rewrite Ascii.eqb_refl. cbn [negb].
    assert (Nd : ~ In c_eq (p :: n0 :: n)) by (intros [X|X]; [congruence|contradiction]).
    change (p :: (n0 :: n) ++ c_eq :: v) with ((p :: n0 :: n) ++ c_eq :: v).
    rewrite (find_char_app _ _ v Nd), firstn_cut. reflexivity. }
  assert (Lq : forall p n, ~ In c_eq n -> n <> [] -> p <> c_eq -> forall l,
    pre_first p ((p :: n) :: l) = Ok (Some (p :: n), mk_iter (KPrefix p) ((p :: n) :: l) Npos)).
  { intros p n Nn N1 Np l. unfold pre_first. destruct (length (p :: n) <=? 2); [reflexivity|].
    cbn [nth_error]. rewrite Ascii.eqb_refl. cbn [negb].
    assert (Nd : ~ In c_eq (p :: n)) by (intros [X|X]; [congruence|contradiction]).
    rewrite (proj2 (find_char_none c_eq _) Nd). reflexivity. }
  destruct H as [n St Nn Ch|n St Nn Ch|x St Nx Nv Ch|x St Nx Ch|n St N1 Nn Ch|n St N1 Nn Nv Ch|n St N1 Nn Ch|n St N1 Nn Nv Ch];
    rewrite St; cbn [app].
  - exists ($"--" ++ n ++ [c_eq]), (mk_iter KStandard (($"--" ++ n ++ c_eq :: v) :: post) (At (S (length ($"--" ++ n))))),
      (mk_iter KStandard (($"--" ++ n ++ c_eq :: v) :: post) Npos).
    split; [apply Le; exact Nn|]. split; [do 2 eexists; reflexivity|]. split; [exact Ch|].
    assert (Ll : S (length ($"--" ++ n)) <= length (($"--" ++ n) ++ c_eq :: v)).
    { apply length_cut. }
    split; [do 2 eexists; split; [reflexivity|exact Ll]|].
    split; [|split; [constructor|reflexivity]].
    unfold it_next_value, std_next_value. cbn [it_kind it_args it_pos].
    change ($"--" ++ n ++ c_eq :: v) with (($"--" ++ n) ++ c_eq :: v).
    rewrite (proj2 (Nat.leb_le _ _) Ll), skipn_cut. reflexivity.
  - exists ($"--" ++ n), (mk_iter KStandard (($"--" ++ n) :: v :: post) Npos), (mk_iter KStandard (v :: post) Npos).
    split.
    { change ($"--" ++ n) with ("-"%char :: "-"%char :: n).
      unfold it_next, it_start, std_next, std_first. cbn [it_kind it_args it_pos pos_nonzero].
      destruct (length ("-"%char :: "-"%char :: n) <=? 2); [reflexivity|]. cbn [nth_error].
      change (Ascii.eqb "-"%char c_dash) with true. cbn [negb].
      assert (Nd : ~ In c_eq ("-"%char :: "-"%char :: n)).
      { intros [X|[X|X]]; try discriminate X. contradiction. }
      rewrite (proj2 (find_char_none c_eq _) Nd). reflexivity. }
    split; [do 2 eexists; reflexivity|]. split; [exact Ch|]. split; [discriminate|].
    split; [reflexivity|]. split; [constructor|reflexivity].
  - exists ["-"%char; x], (mk_iter KStandard (("-"%char :: x :: v) :: post) (At 2)),
      (mk_iter KStandard (("-"%char :: x :: v) :: post) Npos).
    split; [apply group_tokens; assumption|]. split; [do 2 eexists; reflexivity|]. split; [exact Ch|].
    split; [do 2 eexists; split; [reflexivity|cbn [length]; lia]|].
    split; [reflexivity|]. split; [constructor|reflexivity].
  - exists ["-"%char; x], (mk_iter KStandard (["-"%char; x] :: v :: post) Npos), (mk_iter KStandard (v :: post) Npos).
    split; [reflexivity|]. split; [do 2 eexists; reflexivity|]. split; [exact Ch|].
    split; [discriminate|]. split; [reflexivity|]. split; [constructor|reflexivity].
  - exists (c_slash :: n ++ [c_eq]), (mk_iter (KPrefix c_slash) ((c_slash :: n ++ c_eq :: v) :: post) (At (S (length (c_slash :: n))))),
      (mk_iter (KPrefix c_slash) ((c_slash :: n ++ c_eq :: v) :: post) Npos).
    split; [apply (Lp c_slash); auto; discriminate|].
    split; [destruct n; [contradiction|]; do 2 eexists; reflexivity|]. split; [exact Ch|].
    assert (Ll : S (length (c_slash :: n)) <= length ((c_slash :: n) ++ c_eq :: v)).
    { apply length_cut. }
    split; [do 2 eexists; split; [reflexivity|exact Ll]|].
    split; [|split; [constructor; [discriminate|constructor]|reflexivity]].
    unfold it_next_value, pre_next_value. cbn [it_kind it_args it_pos].
    change (c_slash :: n ++ c_eq :: v) with ((c_slash :: n) ++ c_eq :: v).
    rewrite (proj2 (Nat.leb_le _ _) Ll), skipn_cut. reflexivity.
  - exists (c_slash :: n), (mk_iter (KPrefix c_slash) ((c_slash :: n) :: v :: post) Npos),
      (mk_iter (KPrefix c_slash) (v :: post) (At (length v))).
    split; [apply (Lq c_slash); auto; discriminate|].
    split; [destruct n; [contradiction|]; do 2 eexists; reflexivity|]. split; [exact Ch|].
    split; [discriminate|]. split; [reflexivity|]. split; [|reflexivity].
    destruct v as [|v0 v]; [contradiction|]. constructor; [discriminate|]. constructor. apply le_n.
  - exists (c_dash :: n ++ [c_eq]), (mk_iter (KPrefix c_dash) ((c_dash :: n ++ c_eq :: v) :: post) (At (S (length (c_dash :: n))))),
      (mk_iter (KPrefix c_dash) ((c_dash :: n ++ c_eq :: v) :: post) Npos).
    split; [apply (Lp c_dash); auto; discriminate|].
    split; [destruct n; [contradiction|]; do 2 eexists; reflexivity|]. split; [exact Ch|].
    assert (Ll : S (length (c_dash :: n)) <= length ((c_dash :: n) ++ c_eq :: v)).
    { apply length_cut. }
    split; [do 2 eexists; split; [reflexivity|exact Ll]|].
    split; [|split; [constructor; [discriminate|constructor]|reflexivity]].
    unfold it_next_value, pre_next_value. cbn [it_kind it_args it_pos].
    change (c_dash :: n ++ c_eq :: v) with ((c_dash :: n) ++ c_eq :: v).
    rewrite (proj2 (Nat.leb_le _ _) Ll), skipn_cut. reflexivity.
  - exists (c_dash :: n), (mk_iter (KPrefix c_dash) ((c_dash :: n) :: v :: post) Npos),
      (mk_iter (KPrefix c_dash) (v :: post) (At (length v))).
    split; [apply (Lq c_dash); auto; discriminate|].
    split; [destruct n; [contradiction|]; do 2 eexists; reflexivity|]. split; [exact Ch|].
    split; [discriminate|]. split; [reflexivity|]. split; [|reflexivity].
    destruct v as [|v0 v]; [contradiction|]. constructor; [discriminate|]. constructor. apply le_n.
Qed.

(** Only the finished argument differs. *)
Inductive beyond : opt_iter -> opt_iter -> Prop :=
| be_std : forall a b l, beyond (mk_iter KStandard (a :: l) Npos) (mk_iter KStandard (b :: l) Npos)
| be_pre : forall p a b i j l, i <> At 0 -> j <> At 0 -> pos_in i a -> pos_in j b ->
    beyond (mk_iter (KPrefix p) (a :: l) i) (mk_iter (KPrefix p) (b :: l) j).

Lemma good_beyond : good beyond.
Proof.
  constructor.
  - intros i j [a b l|p a b m n l Nm Nn Pm Pn]; [apply an_alike, al_done|apply an_prefix; assumption].
  - intros i j new i' B E. destruct B as [a b l|p a b m n l Nm Nn Pm Pn].
    + unfold it_insert, std_insert, split_concatenated_flags, insert_tail in *. cbn in *.
      injection E as <-. eexists. split; [reflexivity|]. constructor.
    + unfold it_insert, insert_tail in *. cbn [it_kind it_args it_pos] in *.
      assert (Z : forall k, k <> At 0 -> pos_nonzero k = true) by (intros [[|?]|] ?; auto; congruence).
      rewrite Z in E |- * by assumption. injection E as <-. eexists. split; [reflexivity|].
      constructor; assumption.
Qed.

Lemma beyond_next : forall i j, beyond i j -> it_next i = it_next j.
Proof.
  intros i j [a b l|p a b m n l Nm Nn Pm Pn]; [reflexivity|].
  unfold it_next, pre_next. cbn [it_kind it_args it_pos].
  destruct m as [[|m]|]; [contradiction|..]; (destruct n as [[|n]|]; [contradiction|..]); reflexivity.
Qed.

Lemma beyond_value : forall i j, beyond i j -> it_kind i = KStandard -> it_next_value i = it_next_value j.
Proof. intros i j [a b l|p a b m n l Nm Nn Pm Pn] K; [reflexivity|discriminate K]. Qed.

Lemma past_beyond : forall post i j, past post i -> past post j -> it_kind i = it_kind j -> beyond i j.
Proof.
  intros post i j [a|p a k Nk Pk] [b|q b m Nm Pm] E; cbn [it_kind] in *; try discriminate.
  - constructor.
  - injection E as ->. constructor; assumption.
Qed.

Lemma same_exact : forall s t it, same_state ev_same s t -> set_iter s it = set_iter t it.
Proof.
  intros s t it S0. forms S0. unfold set_iter. cbn.
  assert (X : e = f). { induction F as [|x y e f Exy F IH]; [reflexivity|]. cbn in Exy. congruence. }
  rewrite X. reflexivity.
Qed.

Lemma Forall2_refl : forall A (E : A -> A -> Prop) l, (forall a, E a a) -> Forall2 E l l.
Proof. intros A E l H. induction l; constructor; auto. Qed.

Lemma same_refl : forall E s, same_state E s s.
Proof. intros E s. constructor; try reflexivity. apply Forall2_refl. apply ev_refl. Qed.

Lemma outcome_refl : forall E A (o : outcome A), same_outcome E eq anyrel o o.
Proof.
  intros E A [a s|c s|e s| |]; simpl; auto using same_refl. split; [reflexivity|].
  split; [apply same_refl|exact Logic.I].
Qed.

Lemma next_exact : forall s t, same_state ev_same s t -> same_reading s t ->
  in_progress (ps_mode s) -> next cfg s = next cfg t.
Proof.
  intros s t S0 (H1 & H2) Pr. unfold next. rewrite !bind_gets, (ss_mode S0).
  destruct Pr as [M|M]; rewrite M in *; unfold bind at 1, m_next, m_next_value.
  - specialize (H1 eq_refl). rewrite H1. destruct (it_next (ps_iter t)) as [(v, it)|] eqn:E.
    + rewrite (same_exact s t it S0). unfold bind at 2. unfold m_next. rewrite E. reflexivity.
    + unfold bind, m_next. rewrite E. reflexivity.
  - specialize (H2 eq_refl). rewrite H2. destruct (it_next_value (ps_iter t)) as [(v, it)|] eqn:E.
    + rewrite (same_exact s t it S0). unfold bind at 2. unfold m_next_value. rewrite E. reflexivity.
    + unfold bind, m_next_value. rewrite E. reflexivity.
Qed.

Lemma loop_exact : forall s t fuel, same_state ev_same s t -> same_reading s t ->
  same_outcome ev_same eq anyrel (parse_loop cfg fuel s) (parse_loop cfg fuel t).
Proof.
  intros s t [|fuel] S0 Rd; [exact Logic.I|]. cbn [parse_loop].
  assert (X : in_progress (ps_mode s) \/ ps_mode s = ST_DONE \/ ps_mode s = ST_ERROR).
  { unfold in_progress. destruct (ps_mode s); auto. }
  destruct X as [Pr|[M|M]].
  - unfold bind. rewrite (next_exact s t S0 Rd Pr). apply outcome_refl.
  - unfold next. unfold bind, gets. rewrite (ss_mode S0), M. cbn.
    split; [reflexivity|]. split; [exact S0|exact Logic.I].
  - unfold next. unfold bind, gets. rewrite (ss_mode S0), M. cbn. auto.
Qed.

Lemma past_before : forall post i, past post i -> before_args i post.
Proof.
  intros post i [a|p a k Nk Pk]; unfold before_args; [reflexivity|].
  unfold it_next, it_start, pre_next. cbn [it_kind it_args it_pos].
  destruct k as [[|k]|]; [contradiction|reflexivity..].
Qed.

Lemma spelling_next : forall s t o v sp1 sp2 post, same_state ev_same s t -> ps_mode s = ARGUMENTS_AND_OPTIONS ->
  it_kind (ps_iter s) = style_kind -> it_kind (ps_iter t) = style_kind ->
  lookups (ps_command s) -> takes_value o ->
  spelling cfg (ps_command s) o v sp1 -> spelling cfg (ps_command s) o v sp2 ->
  (s_style cfg <> STANDARD -> o_type o <> OT_LAST_OPTION /\ o_type o <> OT_LAST_ARGUMENT) ->
  before_args (ps_iter s) (sp1 ++ post) -> before_args (ps_iter t) (sp2 ++ post) ->
  same_outcome ev_same eq same_reading (next cfg s) (next cfg t).
Proof.
  intros s t o v sp1 sp2 post S0 M K1 K2 Lk Tk P1 P2 Ty B1 B2.
  destruct (spelled _ _ _ _ post Lk P1) as (f1 & i1 & j1 & N1 & L1 & C1 & W1 & V1 & A1 & Kj1).
  destruct (spelled _ _ _ _ post Lk P2) as (f2 & i2 & j2 & N2 & L2 & C2 & W2 & V2 & A2 & Kj2).
  unfold before_args in B1, B2. rewrite K1, N1 in B1. rewrite K2, N2 in B2.
  assert (B : beyond j1 j2) by (eapply past_beyond; [exact A1|exact A2|congruence]).
  set (R := fun i j => beyond i j /\ it_kind i = style_kind).
  assert (G : good R).
  { constructor.
    - intros i j (Hb & _). apply (g_next _ good_beyond). exact Hb.
    - intros i j new i' (Hb & Hk) Ei. destruct (g_insert _ good_beyond _ _ _ _ Hb Ei) as (j' & Ej & Hb').
      exists j'. split; [exact Ej|]. split; [exact Hb'|].
      destruct (insert_wf i new) as (i2' & E2 & _ & Ki); [apply (alike_next_wf _ _ (g_next _ good_beyond _ _ Hb))|].
      rewrite E2 in Ei. apply Ok_inj in Ei. congruence. }
  eapply same_outcome_mono; [| |eapply (same_option ev_same R o v);
    [exact G|exact S0|exact M|exact W1|exact W2|exact B1|exact B2|exact L1|exact L2
    |apply Lk; exact C1|apply Lk; exact C2|left; split; [exact Tk|exact V1]|left; split; [exact Tk|exact V2]
    |split; [exact B|exact Kj1]]].
  - auto.
  - intros s' t' _ (Q1 & Q2). split.
    + intros X. apply beyond_next. apply Q1. left. exact X.
    + intros X. destruct Q1 as (Q1 & Q3); [right; exact X|]. apply beyond_value; [exact Q1|].
      rewrite Q3. unfold style_kind. specialize (Q2 X).
      destruct (s_style cfg); [reflexivity|..]; destruct Ty as (T1 & T2); try discriminate; tauto.
Qed.
End Cfg.

(** ** Whole command lines *)

Section Reached.
Variables (p q : parser_data).
Hypothesis H : finish_parser p = Val q.
Let cfg := d_settings q.
Let top := d_command q.

Lemma shape_lookups : forall st, shape cfg top st -> lookups cfg (ps_command st).
Proof. intros st Sh f o (D & Se). apply (shape_lookup p q H st f o Sh D). exact Se. Qed.

Lemma finished_value : forall c o, within top c -> In o (c_options c) -> takes_value o -> o_argument o <> [].
Proof.
  intros c o W Io (Op & Co). apply finish_parser_inv in H. destruct H as (_ & F).
  destruct (finished_within _ _ _ _ _ _ F c W) as (d0 & f & s & a & _ & E).
  apply finish_finished in E. destruct E as (opts1 & vid' & aid' & V & _ & I & _).
  apply set_internal_ids_spec in I. destruct I as (_ & _ & _ & _ & S2).
  destruct (forall2_in_right _ _ _ S2 o Io) as (o1 & I1 & (a1 & v1 & ->)).
  cbn in Op, Co |- *.
  assert (X : In o1 opts1 \/ o_constant o1 <> []).
  { unfold add_help_option in I1. cbv zeta in I1. destruct (negb _); [auto|]. destruct (has_help_option _); [auto|].
    destruct (is_empty (help_flags _ _)); [auto|]. apply in_app_iff in I1. destruct I1 as [I1|[<-|[]]]; [auto|].
    right. discriminate. }
  destruct X as [X|X]; [|contradiction].
  apply validate_all_forall2 in V. destruct (forall2_in_right _ _ _ V o1 X) as (o2 & _ & Eo).
  assert (Eop : o_operation o1 = o_operation o2).
  { destruct (validate_result_proof _ _ _ Eo) as (S1 & _). apply S1. }
  rewrite Eop in Op. destruct (validate_value_proof _ _ _ Eo Op) as [(_ & N0)|(N0 & _)]; [contradiction|exact N0].
Qed.

(** The counters at the start. *)
Lemma start_same : forall l1 l2,
  (forall n m, count_arguments cfg (initial_state cfg top l1) = Ret n (initial_state cfg top l1) ->
               count_arguments cfg (initial_state cfg top l2) = Ret m (initial_state cfg top l2) -> n = m) ->
  exists s t, start_counter cfg (initial_state cfg top l1) = Ret tt s /\
    start_counter cfg (initial_state cfg top l2) = Ret tt t /\ same_state ev_same s t /\
    ps_iter s = make_option_iterator (s_style cfg) l1 /\ ps_iter t = make_option_iterator (s_style cfg) l2 /\
    ps_mode s = ARGUMENTS_AND_OPTIONS /\ ps_command s = top.
Proof.
  intros l1 l2 C. unfold start_counter. rewrite !bind_gets.
  assert (Sm : forall ac, same_state ev_same (set_counter (initial_state cfg top l1) ac)
                            (set_counter (initial_state cfg top l2) ac)).
  { intros ac. constructor; try reflexivity. constructor. }
  change (ps_command (initial_state cfg top l1)) with top. change (ps_command (initial_state cfg top l2)) with top.
  destruct (negb _).
  - do 2 eexists. split; [reflexivity|]. split; [reflexivity|]. split; [apply Sm|]. repeat split.
  - assert (W : forall l, wf_iter (ps_iter (initial_state cfg top l))).
    { intros l. cbn. unfold make_option_iterator. destruct (s_style cfg); exact Logic.I. }
    destruct (count_arguments_total cfg _ (W l1)) as (n & En). destruct (count_arguments_total cfg _ (W l2)) as (m & Em).
    rewrite <- (C n m En Em) in Em. unfold bind. rewrite En, Em.
    do 2 eexists. split; [reflexivity|]. split; [reflexivity|]. split; [apply Sm|]. repeat split.
Qed.

Lemma start_kind : forall l, make_option_iterator (s_style cfg) l = it_start (style_kind cfg) l.
Proof. intros l. unfold make_option_iterator, style_kind. destruct (s_style cfg); reflexivity. Qed.

Lemma initial_shape : forall l s, start_counter cfg (initial_state cfg top l) = Ret tt s -> shape cfg top s.
Proof. intros l s E. eapply reached_shape; [exact H|]. apply reached_start. exact E. Qed.

Lemma top_lookups : lookups cfg top.
Proof.
  destruct (start_same [] []) as (s & t & E & _ & _ & _ & _ & _ & Ec).
  { intros n m E1 E2. rewrite E1 in E2. injection E2 as ->. reflexivity. }
  rewrite <- Ec. apply shape_lookups. eapply initial_shape. exact E.
Qed.

Lemma chooses_in : forall c f o, chooses cfg c f o -> In o (c_options c).
Proof.
  intros c f o (_ & Se).
  assert (Nm : forall t, names (s_case_insensitive cfg) (s_abbreviations cfg) (c_options c) t o -> In o (c_options c)).
  { intros t [(g & (I & _) & _)|(_ & g & (I & _) & _)]; exact I. }
  destruct Se as [Se|(_ & t & _ & _ & Se & _)]; eapply Nm; exact Se.
Qed.

Lemma spelling_count : forall o v sp1 sp2 post n m, takes_value o ->
  spelling cfg top o v sp1 -> spelling cfg top o v sp2 ->
  (s_style cfg <> STANDARD -> o_type o <> OT_LAST_OPTION /\ o_type o <> OT_LAST_ARGUMENT) ->
  count_arguments cfg (initial_state cfg top (sp1 ++ post)) = Ret n (initial_state cfg top (sp1 ++ post)) ->
  count_arguments cfg (initial_state cfg top (sp2 ++ post)) = Ret m (initial_state cfg top (sp2 ++ post)) -> n = m.
Proof.
  intros o v sp1 sp2 post n m Tk P1 P2 Ty E1 E2. pose proof top_lookups as Lk.
  destruct (spelled _ _ _ _ _ post Lk P1) as (f1 & i1 & j1 & N1 & L1 & C1 & W1 & V1 & A1 & Kj1).
  destruct (spelled _ _ _ _ _ post Lk P2) as (f2 & i2 & j2 & N2 & L2 & C2 & W2 & V2 & A2 & Kj2).
  assert (B : beyond j1 j2) by (eapply past_beyond; [exact A1|exact A2|congruence]).
  assert (Ar : o_argument o <> []).
  { apply (finished_value top); [constructor|eapply chooses_in; exact C1|exact Tk]. }
  assert (S0 : same_state ev_same (initial_state cfg top (sp1 ++ post)) (initial_state cfg top (sp2 ++ post))).
  { constructor; try reflexivity. constructor. }
  unfold count_arguments in E1, E2.
  change (ps_command (initial_state cfg top (sp2 ++ post))) with top in *.
  change (ps_command (initial_state cfg top (sp1 ++ post))) with top in *.
  remember (fst (get_min_max_count (c_arguments top))) as min eqn:Em. clear Em.
  assert (I1 : ps_iter (initial_state cfg top (sp1 ++ post)) = it_start (style_kind cfg) (sp1 ++ post)) by (cbn; apply start_kind).
  assert (I2 : ps_iter (initial_state cfg top (sp2 ++ post)) = it_start (style_kind cfg) (sp2 ++ post)) by (cbn; apply start_kind).
  rewrite I1 in E1. rewrite I2 in E2. unfold iter_fuel in E1, E2.
  remember (initial_state cfg top (sp1 ++ post)) as s eqn:Es. remember (initial_state cfg top (sp2 ++ post)) as t eqn:Et.
  assert (Cs : ps_command s = top) by (subst s; reflexivity). assert (Ct : ps_command t = top) by (subst t; reflexivity).
  clear Es Et.
  cbn [count_tokens] in E1, E2. rewrite N1, Cs, (Lk _ _ C1) in E1. rewrite N2, Ct, (Lk _ _ C2) in E2.
  destruct (o_argument o) as [|x xs]; [contradiction|]. cbn [is_empty negb] in E1, E2.
  rewrite V1 in E1. rewrite V2 in E2.
  assert (Tok : forall g1 g2, match count_tokens cfg g1 s min j1 0 with
      | CountOk n0 => Ret n0 s | CountBad => Undefined | CountNoFuel => NoFuel end = Ret n s ->
    match count_tokens cfg g2 t min j2 0 with
      | CountOk n0 => Ret n0 t | CountBad => Undefined | CountNoFuel => NoFuel end = Ret m t -> n = m).
  { intros g1 g2 X1 X2. destruct (count_tokens cfg g1 _ _ _ _) as [k1| |] eqn:D1; try discriminate.
    destruct (count_tokens cfg g2 _ _ _ _) as [k2| |] eqn:D2; try discriminate.
    injection X1 as <-. injection X2 as <-.
    exact (count_tokens_same cfg _ _ _ _ _ _ _ _ _ _ S0 (g_next _ good_beyond _ _ B) D1 D2). }
  destruct (o_type o) eqn:T; try (eapply Tok; eassumption); try congruence.
  destruct (count_values cfg (iter_fuel j1) _ _ _ _) as [k1| |] eqn:D1; try discriminate.
  destruct (count_values cfg (iter_fuel j2) _ _ _ _) as [k2| |] eqn:D2; try discriminate.
  injection E1 as <-. injection E2 as <-.
  assert (Al : alike j1 j2).
  { destruct B as [a b l|pp a b i j l Nm Nn Pm Pn]; [constructor|].
    unfold style_kind in Kj1. destruct (s_style cfg); [discriminate|..]; destruct Ty; try discriminate; congruence. }
  exact (count_values_same cfg _ _ _ _ _ _ _ _ _ _ S0 Al D1 D2).
Qed.

Lemma group_count : forall x g post n m, s_style cfg = STANDARD -> g <> [] -> x <> "-"%char ->
  hd_error g <> Some "-"%char ->
  (forall o, find_option top ["-"%char; x] (s_abbreviations cfg) (s_case_insensitive cfg) = Some o ->
     o_type o <> OT_LAST_OPTION) ->
  count_arguments cfg (initial_state cfg top (("-"%char :: x :: g) :: post)) =
    Ret n (initial_state cfg top (("-"%char :: x :: g) :: post)) ->
  count_arguments cfg (initial_state cfg top (["-"%char; x] :: ("-"%char :: g) :: post)) =
    Ret m (initial_state cfg top (["-"%char; x] :: ("-"%char :: g) :: post)) -> n = m.
Proof.
  intros x g post n m St Ng Nx Nh Ho E1 E2.
  set (l1 := ("-"%char :: x :: g) :: post) in *. set (l2 := ["-"%char; x] :: ("-"%char :: g) :: post) in *.
  assert (S0 : same_state ev_same (initial_state cfg top l1) (initial_state cfg top l2)).
  { constructor; try reflexivity. constructor. }
  unfold count_arguments in E1, E2.
  change (ps_command (initial_state cfg top l2)) with top in *.
  change (ps_command (initial_state cfg top l1)) with top in *.
  remember (fst (get_min_max_count (c_arguments top))) as min eqn:Em. clear Em.
  assert (I1 : ps_iter (initial_state cfg top l1) = it_start KStandard l1) by (cbn; rewrite St; reflexivity).
  assert (I2 : ps_iter (initial_state cfg top l2) = it_start KStandard l2) by (cbn; rewrite St; reflexivity).
  rewrite I1 in E1. rewrite I2 in E2. unfold iter_fuel in E1, E2.
  remember (initial_state cfg top l1) as s eqn:Es. remember (initial_state cfg top l2) as t eqn:Et.
  assert (Cs : ps_command s = top) by (subst s; reflexivity). assert (Ct : ps_command t = top) by (subst t; reflexivity).
  clear Es Et. subst l1 l2.
  cbn [count_tokens] in E1, E2. rewrite group_tokens, Cs in E1 by assumption. rewrite single_tokens, Ct in E2.
  pose proof (group_alike x g post Ng Nx Nh) as A.
  assert (Tok : forall g1 g2 j1 j2, alike_next j1 j2 -> match count_tokens cfg g1 s min j1 0 with
      | CountOk n0 => Ret n0 s | CountBad => Undefined | CountNoFuel => NoFuel end = Ret n s ->
    match count_tokens cfg g2 t min j2 0 with
      | CountOk n0 => Ret n0 t | CountBad => Undefined | CountNoFuel => NoFuel end = Ret m t -> n = m).
  { intros g1 g2 j1 j2 B X1 X2. destruct (count_tokens cfg g1 _ _ _ _) as [k1| |] eqn:D1; try discriminate.
    destruct (count_tokens cfg g2 _ _ _ _) as [k2| |] eqn:D2; try discriminate.
    injection X1 as <-. injection X2 as <-.
    exact (count_tokens_same cfg _ _ _ _ _ _ _ _ _ _ S0 B D1 D2). }
  destruct (find_option top ["-"%char; x] _ _) as [o|] eqn:F.
  - pose proof (Ho o eq_refl) as To. destruct (negb (is_empty (o_argument o))).
    + cbn [it_next_value it_kind] in E1, E2. unfold it_next_value, std_next_value in E1, E2.
      cbn [it_kind it_args it_pos] in E1, E2.
      rewrite (proj2 (Nat.leb_le 2 (length ("-"%char :: x :: g)))) in E1 by (cbn [length]; lia).
      assert (B : alike_next (mk_iter KStandard (("-"%char :: x :: g) :: post) Npos)
                (mk_iter KStandard (("-"%char :: g) :: post) Npos)) by (apply an_alike, al_done).
      destruct (o_type o); try contradiction; try (eapply Tok; [exact B|exact E1|exact E2]); congruence.
    + destruct (o_type o); try contradiction; try (eapply Tok; [exact A|exact E1|exact E2]); congruence.
  - rewrite St in E1, E2. cbn [is_option] in E1, E2. change (Ascii.eqb "-"%char c_dash) with true in E1, E2.
    cbv iota in E1, E2. eapply Tok; [exact A|exact E1|exact E2].
Qed.

(** *** C04 *)

Lemma same_spelling_proof : forall args1 args2 s t n1 n2 o v sp1 sp2 post,
  reached cfg top args1 s n1 -> reached cfg top args2 t n2 -> same_state ev_same s t ->
  ps_mode s = ARGUMENTS_AND_OPTIONS -> takes_value o ->
  spelling cfg (ps_command s) o v sp1 -> spelling cfg (ps_command s) o v sp2 ->
  (s_style cfg <> STANDARD -> o_type o <> OT_LAST_OPTION /\ o_type o <> OT_LAST_ARGUMENT) ->
  before_args (ps_iter s) (sp1 ++ post) -> before_args (ps_iter t) (sp2 ++ post) ->
  same_outcome ev_same eq same_reading (next cfg s) (next cfg t) /\
  forall fuel, same_outcome ev_same eq anyrel (parse_loop cfg fuel s) (parse_loop cfg fuel t).
Proof.
  intros args1 args2 s t n1 n2 o v sp1 sp2 post R1 R2 S0 M Tk P1 P2 Ty B1 B2.
  pose proof (reached_shape p q H args1 s n1 R1) as Sh1. pose proof (reached_shape p q H args2 t n2 R2) as Sh2.
  assert (X : same_outcome ev_same eq same_reading (next cfg s) (next cfg t)).
  { exact (spelling_next cfg s t o v sp1 sp2 post S0 M (sh_kind _ _ _ Sh1) (sh_kind _ _ _ Sh2)
             (shape_lookups s Sh1) Tk P1 P2 Ty B1 B2). }
  split; [exact X|]. intros [|fuel]; [exact Logic.I|]. cbn [parse_loop]. unfold bind.
  destruct (next cfg s) as [r s'|c s'|e s'| |], (next cfg t) as [r' t'|d t'|f t'| |]; simpl in X |- *;
    try contradiction; auto.
  destruct X as (<- & S1 & Rd). destruct (ir_code r); try (apply loop_exact; assumption);
    (simpl; split; [reflexivity|]; split; [exact S1|exact Logic.I]).
Qed.

Lemma same_line_proof : forall o v sp1 sp2 post fuel, takes_value o ->
  spelling cfg top o v sp1 -> spelling cfg top o v sp2 ->
  (s_style cfg <> STANDARD -> o_type o <> OT_LAST_OPTION /\ o_type o <> OT_LAST_ARGUMENT) ->
  same_outcome ev_same eq anyrel (run_parser cfg fuel top (sp1 ++ post)) (run_parser cfg fuel top (sp2 ++ post)).
Proof.
  intros o v sp1 sp2 post fuel Tk P1 P2 Ty.
  destruct (start_same (sp1 ++ post) (sp2 ++ post)) as (s & t & E1 & E2 & S0 & I1 & I2 & M & C).
  { intros n m. apply (spelling_count o v); assumption. }
  unfold run_parser, bind. rewrite E1, E2.
  rewrite <- C in P1, P2.
  apply (same_spelling_proof (sp1 ++ post) (sp2 ++ post) s t 0 0 o v sp1 sp2 post); try assumption.
  - apply reached_start. exact E1.
  - apply reached_start. exact E2.
  - rewrite I1, start_kind. reflexivity.
  - rewrite I2, start_kind. reflexivity.
Qed.

(** What one spelling does. *)
Lemma option_step : forall o v s r s', wf_iter (ps_iter s) ->
  o_type o = OT_NORMAL \/ o_type o = OT_LAST_OPTION ->
  bind (act cfg o v) (concludes cfg o) s = Ret r s' ->
  r = mk_ir IC_OPTION (ItOption o) v /\
  ps_mode s' = (match o_type o with OT_LAST_OPTION => ARGUMENTS_ONLY | _ => ps_mode s end) /\
  ps_command s' = ps_command s /\ ps_parents s' = ps_parents s /\
  exists s1, ps_iter s' = ps_iter s1 /\ ps_cur s' = ps_cur s1 /\ ps_counter s' = ps_counter s1 /\
    called_both cfg (o_callback o) (option_cb cfg o) (own_event o v) (global_event o v) v s s1.
Proof.
  intros o v s r s' W T E. unfold act in E.
  pose proof (two_callbacks_exact cfg (o_callback o) (option_cb cfg o) (own_event o v) (global_event o v) v s W
    eq_refl eq_refl) as X.
  unfold bind in X, E. unfold own_event, global_event in X.
  destruct (run_callback cfg (o_callback o) _ v s) as [[] s0|c s0|e s0| |]; try discriminate E.
  destruct (run_callback cfg (option_cb cfg o) _ v s0) as [[] s1|c s1|e s1| |]; try discriminate E.
  cbn [when post] in X. pose proof (cb2_frame _ _ _ _ _ _ _ _ X) as Fr.
  unfold apply_type in E.
  destruct T as [T|T]; rewrite T in E |- *; cbn in E; injection E as <- <-; cbn.
  - split; [reflexivity|]. split; [apply Fr|]. split; [apply Fr|]. split; [apply Fr|]. exists s1. auto.
  - split; [reflexivity|]. split; [reflexivity|]. split; [apply Fr|]. split; [apply Fr|]. exists s1. auto.
Qed.

Lemma spelling_stored_proof : forall args s n o v sp post r s',
  reached cfg top args s n -> ps_mode s = ARGUMENTS_AND_OPTIONS -> takes_value o ->
  o_type o = OT_NORMAL \/ o_type o = OT_LAST_OPTION ->
  spelling cfg (ps_command s) o v sp -> before_args (ps_iter s) (sp ++ post) ->
  next cfg s = Ret r s' ->
  r = mk_ir IC_OPTION (ItOption o) v /\
  ps_mode s' = (match o_type o with OT_LAST_OPTION => ARGUMENTS_ONLY | _ => ARGUMENTS_AND_OPTIONS end) /\
  ps_command s' = ps_command s /\ ps_parents s' = ps_parents s /\
  (no_interference cfg top -> forall id, get_values (l_values (ps_cur s')) id =
     if N.eqb (o_value_id o) id
     then (match o_operation o with OP_APPEND => get_values (l_values (ps_cur s)) id | _ => [] end) ++
          [(v, o_argument_id o)]
     else get_values (l_values (ps_cur s)) id) /\
  (no_insertions cfg top -> before_args (ps_iter s') post /\ ps_counter s' = ps_counter s).
Proof.
  intros args s n o v sp post r s' R M Tk T P B E.
  pose proof (reached_shape p q H args s n R) as Sh.
  destruct (spelled cfg _ _ _ _ post (shape_lookups s Sh) P) as (f & i & j & N1 & L & C & W & V & A & Kj).
  assert (K : it_kind (ps_iter s) = style_kind cfg) by exact (sh_kind _ _ _ Sh).
  unfold before_args in B. rewrite K, N1 in B.
  pose proof (shape_lookups s Sh _ _ C) as F.
  assert (Wi : within top (ps_command s)).
  { rewrite (sh_command _ _ _ Sh). eapply chain_within. apply (sh_chain _ _ _ Sh). }
  assert (Io : In o (c_options (ps_command s))) by (eapply chooses_in; exact C).
  rewrite (next_option_eq cfg s f i M B L) in E.
  rewrite (option_runs cfg o f s i v j W F) in E by (left; split; assumption).
  assert (Wj : wf_iter j).
  { destruct (next_value_wf i W) as (v2 & j2 & E2 & W2 & _). rewrite V in E2. apply Ok_inj in E2. congruence. }
  destruct (option_step o v (started o s v j) r s' Wj T E) as (-> & Mo & Cm & Pa & s1 & I1 & U1 & T1 & Cb).
  split; [reflexivity|]. split; [rewrite Mo; destruct (o_type o); try reflexivity; exact M|].
  split; [exact Cm|]. split; [exact Pa|]. split.
  - intros Q id. rewrite U1, (cb2_passive _ _ _ _ _ _ _ _ Cb).
    + pose proof (changed_op o v (l_values (ps_cur s)) (shape_in_order q s Sh) id) as X.
      change (l_values (ps_cur (started o s v j))) with (op_values o v (l_values (ps_cur s))).
      rewrite X. unfold option_change, text_of. destruct Tk as ([Op|Op] & Co); rewrite Op, Co; cbn [effect];
        destruct (N.eqb (o_value_id o) id); reflexivity.
    + intros g x vs Eg. apply Q. eapply cb_option_own; eassumption.
    + intros g x vs Eg. apply Q. eapply cb_option_global; eassumption.
  - intros Q. rewrite I1, T1. destruct (cb2_quiet _ _ _ _ _ _ _ _ Cb) as (X1 & X2).
    + intros g x vs Eg. apply Q. eapply cb_option_own; eassumption.
    + intros g x vs Eg. apply Q. eapply cb_option_global; eassumption.
    + rewrite X1, X2. split; [|reflexivity]. cbn. apply past_before. exact A.
Qed.

(** *** C05 *)

Lemma same_group_proof : forall args1 args2 s t n1 n2 x g post, s_ignore_options cfg = false ->
  s_style cfg = STANDARD -> reached cfg top args1 s n1 -> reached cfg top args2 t n2 ->
  same_state ev_alike s t -> ps_mode s = ARGUMENTS_AND_OPTIONS ->
  before_args (ps_iter s) (("-"%char :: x :: g) :: post) ->
  before_args (ps_iter t) (["-"%char; x] :: ("-"%char :: g) :: post) ->
  g <> [] -> x <> "-"%char -> hd_error g <> Some "-"%char ->
  dependable cfg (ps_command s) ["-"%char; x] ->
  (forall o, selects (s_case_insensitive cfg) (s_abbreviations cfg) (c_options (ps_command s)) ["-"%char; x] o ->
     ~ takes_value o /\ o_type o <> OT_LAST_OPTION /\ o_type o <> OT_LAST_ARGUMENT) ->
  same_outcome ev_alike ir_alike ready (next cfg s) (next cfg t) /\
  forall fuel, same_outcome ev_alike eq anyrel (parse_loop cfg fuel s) (parse_loop cfg fuel t).
Proof.
  intros args1 args2 s t n1 n2 x g post NU St R1 R2 S0 M B1 B2 Ng Nx Nh D Ho.
  pose proof (reached_shape p q H args1 s n1 R1) as Sh1. pose proof (reached_shape p q H args2 t n2 R2) as Sh2.
  pose proof (sh_kind _ _ _ Sh1) as K1. pose proof (sh_kind _ _ _ Sh2) as K2.
  unfold cfg in St. rewrite St in K1, K2.
  assert (X : same_outcome ev_alike ir_alike ready (next cfg s) (next cfg t)).
  { apply (group_next cfg NU s t x g post S0 M St K1 K2 B1 B2 Ng Nx Nh). intros o F. apply Ho.
    apply (shape_lookup p q H s _ o Sh1 D). exact F. }
  split; [exact X|]. intros fuel. apply loop_after_next; assumption.
Qed.

Lemma same_group_line_proof : forall x g post fuel, s_ignore_options cfg = false ->
  s_style cfg = STANDARD -> g <> [] -> x <> "-"%char -> hd_error g <> Some "-"%char ->
  dependable cfg top ["-"%char; x] ->
  (forall o, selects (s_case_insensitive cfg) (s_abbreviations cfg) (c_options top) ["-"%char; x] o ->
     ~ takes_value o /\ o_type o <> OT_LAST_OPTION /\ o_type o <> OT_LAST_ARGUMENT) ->
  same_outcome ev_alike eq anyrel (run_parser cfg fuel top (("-"%char :: x :: g) :: post))
    (run_parser cfg fuel top (["-"%char; x] :: ("-"%char :: g) :: post)).
Proof.
  intros x g post fuel NU St Ng Nx Nh D Ho.
  assert (Fo : forall o, find_option top ["-"%char; x] (s_abbreviations cfg) (s_case_insensitive cfg) = Some o ->
     ~ takes_value o /\ o_type o <> OT_LAST_OPTION /\ o_type o <> OT_LAST_ARGUMENT).
  { intros o F. apply Ho. destruct (start_same [] []) as (s & t & E & _ & _ & _ & _ & _ & Ec).
    { intros n m E1 E2. rewrite E1 in E2. injection E2 as ->. reflexivity. }
    pose proof (initial_shape _ _ E) as Sh. rewrite <- Ec in F, D |- *.
    apply (shape_lookup p q H s _ o Sh D). exact F. }
  destruct (start_same (("-"%char :: x :: g) :: post) (["-"%char; x] :: ("-"%char :: g) :: post))
    as (s & t & E1 & E2 & S0 & I1 & I2 & M & C).
  { intros n m. apply group_count; auto. intros o F. apply (Fo o F). }
  unfold run_parser, bind. rewrite E1, E2.
  eapply same_group_proof with (x := x) (g := g) (post := post);
    try (apply reached_start; eassumption); try assumption; try (rewrite C; assumption);
    try (rewrite ?I1, ?I2, start_kind; reflexivity).
  forms S0. constructor; try reflexivity. cbn.
  clear - F. induction F as [|a b e f Eab F IH]; [constructor|]. constructor; [|exact IH]. left. exact Eab.
Qed.

(** For examples. *)
Lemma search_chooses : forall f o, s_case_insensitive cfg = false ->
  find_option top f (s_abbreviations cfg) false = Some o -> chooses cfg top f o.
Proof.
  intros f o Ci F.
  assert (D : dependable cfg top f).
  { split; [|rewrite Ci; discriminate]. intros X. rewrite Ci in X. discriminate X. }
  destruct (start_same [] []) as (s & t & E & _ & _ & _ & _ & _ & Ec).
  { intros n m E1 E2. rewrite E1 in E2. injection E2 as ->. reflexivity. }
  pose proof (initial_shape _ _ E) as Sh. rewrite <- Ec in F, D |- *.
  split; [exact D|]. apply (shape_lookup p q H s _ o Sh D). unfold cfg in *. rewrite Ci. exact F.
Qed.
End Reached.
