(** Proofs for PLookup.v. *)
From Verif Require Import Base BaseProofs MStrings MOptIter MParseInt MData MCounter MValues MParser MText MHelp MApi MResults
  SIndex SDef SValues SCounter SText SFormat SHelp SStep SParser SApi SExamples SResults SLookup
  ValuesProofs FinishProofs InvProofs NextProofs ParseProofs ValueFlow PrintProofs ResultProofs.
Open Scope nat_scope.

Lemma carries_item : forall c name vid, carries c name vid <->
  exists i, In i (listed c) /\ valueless i = false /\ In name (item_names i) /\ view_value_id i = vid.
Proof.
  intros c name vid. split.
  - intros [a Ha E H|o Ho E N0 H].
    + exists (ArgumentView a). split; [apply in_app_iff; left; apply in_map; exact Ha|]. split; [reflexivity|]. split; [|exact E].
      cbn [item_names]. destruct H as [->|(N1 & ->)]; [left; reflexivity|right]. destruct (a_alias a); [congruence|left; reflexivity].
    + exists (OptionView o). split; [apply in_app_iff; right; apply in_map; exact Ho|].
      split; [cbn; destruct (o_operation o); congruence|]. split; [|exact E]. cbn [item_names]. apply in_app_iff.
      destruct H as [H|(N1 & ->)]; [left; exact H|right]. destruct (o_alias o); [congruence|left; reflexivity].
  - intros ([a|o] & Hi & V & Hn & E); unfold listed in Hi; apply in_app_iff in Hi.
    + destruct Hi as [Hi|Hi]; apply in_map_iff in Hi; destruct Hi as (x & Ex & Hx); [|discriminate]. injection Ex as ->.
      apply (carries_argument _ _ _ a Hx E). cbn [item_names] in Hn. destruct Hn as [<-|Hn]; [left; reflexivity|right].
      destruct (a_alias a) eqn:Ea; [destruct Hn|]. destruct Hn as [<-|[]]. split; [discriminate|reflexivity].
    + destruct Hi as [Hi|Hi]; apply in_map_iff in Hi; destruct Hi as (x & Ex & Hx); [discriminate|]. injection Ex as ->.
      apply (carries_option _ _ _ o Hx E); [cbn in V; destruct (o_operation o); congruence|].
      cbn [item_names] in Hn. apply in_app_iff in Hn. destruct Hn as [Hn|Hn]; [left; exact Hn|right].
      destruct (o_alias o) eqn:Ea; [destruct Hn|]. destruct Hn as [<-|[]]. split; [discriminate|reflexivity].
Qed.

Lemma shared_id : forall c i name, shared_name c i name -> get_value_id c name = Val (view_value_id i).
Proof.
  intros c i name (Hi & V & Hn & S0). apply get_value_id_least. split; [apply carries_item; exists i; auto|].
  intros v' H. apply carries_item in H. destruct H as (j & Hj & Vj & Hnj & <-). rewrite (S0 j Hj Vj Hnj). lia.
Qed.

Lemma same_lookup_proof : forall x i name, shared_name (l_command x) i name ->
  pa_has x name = Val (has_by_view x i) /\
  values_by_name x name = VGot (values_by_view x i) /\
  (forall v, value_by_name x name = VGot v ->
     exists w, value_by_view x i = VGot w /\ av_value w = av_value v) /\
  (forall w, value_by_view x i = VGot w ->
     exists v, value_by_name x name = VGot v /\ av_value v = av_value w) /\
  (forall e out, value_by_name x name = VThrow e out <-> value_by_view x i = VThrow e out).
Proof.
  intros x i name H. apply shared_id in H. unfold pa_has, has_by_view, values_by_name, values_by_view, value_by_name, value_by_view.
  rewrite H. cbn [of_exc vbind]. split; [reflexivity|]. split; [reflexivity|].
  destruct (get_value (l_values x) (view_value_id i)) as [[(s & aid)|]|e0]; cbn [of_exc vbind option_map fst].
  - split; [intros v E; injection E as <-; eexists; split; reflexivity|].
    split; [intros v E; injection E as <-; eexists; split; reflexivity|]. intros e out. split; discriminate.
  - split; [intros v E; injection E as <-; eexists; split; reflexivity|].
    split; [intros v E; injection E as <-; eexists; split; reflexivity|]. intros e out. split; discriminate.
  - split; [discriminate|]. split; [discriminate|]. intros e out. reflexivity.
Qed.

(** ** The values of one view *)

Section Levels.
  Variables (p q : parser_data) (args : list str) (st : pstate) (n : N) (x : level).
  Hypothesis Hq : finish_parser p = Val q.
  Hypothesis Hr : reached (d_settings q) (d_command q) args st n.
  Hypothesis Hx : in_result (toplevel st) x.

  Lemma reached_level : level_ok x.
  Proof.
    pose proof (reached_inv _ _ (finish_parser_prepared p q Hq) _ _ _ Hr) as H. apply inv_shape in H.
    destruct H as [A1 A2 A3 A4 A5 A6]. unfold open_levels in A3. inversion A3 as [|? ? O1 O2]; subst.
    eapply toplevel_levels; [exact A2| |exact O2|exact Hx].
    intros y Hy. apply in_result_inv in Hy. destruct Hy as [->|(s & Is & Iy)]; [apply O1|].
    destruct O1 as (_ & S0 & _). destruct (S0 s Is y Iy). assumption.
  Qed.

  Lemma view_agree_proof : forall i,
    (has_by_view x i = true <-> avs_list (values_by_view x i) <> []) /\
    (forall v, value_by_view x i = VGot v ->
       map av_value (avs_list (values_by_view x i)) = match av_value v with None => [] | s => [s] end) /\
    (forall e out, value_by_view x i = VThrow e out <->
       e = XOther EMultipleValues /\ out = [] /\ 2 <= length (avs_list (values_by_view x i))) /\
    (forall default, has_by_view x i = true ->
       map Some (avs_strings (values_by_view x i) default) = map av_value (avs_list (values_by_view x i))) /\
    (forall default, has_by_view x i = false -> avs_strings (values_by_view x i) default = default).
  Proof.
    intros i. destruct reached_level as (_ & _ & cs & E).
    assert (O : in_order (l_values x)) by (rewrite E; apply changes_in_order; constructor).
    unfold has_by_view, value_by_view, values_by_view, avs_list, avs_strings. cbn [avs_values avs_args avs_value_id].
    rewrite has_pick, <- (get_values_pick _ _ O), get_value_values.
    destruct (get_values (l_values x) (view_value_id i)) as [|(s & a) [|b r]]; cbn [is_empty negb map fst snd of_exc vbind option_map av_value length].
    - split; [split; [discriminate|congruence]|]. split; [intros v H; injection H as <-; reflexivity|].
      split; [intros e out; split; [discriminate|intros (_ & _ & H); lia]|]. split; [discriminate|reflexivity].
    - split; [split; [discriminate|reflexivity]|]. split; [intros v H; injection H as <-; reflexivity|].
      split; [intros e out; split; [discriminate|intros (_ & _ & H); lia]|]. split; [reflexivity|discriminate].
    - split; [split; [discriminate|reflexivity]|]. split; [discriminate|].
      split; [intros e out; split; [intros H; injection H as <- <-; rewrite map_length; repeat split; lia|intros (-> & -> & _); reflexivity]|].
      split; [|discriminate]. intros _ _. do 2 f_equal. rewrite !map_map. reflexivity.
  Qed.
End Levels.

(** ** Items without value *)

Lemma no_value_proof : forall p q args st n x i, made_parser p -> finish_parser p = Val q ->
  no_insertions (d_settings q) (d_command q) -> no_interference (d_settings q) (d_command q) ->
  reached (d_settings q) (d_command q) args st n -> in_result (toplevel st) x ->
  no_idle_values (d_command q) ->
  In i (listed (l_command x)) -> valueless i = true ->
  has_by_view x i = false /\ avs_list (values_by_view x i) = [] /\
  exists v, value_by_view x i = VGot v /\ av_value v = None.
Proof.
  intros p q args st n x i Hm Hq Hins Hint Hr Hx Hidle Hi V.
  pose proof (results_within _ _ _ _ _ _ Hq Hr Hx) as W.
  destruct (finished_views p q (l_command x) (made_parser_fresh p Hm) Hq W) as (t & Z0 & Z1 & _).
  assert (E : get_values (l_values x) (view_value_id i) = []).
  { destruct (get_values (l_values x) (view_value_id i)) as [|(s & aid) r] eqn:E; [reflexivity|exfalso].
    destruct (values_given_proof p q args st n x (view_value_id i) s aid Hq Hins Hint Hr Hx) as [o Et Ho Ev Ea E1 E2|o Ho Ev Ea E1 E2 E3|o Ho Ev Ea E1 E2|a Ha Ev Ea E1];
      [rewrite E; left; reflexivity|..].
    - assert (Io : In (OptionView o) (listed (l_command x))) by (apply in_app_iff; right; apply in_map; exact Ho).
      rewrite (Z0 i Hi V) in Ev. destruct (valueless (OptionView o)) eqn:Vo.
      + rewrite Et in Ho. rewrite E1 in E2. apply E2. apply (Hidle o Ho). cbn in Vo. destruct (o_operation o); congruence.
      + specialize (Z1 _ Io Vo). cbn in Z1. lia.
    - assert (Io : In (OptionView o) (listed (l_command x))) by (apply in_app_iff; right; apply in_map; exact Ho).
      rewrite (Z0 i Hi V) in Ev. assert (Vo : valueless (OptionView o) = false) by (cbn; destruct E3 as [-> | ->]; reflexivity).
      specialize (Z1 _ Io Vo). cbn in Z1. lia.
    - assert (Io : In (OptionView o) (listed (l_command x))) by (apply in_app_iff; right; apply in_map; exact Ho).
      rewrite (Z0 i Hi V) in Ev. assert (Vo : valueless (OptionView o) = false) by (cbn; destruct E1 as ([-> | ->] & _); reflexivity).
      specialize (Z1 _ Io Vo). cbn in Z1. lia.
    - assert (Ia : In (ArgumentView a) (listed (l_command x))) by (apply in_app_iff; left; apply in_map; exact Ha).
      rewrite (Z0 i Hi V) in Ev. specialize (Z1 _ Ia eq_refl). cbn in Z1. lia. }
  destruct (view_agree_proof p q args st n x Hq Hr Hx i) as (A & _).
  assert (L : avs_list (values_by_view x i) = []) by (unfold avs_list, values_by_view; cbn [avs_values]; rewrite E; reflexivity).
  split; [destruct (has_by_view x i); [|reflexivity]; destruct (proj1 A eq_refl L)|]. split; [exact L|].
  unfold value_by_view. rewrite get_value_values, E. eexists. split; reflexivity.
Qed.

(** ** The option that stopped the parsing *)

Definition stop_ok (l : level) : Prop :=
  match l_stop l with
  | Some o => l_result l = RC_STOP /\ In o (c_options (l_command l)) /\ stops o
  | None => l_result l <> RC_STOP
  end.

Lemma code_stop : forall l, code_ok l -> stop_ok l.
Proof. intros l (E & C). unfold stop_ok. rewrite E. destruct C as [-> | ->]; discriminate. Qed.

Lemma stop_levels : forall parents cur,
  (forall y, in_result cur y -> stop_ok y) ->
  Forall (fun l => stop_ok l /\ subs_ok l) parents ->
  forall y, in_result (fst (pop_levels (length parents) cur parents)) y -> stop_ok y.
Proof.
  induction parents as [|l r IH]; intros cur Hc Fo y Hy; [apply Hc; exact Hy|].
  inversion Fo as [|? ? (S0 & Su) Fo']; subst. simpl in Hy. eapply IH; [|exact Fo'|exact Hy].
  clear y Hy. intros y Hy. apply in_result_inv in Hy. destruct Hy as [->|(s & Is & Iy)]; [exact S0|].
  simpl in Is. apply in_app_or in Is. destruct Is as [Is|[<-|[]]]; [|apply Hc; exact Iy].
  apply code_stop. apply (Su s Is y Iy).
Qed.

Lemma stop_option_proof : forall p q args st n x, finish_parser p = Val q ->
  reached (d_settings q) (d_command q) args st n -> in_result (toplevel st) x ->
  (forall o, pa_stop_option x = Val o ->
     l_result x = RC_STOP /\ In o (c_options (l_command x)) /\ stops o) /\
  (forall e, pa_stop_option x = Exn e <-> e = ENoStopOption /\ l_result x <> RC_STOP).
Proof.
  intros p q args st n x Hq Hr Hx.
  pose proof (reached_inv _ _ (finish_parser_prepared p q Hq) _ _ _ Hr) as V.
  assert (O : Forall open_ok (open_levels st)) by apply (sh_open _ _ _ (inv_shape _ _ _ _ V)).
  assert (S0 : Forall stop_ok (open_levels st)).
  { destruct V as [R _|F|S0|o S0 _].
    - eapply Forall_impl; [exact code_stop|apply (ru_codes _ _ _ _ R)].
    - apply Forall_forall. intros l Hl. destruct (fa_codes _ _ _ F l Hl) as (E1 & E2). unfold stop_ok. rewrite E1, E2. discriminate.
    - apply Forall_forall. intros l Hl. destruct (su_codes _ _ _ _ S0 l Hl) as (E1 & E2). unfold stop_ok. rewrite E1, E2. discriminate.
    - constructor; [|eapply Forall_impl; [exact code_stop|apply (sp_parents _ _ _ _ S0)]].
      unfold stop_ok. rewrite (sp_option _ _ _ _ S0). split; [apply (sp_code _ _ _ _ S0)|].
      rewrite <- (sh_command _ _ _ (sp_shape _ _ _ _ S0)). split; [apply (sp_in _ _ _ _ S0)|].
      unfold stops. destruct (sp_type _ _ _ _ S0) as [?|[?|?]]; auto. }
  assert (X : stop_ok x).
  { unfold toplevel in Hx. unfold open_levels in O, S0. inversion O as [|? ? O1 O2]; subst. inversion S0 as [|? ? S1 S2]; subst.
    eapply stop_levels; [| |exact Hx].
    - intros y Hy. apply in_result_inv in Hy. destruct Hy as [->|(s & Is & Iy)]; [exact S1|].
      apply code_stop. destruct O1 as (_ & Su & _). apply (Su s Is y Iy).
    - rewrite Forall_forall in *. intros l Hl. split; [apply S2; exact Hl|apply (O2 l Hl)]. }
  unfold pa_stop_option. unfold stop_ok in X. destruct (l_stop x) as [o|].
  - split; [intros o' E; injection E as <-; exact X|]. intros e. split; [discriminate|]. intros (_ & N0). destruct (N0 (proj1 X)).
  - split; [discriminate|]. intros e. split; [intros E; injection E as <-; auto|intros (-> & _); reflexivity].
Qed.

(** Checks for the examples. *)
Definition shared_b (c : cmd_data) (i : iview) (name : str) : bool :=
  negb (valueless i) && existsb (str_eqb name) (item_names i) &&
  forallb (fun j => valueless j || negb (existsb (str_eqb name) (item_names j)) ||
                    (view_value_id j =? view_value_id i)%N) (listed c).

Lemma shared_b_ok : forall c i name, In i (listed c) -> shared_b c i name = true -> shared_name c i name.
Proof.
  intros c i name Hi H. unfold shared_b in H. apply andb_true_iff in H. destruct H as (H & F).
  apply andb_true_iff in H. destruct H as (V & H). split; [exact Hi|]. split; [destruct (valueless i); [discriminate|reflexivity]|].
  split; [apply existsb_exists in H; destruct H as (s & Hs & E); apply str_eqb_eq in E; subst s; exact Hs|].
  intros j Hj Vj Hn. rewrite forallb_forall in F. specialize (F j Hj). rewrite Vj in F. cbn [orb] in F.
  apply orb_true_iff in F. destruct F as [F|F]; [|apply N.eqb_eq; exact F].
  apply negb_true_iff in F. assert (T : existsb (str_eqb name) (item_names j) = true); [|congruence].
  apply existsb_exists. exists name. split; [exact Hn|apply str_eqb_eq; reflexivity].
Qed.

Definition no_idle_b (c : cmd_data) : bool :=
  forallb (fun o => match o_operation o with OP_NONE => is_empty (o_initial_value o) | _ => true end) (c_options c).
Lemma no_idle_b_ok : forall c, no_idle_b c = true -> no_idle_values c.
Proof.
  intros c H o Ho E. unfold no_idle_b in H. rewrite forallb_forall in H. specialize (H o Ho). rewrite E in H.
  destruct (o_initial_value o); [reflexivity|discriminate].
Qed.

(** ** The items of values *)

Lemma value_item_proof : forall p q args st n x i w, finish_parser p = Val q ->
  reached (d_settings q) (d_command q) args st n -> in_result (toplevel st) x ->
  In i (listed (l_command x)) -> value_by_view x i = VGot w -> av_argument w = VGot (Some i).
Proof.
  intros p q args st n x i w Hq Hr Hx Hi H. unfold value_by_view, vbind in H.
  destruct (get_value _ _) as [v|e]; cbn [of_exc] in H; [|discriminate]. injection H as <-.
  unfold av_argument. cbn [av_args av_argument_id].
  destruct (argument_ids p q _ Hq (results_within _ _ _ _ _ _ Hq Hr Hx)) as (Nd & _).
  rewrite (view_of_id _ _ Nd Hi). reflexivity.
Qed.

Lemma view_suppliers_proof : forall p q args st n x, finish_parser p = Val q ->
  no_insertions (d_settings q) (d_command q) -> no_interference (d_settings q) (d_command q) ->
  reached (d_settings q) (d_command q) args st n -> in_result (toplevel st) x ->
  forall i v, In v (avs_list (values_by_view x i)) ->
  exists j t, av_argument v = VGot (Some j) /\ av_value v = Some t /\
    given_by args (d_command q) (l_command x) j t /\ view_value_id j = view_value_id i.
Proof.
  intros p q args st n x Hq Hins Hint Hr Hx i v Hv. unfold avs_list, values_by_view in Hv. cbn [avs_values avs_args avs_value_id] in Hv.
  apply in_map_iff in Hv. destruct Hv as ((s & aid) & <- & Hs).
  destruct (supplied p q args st n x Hq Hins Hint Hr Hx (view_value_id i) s aid Hs) as (j & G & _ & Ej & Ea & _).
  exists j, s. split; [unfold av_argument; cbn; rewrite Ea; reflexivity|]. split; [reflexivity|]. split; [exact G|exact Ej].
Qed.
