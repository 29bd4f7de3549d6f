From Verif Require Import Base BaseProofs MStrings MData SStrings StrProofs SIndex
  IndexProofs SDef.

(** ** C14 *)

Lemma white_iff : forall c, white c <-> In c white_space.
Proof.
  intros c. unfold white, white_space. simpl.
  change (ascii_of_nat 32) with c_space. change (ascii_of_nat 9) with c_tab.
  change (ascii_of_nat 10) with c_lf. change (ascii_of_nat 13) with c_cr.
  intuition congruence.
Qed.

Lemma no_white_iff : forall f, find_first_of white_space f = None <->
  (forall c, In c f -> ~ white c).
Proof.
  intros f. rewrite find_first_of_none. split; intros H c Hc; specialize (H c Hc);
    rewrite white_iff in *; assumption.
Qed.

Lemma check_equal_iff : forall f o, check_flag_with_equal f o = Val true <->
  (forall p q, f = p ++ "="%char :: q -> q = [] /\ o_argument o <> []).
Proof.
  intros f o. unfold check_flag_with_equal. destruct (find_char c_eq f) as [p|] eqn:E.
  - apply find_char_some in E. destruct E as (E & N & L).
    destruct (Nat.eqb_spec p (length f - 1)) as [->|Np]; simpl.
    + destruct (is_empty (o_argument o)) eqn:A.
      * split; [discriminate|]. intros H. apply is_empty_true in A.
        destruct (H _ _ E). congruence.
      * split; [|reflexivity]. intros _ p q Ef. apply is_empty_false in A.
        split; [|exact A].
        destruct q as [|x q]; [reflexivity|]. exfalso. apply N.
        rewrite Ef at 2. rewrite Ef. rewrite app_length. simpl.
        rewrite firstn_app. apply in_or_app. right.
        replace (length p + S (S (length q)) - 1 - length p) with (S (length q)) by lia.
        left. reflexivity.
    + split; [discriminate|]. intros H. destruct (H _ _ E) as (Hq & _).
      assert (length (skipn (S p) f) = 0) by (rewrite Hq; reflexivity).
      rewrite skipn_length in H0. lia.
  - apply find_char_none in E. split; [|reflexivity]. intros _ p q ->.
    exfalso. apply E. apply in_or_app. right. left. reflexivity.
Qed.

Lemma check_equal_bool : forall f o b, check_flag_with_equal f o = Val b -> b = true.
Proof.
  intros f o b. unfold check_flag_with_equal. destruct (find_char c_eq f).
  - destruct (negb _); [discriminate|]. destruct (is_empty _); congruence.
  - congruence.
Qed.

Definition check_style (style : option_style) (f : str) (o : opt_data) : exc bool :=
  match style with
  | STANDARD => check_standard_flag f o
  | SLASH => check_flag f c_slash o
  | DASH => check_flag f c_dash o
  end.

Lemma check_prefix_iff : forall pre f o,
  check_flag f pre o = Val true <->
  (forall c, In c f -> ~ white c) /\
  exists c r, f = pre :: c :: r /\
    (r <> [] -> forall p q, f = p ++ "="%char :: q -> q = [] /\ o_argument o <> []).
Proof.
  intros pre f o. unfold check_flag. rewrite <- no_white_iff.
  destruct f as [|c0 [|c1 r]].
  - simpl. split; [discriminate|]. intros (_ & c & r & E & _). discriminate.
  - simpl. split; [discriminate|]. intros (_ & c & r & E & _). discriminate.
  - cbn [length]. replace (S (S (length r)) <? 2) with false by reflexivity.
    destruct (Ascii.eqb_spec c0 pre) as [->|N]; cbn [negb].
    2:{ split; [discriminate|]. intros (_ & c & r' & E & _). congruence. }
    destruct (find_first_of white_space (pre :: c1 :: r)) as [n|] eqn:W.
    { split; [discriminate|]. intros (X & _). discriminate. }
    destruct r as [|c2 r]; cbn [length].
    + simpl. split; [|reflexivity]. intros _. split; [reflexivity|].
      exists c1, []. split; [reflexivity|]. congruence.
    + replace (S (S (S (length r))) =? 2) with false by reflexivity.
      rewrite check_equal_iff. split.
      * intros H. split; [reflexivity|]. exists c1, (c2 :: r). split; [reflexivity|].
        intros _. exact H.
      * intros (_ & c & r' & E & H). injection E as -> <-. apply H. discriminate.
Qed.

Lemma check_standard_iff : forall f o,
  check_standard_flag f o = Val true <->
  (forall c, In c f -> ~ white c) /\
  exists c r, f = c_dash :: c :: r /\
    (r <> [] -> c = c_dash /\
      forall p q, f = p ++ "="%char :: q -> q = [] /\ o_argument o <> []).
Proof.
  intros f o. unfold check_standard_flag. rewrite <- no_white_iff.
  destruct (find_first_of white_space f) as [n|] eqn:W.
  { split; [discriminate|]. intros (X & _). discriminate. }
  destruct f as [|c0 [|c1 r]].
  - simpl. split; [discriminate|]. intros (_ & c & r & E & _). discriminate.
  - simpl. split; [discriminate|]. intros (_ & c & r & E & _). discriminate.
  - cbn [length]. replace (S (S (length r)) <? 2) with false by reflexivity.
    destruct (Ascii.eqb_spec c0 c_dash) as [->|N]; cbn [negb].
    2:{ split; [discriminate|]. intros (_ & c & r' & E & _). congruence. }
    destruct r as [|c2 r]; cbn [length].
    + simpl. split; [|reflexivity]. intros _. split; [reflexivity|].
      exists c1, []. split; [reflexivity|]. congruence.
    + replace (S (S (S (length r))) =? 2) with false by reflexivity.
      destruct (Ascii.eqb_spec c1 c_dash) as [->|N1]; cbn [negb].
      * rewrite check_equal_iff. split.
        -- intros H. split; [reflexivity|]. exists c_dash, (c2 :: r). split; [reflexivity|].
           intros _. split; [reflexivity|exact H].
        -- intros (_ & c & r' & E & H). injection E as <- <-. apply H. discriminate.
      * split; [discriminate|]. intros (_ & c & r' & E & H). injection E as <- <-.
        destruct H; [discriminate|]. congruence.
Qed.

Lemma check_style_iff : forall style f o,
  check_style style f o = Val true <-> valid_flag style o f.
Proof.
  intros style f o. unfold valid_flag. destruct style; simpl.
  - rewrite check_standard_iff. change c_dash with "-"%char.
    split; intros (W & c & r & E & H); (split; [exact W|]; exists c, r; split; [exact E|]);
      intros Nr; destruct (H Nr); auto.
  - rewrite check_prefix_iff. change c_slash with "/"%char.
    split; intros (W & c & r & E & H); (split; [exact W|]; exists c, r; split; [exact E|]);
      intros Nr.
    + split; [discriminate|]. exact (H Nr).
    + exact (proj2 (H Nr)).
  - rewrite check_prefix_iff. change c_dash with "-"%char.
    split; intros (W & c & r & E & H); (split; [exact W|]; exists c, r; split; [exact E|]);
      intros Nr.
    + split; [discriminate|]. exact (H Nr).
    + exact (proj2 (H Nr)).
Qed.

Lemma check_flags_iff : forall style o flags,
  (exists u, check_flags style o flags = Val u) <->
  (forall f, In f flags -> valid_flag style o f).
Proof.
  induction flags as [|f flags IH]; simpl.
  - split; [intros _ f []|]. intros _. exists tt. reflexivity.
  - fold (check_style style f o). destruct (check_style style f o) as [[|]|e] eqn:E.
    + apply check_style_iff in E. rewrite IH. split.
      * intros H g [<-|Hg]; auto.
      * intros H g Hg. apply H. right. exact Hg.
    + split; [intros (u & X); discriminate|]. intros H.
      assert (V : valid_flag style o f) by (apply H; left; reflexivity).
      apply check_style_iff in V. congruence.
    + split; [intros (u & X); discriminate|]. intros H.
      assert (V : valid_flag style o f) by (apply H; left; reflexivity).
      apply check_style_iff in V. congruence.
Qed.

Lemma validate_iff_proof : forall o style,
  (exists o', validate_and_update o style = Val o') <-> valid_option style o.
Proof.
  intros o style. unfold validate_and_update, valid_option. rewrite <- check_flags_iff.
  destruct (is_empty (o_flags o)) eqn:F.
  { split; [intros (x & X); discriminate|]. apply is_empty_true in F. tauto. }
  apply is_empty_false in F.
  destruct (check_flags style o (o_flags o)) as [u|e] eqn:C.
  2:{ split; [intros (x & X); discriminate|]. intros (_ & (u & X) & _). discriminate. }
  assert (Cu : exists u, check_flags style o (o_flags o) = Val u) by eauto.
  destruct (o_argument o) as [|xa la], (o_constant o) as [|xc lc], (o_operation o),
    (o_alias o) as [|xl ll], (o_optional o); cbn [is_empty negb andb orb]; split;
    intros HH;
    first
      [ solve [destruct HH as (x & X); discriminate X]
      | solve [eexists; reflexivity]
      | solve [repeat split;
               solve [exact F|eexists; reflexivity|left; discriminate|right; discriminate|
                      left; reflexivity|right; reflexivity|reflexivity]]
      | solve [exfalso; destruct HH as (_ & _ & Y & Z);
               solve [destruct Y; discriminate|discriminate Z|
                      destruct Z as [Z|Z]; congruence|destruct Z; congruence]] ].
Qed.

Lemma validate_result_proof : forall o style o',
  validate_and_update o style = Val o' ->
  same_but_constant o o' /\
  o_constant o' =
    match o_operation o with
    | OP_ASSIGN => if is_empty (o_argument o) && is_empty (o_constant o)
                   then $"1" else o_constant o
    | OP_CLEAR => if is_empty (o_argument o) && is_empty (o_constant o)
                  then [] else $"1"
    | _ => o_constant o
    end.
Proof.
  intros o style o' H. unfold validate_and_update in H.
  destruct (is_empty (o_flags o)); [discriminate|].
  destruct (check_flags style o (o_flags o)); [|discriminate].
  unfold same_but_constant.
  destruct o as [fl he se al ar co iv cb op ty vi opt ai vid]; simpl in *.
  destruct ar as [|xa la], co as [|xc lc], op, al as [|xl ll], opt; simpl in *;
    try discriminate; injection H as <-; simpl; repeat split; reflexivity.
Qed.

Lemma validate_value_proof : forall o style o',
  validate_and_update o style = Val o' ->
  o_operation o = OP_ASSIGN \/ o_operation o = OP_APPEND ->
  (o_argument o' = [] /\ o_constant o' <> []) \/ (o_argument o' <> [] /\ o_constant o' = []).
Proof.
  intros o style o' H Op.
  assert (V : valid_option style o) by (apply validate_iff_proof; eauto).
  apply validate_result_proof in H. destruct H as (S & E).
  destruct S as (_ & _ & _ & _ & -> & _). rewrite E. clear E.
  destruct V as (_ & _ & X & Y).
  destruct (o_argument o), (o_constant o); destruct Op as [Op|Op]; rewrite Op in *; simpl;
    intuition congruence.
Qed.

Lemma validate_all_iff : forall style opts,
  (exists opts', validate_all style opts = Val opts') <->
  (forall o, In o opts -> valid_option style o).
Proof.
  induction opts as [|o opts IH]; simpl.
  - split; [intros _ o []|]. intros _. eexists. reflexivity.
  - destruct (validate_and_update o style) as [o'|e] eqn:E.
    + assert (V : valid_option style o) by (apply validate_iff_proof; eauto).
      destruct (validate_all style opts) as [r|e] eqn:R.
      * split; [|intros _; eexists; reflexivity].
        intros _ x [<-|Hx]; [exact V|]. apply IH; eauto.
      * split; [intros (x & X); discriminate|]. intros H.
        destruct (proj2 IH) as (y & Y); [|discriminate].
        intros x Hx. apply H. right. exact Hx.
    + split; [intros (x & X); discriminate|]. intros H.
      destruct (proj2 (validate_iff_proof o style)) as (y & Y); [|congruence].
      apply H. left. reflexivity.
Qed.

Lemma validate_all_forall2 : forall style opts opts',
  validate_all style opts = Val opts' ->
  Forall2 (fun o o' => validate_and_update o style = Val o') opts opts'.
Proof.
  induction opts as [|o opts IH]; intros opts' H; simpl in H.
  - inversion H. constructor.
  - destruct (validate_and_update o style) as [o'|] eqn:E; [|discriminate].
    destruct (validate_all style opts) as [r|]; [|discriminate].
    inversion H; subst. constructor; auto.
Qed.

Lemma validate_all_flags : forall style opts opts',
  validate_all style opts = Val opts' -> all_flags opts' = all_flags opts.
Proof.
  intros style opts opts' H. apply validate_all_forall2 in H.
  induction H as [|o o' l l' E F IH]; simpl; [reflexivity|].
  rewrite IH. f_equal. apply validate_result_proof in E. apply (proj1 E).
Qed.

(** ** C15 *)

Lemma add_argument_inv : forall c a c', add_argument c a = Val c' ->
  exists a' s, a = Some a' /\ c_commands c = [] /\ a_name a' <> [] /\
    c_arguments c' = c_arguments c ++ [set_a_section a' s] /\
    c_options c' = c_options c /\ c_commands c' = c_commands c.
Proof.
  intros c [a|] c' H; simpl in H; [|discriminate].
  destruct (is_empty (c_commands c)) eqn:E; simpl in H; [|discriminate].
  destruct (is_empty (a_name a)) eqn:N; [discriminate|].
  apply is_empty_true in E. apply is_empty_false in N. inversion H; subst; simpl.
  exists a. destruct (is_empty (a_section a)).
  - exists (c_current_section c). repeat split; auto.
  - exists (a_section a). repeat split; auto. destruct a; reflexivity.
Qed.

Lemma add_option_inv : forall c o c', add_option c o = Val c' ->
  exists o' s, o = Some o' /\ o_flags o' <> [] /\
    c_options c' = c_options c ++ [set_o_section o' s] /\
    c_arguments c' = c_arguments c /\ c_commands c' = c_commands c.
Proof.
  intros c [o|] c' H; simpl in H; [|discriminate].
  destruct (is_empty (o_flags o)) eqn:N; [discriminate|].
  apply is_empty_false in N. inversion H; subst; simpl.
  exists o. destruct (is_empty (o_section o)).
  - exists (c_current_section c). repeat split; auto.
  - exists (o_section o). repeat split; auto. destruct o; reflexivity.
Qed.

Lemma add_command_inv : forall c d c', add_command c d = Val c' ->
  exists d' s, d = Some d' /\ c_arguments c = [] /\ c_name d' <> [] /\
    c_commands c' = c_commands c ++ [set_c_section d' s] /\
    c_options c' = c_options c /\ c_arguments c' = c_arguments c.
Proof.
  intros c [d|] c' H; simpl in H; [|discriminate].
  destruct (is_empty (c_arguments c)) eqn:E; simpl in H; [|discriminate].
  destruct (is_empty (c_name d)) eqn:N; [discriminate|].
  apply is_empty_true in E. apply is_empty_false in N. inversion H; subst; simpl.
  exists d. destruct (is_empty (c_section d)).
  - exists (c_current_section c). repeat split; auto.
  - exists (c_section d). repeat split; auto. destruct d; reflexivity.
Qed.

Lemma within_trans : forall a b c, within a b -> within b c -> within a c.
Proof.
  intros a b c H1 H2. induction H2 as [|c d H IH Hi]; [exact H1|].
  eapply within_sub; eassumption.
Qed.

(** The other way round: from the top. *)
Lemma within_inv : forall top c, within top c ->
  c = top \/ exists d, In d (c_commands top) /\ within d c.
Proof.
  intros top c H. induction H as [|c d H IH Hi]; [left; reflexivity|].
  right. destruct IH as [->|(e & He & W)].
  - exists d. split; [exact Hi|constructor].
  - exists e. split; [exact He|]. eapply within_sub; eassumption.
Qed.

Lemma well_formed_ext : forall c c', c_arguments c' = c_arguments c ->
  c_options c' = c_options c -> c_commands c' = c_commands c ->
  well_formed c -> well_formed c'.
Proof. unfold well_formed. intros c c' -> -> ->. auto. Qed.

Lemma within_ext : forall c c' d, c_arguments c' = c_arguments c ->
  c_options c' = c_options c -> c_commands c' = c_commands c ->
  within c' d -> d = c' \/ within c d.
Proof.
  intros c c' d _ _ E H. apply within_inv in H. destruct H as [|(e & He & W)]; [auto|].
  right. rewrite E in He. eapply within_trans; [|exact W].
  eapply within_sub; [constructor|exact He].
Qed.

Lemma built_well_formed_proof : forall c, built c ->
  forall d, within c d -> well_formed d.
Proof.
  intros c H. induction H as [name|c c' H IH E1 E2 E3|c a c' H IH E|c o c' H IH E|c d c' H IH H2 IH2 E];
    intros x Hx.
  - apply within_inv in Hx. destruct Hx as [->|(e & [] & _)].
    unfold well_formed. simpl. intuition.
  - destruct (within_ext c c' x E1 E2 E3 Hx) as [->|Hx']; [|auto].
    apply (well_formed_ext c c'); auto. apply IH. constructor.
  - apply add_argument_inv in E. destruct E as (a' & s & -> & Ec & Na & Ea & Eo & Ecc).
    apply within_inv in Hx. destruct Hx as [->|(e & He & W)].
    + destruct (IH c (within_top c)) as (_ & W1 & W2 & W3).
      unfold well_formed. rewrite Ea, Eo, Ecc. repeat split; auto.
      intros y Hy. apply in_app_or in Hy. destruct Hy as [Hy|[<-|[]]]; auto.
    + rewrite Ecc in He. apply IH. eapply within_trans; [|exact W].
      eapply within_sub; [constructor|exact He].
  - apply add_option_inv in E. destruct E as (o' & s & -> & No & Eo & Ea & Ecc).
    apply within_inv in Hx. destruct Hx as [->|(e & He & W)].
    + destruct (IH c (within_top c)) as (W0 & W1 & W2 & W3).
      unfold well_formed. rewrite Ea, Eo, Ecc. repeat split; auto.
      intros y Hy. apply in_app_or in Hy. destruct Hy as [Hy|[<-|[]]]; auto.
    + rewrite Ecc in He. apply IH. eapply within_trans; [|exact W].
      eapply within_sub; [constructor|exact He].
  - apply add_command_inv in E. destruct E as (d' & s & Ed & Ea & Nd & Ec & Eo & Eaa).
    injection Ed as <-. apply within_inv in Hx. destruct Hx as [->|(e & He & W)].
    + destruct (IH c (within_top c)) as (W0 & W1 & W2 & W3).
      unfold well_formed. rewrite Eaa, Eo, Ec, Ea.
      split; [auto|]. split; [intros a []|]. split; [auto|].
      intros y Hy. apply in_app_or in Hy. destruct Hy as [Hy|[<-|[]]]; auto.
    + rewrite Ec in He. apply in_app_or in He. destruct He as [He|[<-|[]]].
      * apply IH. eapply within_trans; [|exact W]. eapply within_sub; [constructor|exact He].
      * destruct (within_ext d (set_c_section d s) x eq_refl eq_refl eq_refl W) as [->|W'];
          [|auto].
        apply (well_formed_ext d); try reflexivity. apply IH2. constructor.
Qed.

(** Accepted items are added at the end, the others are untouched. *)
Lemma add_argument_effect : forall c a c', add_argument c (Some a) = Val c' ->
  map a_name (c_arguments c') = map a_name (c_arguments c) ++ [a_name a] /\
  c_options c' = c_options c /\ c_commands c' = c_commands c.
Proof.
  intros c a c' H. apply add_argument_inv in H.
  destruct H as (a' & s & E & _ & _ & -> & -> & ->). injection E as <-.
  rewrite map_app. auto.
Qed.

(** ** C16 *)

Lemma has_flag_iff : forall opts f ci,
  has_flag opts f ci = true <-> In (folded ci f) (map (folded ci) (all_flags opts)).
Proof.
  intros opts f ci. unfold has_flag. rewrite existsb_exists. rewrite in_map_iff. split.
  - intros (o & Ho & H). apply existsb_exists in H. destruct H as (g & Hg & E).
    rewrite are_equal_norm in E. apply str_eqb_eq in E.
    exists g. split; [exact E|]. apply in_flat_map. exists o. auto.
  - intros (g & E & Hg). apply in_flat_map in Hg. destruct Hg as (o & Ho & Hg).
    exists o. split; [exact Ho|]. apply existsb_exists. exists g. split; [exact Hg|].
    rewrite are_equal_norm. apply str_eqb_eq. exact E.
Qed.

Lemma has_flag_free : forall opts f ci,
  has_flag opts f ci = false <-> free_flag ci opts f.
Proof.
  intros opts f ci. unfold free_flag. rewrite <- has_flag_iff.
  destruct (has_flag opts f ci); split; congruence.
Qed.

Definition pick_all (p : str -> bool) (a b : str) : list str :=
  (if negb (p a) then [a] else []) ++ (if negb (p b) then [b] else []).
Definition pick_one (p : str -> bool) (a b : str) : list str :=
  if negb (p a) then [a] else if negb (p b) then [b] else [].

Lemma pick_all_spec : forall p a b f,
  In f (pick_all p a b) <-> (f = a \/ f = b) /\ p f = false.
Proof.
  intros p a b f. unfold pick_all. destruct (p a) eqn:A, (p b) eqn:B; simpl; split; intros H;
    intuition (subst; congruence || auto).
Qed.

Lemma pick_one_spec : forall p a b f,
  In f (pick_one p a b) -> (f = a \/ f = b) /\ p f = false.
Proof.
  intros p a b f. unfold pick_one. destruct (p a) eqn:A, (p b) eqn:B; simpl; intros H;
    intuition (subst; congruence || auto).
Qed.

Lemma pick_one_nil : forall p a b,
  pick_one p a b = [] <-> p a = true /\ p b = true.
Proof.
  intros p a b. unfold pick_one. destruct (p a) eqn:A, (p b) eqn:B; simpl; split; intros H;
    try discriminate; intuition congruence.
Qed.

Lemma pick_all_nil : forall p a b,
  pick_all p a b = [] <-> p a = true /\ p b = true.
Proof.
  intros p a b. unfold pick_all. destruct (p a) eqn:A, (p b) eqn:B; simpl; split; intros H;
    try discriminate; intuition congruence.
Qed.

Lemma help_flags_pick : forall opts st,
  help_flags opts st =
  let p f := has_flag opts f (s_case_insensitive st) in
  match s_style st with
  | STANDARD => pick_all p ($"-h") ($"--help")
  | SLASH => pick_one p ($"/?") ($"/?")
  | DASH => pick_one p ($"-h") ($"-help")
  end.
Proof.
  intros opts st. unfold help_flags, pick_all, pick_one. cbv zeta.
  destruct (s_style st); try reflexivity.
  destruct (has_flag opts ($"/?") (s_case_insensitive st)); reflexivity.
Qed.

Lemma help_flags_proof : forall opts st f,
  In f (help_flags opts st) ->
  In f (default_help_flags (s_style st)) /\ free_flag (s_case_insensitive st) opts f.
Proof.
  intros opts st f H. rewrite help_flags_pick in H. cbv zeta in H.
  rewrite <- has_flag_free. unfold default_help_flags.
  destruct (s_style st);
    first [apply pick_all_spec in H|apply pick_one_spec in H];
    destruct H as ([-> | ->] & H); (split; [|exact H]);
    first [left; reflexivity|right; left; reflexivity].
Qed.

Lemma help_flags_empty : forall opts st,
  help_flags opts st = [] <->
  (forall f, In f (default_help_flags (s_style st)) ->
     ~ free_flag (s_case_insensitive st) opts f).
Proof.
  intros opts st. rewrite help_flags_pick. cbv zeta.
  assert (X : forall f, ~ free_flag (s_case_insensitive st) opts f <->
                        has_flag opts f (s_case_insensitive st) = true).
  { intros f. rewrite <- has_flag_free.
    destruct (has_flag opts f (s_case_insensitive st)); split; congruence. }
  unfold default_help_flags.
  destruct (s_style st); rewrite ?pick_all_nil, ?pick_one_nil, <- !X; split.
  - intros (A & B) f [<-|[<-|[]]]; assumption.
  - intros H. split; apply H; [left|right; left]; reflexivity.
  - intros (A & B) f [<-|[]]; assumption.
  - intros H. split; apply H; left; reflexivity.
  - intros (A & B) f [<-|[<-|[]]]; assumption.
  - intros H. split; apply H; [left|right; left]; reflexivity.
Qed.

Lemma help_flags_nodup : forall opts st,
  NoDup (map (folded (s_case_insensitive st)) (help_flags opts st)).
Proof.
  intros opts st. rewrite help_flags_pick. cbv zeta. unfold pick_all, pick_one.
  destruct (s_style st);
  repeat match goal with |- context [negb ?x] => destruct (negb x) end;
  destruct (s_case_insensitive st); vm_compute;
  repeat (constructor; [simpl; intuition discriminate|]); constructor.
Qed.

Lemma has_help_iff : forall opts, has_help_option opts = true <->
  exists o, In o opts /\ o_type o = OT_HELP.
Proof.
  intros. unfold has_help_option. rewrite existsb_exists.
  split; intros (o & Ho & E); exists o; (split; [exact Ho|]);
    destruct (o_type o); simpl in *; congruence.
Qed.

Lemma add_help_cases : forall opts sec st,
  (add_help_option opts sec st = opts /\
   (s_generate_help st = false \/ (exists o, In o opts /\ o_type o = OT_HELP) \/
    forall f, In f (default_help_flags (s_style st)) ->
      ~ free_flag (s_case_insensitive st) opts f)) \/
  (exists o, add_help_option opts sec st = opts ++ [o] /\ o_type o = OT_HELP /\
    o_flags o <> [] /\ o_flags o = help_flags opts st /\
    o_operation o = OP_ASSIGN /\ o_argument o = [] /\ o_constant o = $"1" /\
    o_optional o = true /\
    s_generate_help st = true /\ ~ (exists o, In o opts /\ o_type o = OT_HELP)).
Proof.
  intros opts sec st. unfold add_help_option.
  destruct (s_generate_help st); simpl; [|left; auto].
  destruct (has_help_option opts) eqn:H.
  { left. split; [reflexivity|]. right. left. apply has_help_iff. exact H. }
  destruct (is_empty (help_flags opts st)) eqn:E.
  { left. split; [reflexivity|]. right. right. apply help_flags_empty.
    apply is_empty_true. exact E. }
  right. eexists. split; [reflexivity|]. simpl. apply is_empty_false in E.
  repeat split; auto. rewrite <- has_help_iff. congruence.
Qed.

Lemma help_added_proof : forall opts sec st,
  (exists o, add_help_option opts sec st = opts ++ [o] /\ o_type o = OT_HELP) <->
  s_generate_help st = true /\ ~ (exists o, In o opts /\ o_type o = OT_HELP) /\
  exists f, In f (default_help_flags (s_style st)) /\
            free_flag (s_case_insensitive st) opts f.
Proof.
  intros opts sec st.
  destruct (add_help_cases opts sec st)
    as [(E & C)|(o & E & T & N & F & _ & _ & _ & _ & G & NH)]; rewrite E; split.
  - intros (o & X & _). exfalso. rewrite <- (app_nil_r opts) in X at 1.
    apply app_inv_head in X. discriminate.
  - intros (G & NH & f & Hf & Fr). exfalso. destruct C as [C|[C|C]].
    + congruence.
    + contradiction.
    + apply (C f Hf Fr).
  - intros _. split; [exact G|]. split; [exact NH|].
    destruct (o_flags o) as [|f fl] eqn:Ef; [congruence|].
    exists f. apply help_flags_proof. rewrite <- F. left. reflexivity.
  - intros _. exists o. auto.
Qed.

Lemma help_flags_free_proof : forall opts sec st o f,
  add_help_option opts sec st = opts ++ [o] -> In f (o_flags o) ->
  In f (default_help_flags (s_style st)) /\ free_flag (s_case_insensitive st) opts f.
Proof.
  intros opts sec st o f E Hf.
  destruct (add_help_cases opts sec st) as [(E' & _)|(o' & E' & T & N & F & _)];
    rewrite E' in E.
  - exfalso. rewrite <- (app_nil_r opts) in E at 1. apply app_inv_head in E. discriminate.
  - apply app_inv_head in E. inversion E; subst o'. apply help_flags_proof.
    rewrite <- F. exact Hf.
Qed.

Lemma NoDup_app_intro : forall {A} (l1 l2 : list A), NoDup l1 -> NoDup l2 ->
  (forall x, In x l1 -> ~ In x l2) -> NoDup (l1 ++ l2).
Proof.
  induction l1 as [|a l1 IH]; intros l2 H1 H2 D; simpl; [exact H2|].
  inversion H1; subst. constructor.
  - intros X. apply in_app_or in X. destruct X as [X|X]; [contradiction|].
    apply (D a); [left; reflexivity|exact X].
  - apply IH; auto. intros x Hx. apply D. right. exact Hx.
Qed.

Lemma NoDup_app_left : forall {A} (l1 l2 : list A), NoDup (l1 ++ l2) -> NoDup l1.
Proof.
  induction l1 as [|a l1 IH]; intros l2 H; [constructor|]. simpl in H. inversion H; subst.
  constructor.
  - intros X. apply H2. apply in_or_app. auto.
  - eapply IH. eassumption.
Qed.

Lemma all_flags_app : forall l1 l2, all_flags (l1 ++ l2) = all_flags l1 ++ all_flags l2.
Proof. intros. apply flat_map_app. Qed.

Lemma help_no_conflict_proof : forall opts sec st,
  NoDup (map (folded (s_case_insensitive st)) (all_flags (add_help_option opts sec st))) <->
  NoDup (map (folded (s_case_insensitive st)) (all_flags opts)).
Proof.
  intros opts sec st.
  destruct (add_help_cases opts sec st) as [(E & _)|(o & E & T & N & F & _)];
    rewrite E; [reflexivity|].
  rewrite all_flags_app, map_app. simpl. rewrite app_nil_r, F. split.
  - apply NoDup_app_left.
  - intros H. apply NoDup_app_intro; [exact H|apply help_flags_nodup|].
    intros x Hx Hh. apply in_map_iff in Hh. destruct Hh as (f & <- & Hf).
    apply help_flags_proof in Hf. destruct Hf as (_ & Fr). apply Fr. exact Hx.
Qed.

(** All default flags have safe bytes. *)
Definition safeb (s : str) : bool := forallb safe_byte s.
Lemma safeb_safe : forall s, safeb s = true -> safe s.
Proof. intros s H c Hc. unfold safeb in H. rewrite forallb_forall in H. auto. Qed.

Lemma help_safe : forall opts sec st, safe_flags (s_case_insensitive st) opts ->
  safe_flags (s_case_insensitive st) (add_help_option opts sec st).
Proof.
  intros opts sec st S C f Hf.
  destruct (add_help_cases opts sec st) as [(E & _)|(o & E & T & N & F & _)];
    rewrite E in Hf; [apply S; auto|].
  rewrite all_flags_app in Hf. apply in_app_or in Hf. destruct Hf as [Hf|Hf].
  - apply S; auto.
  - simpl in Hf. rewrite app_nil_r, F in Hf. apply help_flags_proof in Hf.
    destruct Hf as (Hd & _). apply safeb_safe.
    destruct (s_style st); simpl in Hd; intuition subst; reflexivity.
Qed.

Lemma version_cases : forall opts sec name version st,
  add_version_option opts sec name version st = opts \/
  exists o, add_version_option opts sec name version st = opts ++ [o] /\
    o_flags o = [version_flag (s_style st)] /\
    free_flag (s_case_insensitive st) opts (version_flag (s_style st)) /\
    o_argument o = [] /\ o_constant o = $"1" /\ o_operation o = OP_ASSIGN /\
    o_type o = OT_STOP /\ o_optional o = true.
Proof.
  intros. unfold add_version_option. destruct (is_empty version); [auto|].
  destruct (has_flag opts (version_flag (s_style st)) (s_case_insensitive st)) eqn:E; [auto|].
  right. eexists. split; [reflexivity|]. simpl. apply has_flag_free in E.
  repeat split; auto.
Qed.

Lemma version_no_conflict : forall opts sec name version st,
  NoDup (map (folded (s_case_insensitive st))
           (all_flags (add_version_option opts sec name version st))) <->
  NoDup (map (folded (s_case_insensitive st)) (all_flags opts)).
Proof.
  intros opts sec name version st.
  destruct (version_cases opts sec name version st) as [E|(o & E & F & Fr & _)];
    rewrite E; [reflexivity|].
  rewrite all_flags_app, map_app. simpl. rewrite app_nil_r, F. split.
  - apply NoDup_app_left.
  - intros H. apply NoDup_app_intro; [exact H| |].
    + simpl. repeat constructor. intros [].
    + intros x Hx [<-|[]]. apply Fr. exact Hx.
Qed.

Lemma version_safe : forall opts sec name version st,
  safe_flags (s_case_insensitive st) opts ->
  safe_flags (s_case_insensitive st) (add_version_option opts sec name version st).
Proof.
  intros opts sec name version st S C f Hf.
  destruct (version_cases opts sec name version st) as [E|(o & E & F & _)];
    rewrite E in Hf; [apply S; auto|].
  rewrite all_flags_app in Hf. apply in_app_or in Hf. destruct Hf as [Hf|Hf].
  - apply S; auto.
  - simpl in Hf. rewrite app_nil_r, F in Hf. destruct Hf as [<-|[]].
    apply safeb_safe. destruct (s_style st); reflexivity.
Qed.

Lemma version_valid : forall opts sec name version st,
  (forall o, In o (add_version_option opts sec name version st) ->
     valid_option (s_style st) o) <->
  (forall o, In o opts -> valid_option (s_style st) o).
Proof.
  intros opts sec name version st.
  destruct (version_cases opts sec name version st)
    as [E|(o & E & F & _ & A & K & Op & _)]; rewrite E; [reflexivity|].
  split.
  - intros H x Hx. apply H. apply in_or_app. auto.
  - intros H x Hx. apply in_app_or in Hx. destruct Hx as [Hx|[<-|[]]]; [auto|].
    unfold valid_option. rewrite F, A, K, Op. split; [discriminate|]. split; [|auto].
    intros f [<-|[]]. apply check_style_iff.
    destruct (s_style st); reflexivity.
Qed.

Lemma help_valid_proof : forall opts sec st o,
  add_help_option opts sec st = opts ++ [o] -> valid_option (s_style st) o.
Proof.
  intros opts sec st o E.
  destruct (add_help_cases opts sec st)
    as [(E' & _)|(o' & E' & T & N & F & Op & A & K & Opt & _)]; rewrite E' in E.
  - exfalso. rewrite <- (app_nil_r opts) in E at 1. apply app_inv_head in E. discriminate.
  - apply app_inv_head in E. inversion E; subst o'.
    unfold valid_option. rewrite A, Op. split; [exact N|]. split; [|auto].
    intros f Hf. rewrite F in Hf. apply help_flags_proof in Hf. destruct Hf as (Hd & _).
    apply check_style_iff.
    destruct (s_style st); simpl in Hd; intuition subst; reflexivity.
Qed.

Lemma help_not_added_proof : forall opts sec st,
  add_help_option opts sec st = opts \/
  exists o, add_help_option opts sec st = opts ++ [o] /\ o_type o = OT_HELP.
Proof.
  intros opts sec st.
  destruct (add_help_cases opts sec st) as [(E & _)|(o & E & T & _)]; eauto.
Qed.

Lemma help_standard_flags_proof : forall opts sec st o f,
  s_style st = STANDARD -> add_help_option opts sec st = opts ++ [o] ->
  (In f (o_flags o) <->
   In f (default_help_flags STANDARD) /\ free_flag (s_case_insensitive st) opts f).
Proof.
  intros opts sec st o f St E.
  destruct (add_help_cases opts sec st) as [(E' & _)|(o' & E' & T & N & F & _)];
    rewrite E' in E.
  - exfalso. rewrite <- (app_nil_r opts) in E at 1. apply app_inv_head in E. discriminate.
  - apply app_inv_head in E. inversion E; subst o'. rewrite F, help_flags_pick.
    cbv zeta. rewrite St, pick_all_spec, has_flag_free. unfold default_help_flags.
    split; intros (A & B); (split; [|exact B]).
    + destruct A as [->| ->]; [left|right; left]; reflexivity.
    + destruct A as [<-|[<-|[]]]; auto.
Qed.
