(** Proofs about case_insensitive(true) (C91). *)
From Coq Require Import Permutation.
From Verif Require Import Base BaseProofs MStrings MOptIter MData MCounter MValues MParser
  SStrings SIndex SDef SValues SCounter SParser SStep SLook SEquiv SApi SLine SOrder SAdd SCase
  FinishProofs LineProofs LineProofs2 LineProofs3 OrderProofs AddProofs.
Open Scope nat_scope.

(** ** Completion *)

Lemma has_flag_case : forall opts g b, (forall f, In f (all_flags opts) -> folded true f = folded true g -> f = g) ->
  has_flag opts g true = has_flag opts g b.
Proof.
  intros opts g b. unfold has_flag, all_flags. induction opts as [|o opts IH]; intros H; [reflexivity|]. cbn [existsb flat_map] in *.
  rewrite IH by (intros f I; apply H; apply in_or_app; right; exact I). f_equal.
  assert (H' : forall f, In f (o_flags o) -> folded true f = folded true g -> f = g) by (intros f I; apply H; apply in_or_app; left; exact I).
  clear - H'. induction (o_flags o) as [|f l IH]; [reflexivity|]. cbn [existsb]. rewrite IH by (intros x I; apply H'; right; exact I). f_equal.
  destruct b; [reflexivity|]. unfold are_equal. rewrite StrProofs.are_equal_ci_spec. specialize (H' f (or_introl eq_refl)). unfold folded in H'.
  destruct (str_eqb_spec (SStrings.lower f) (SStrings.lower g)) as [E|E]; destruct (str_eqb_spec f g) as [Q|Q]; try reflexivity.
  - destruct (Q (H' E)).
  - subst g. destruct (E eq_refl).
Qed.

Lemma help_option_case : forall opts sec st, (forall f g, In f (all_flags opts) -> In g generated_flags -> folded true f = folded true g -> f = g) ->
  add_help_option opts sec (any_case st) = add_help_option opts sec st.
Proof.
  intros opts sec st H. unfold add_help_option. cbn [s_generate_help any_case].
  assert (E : help_flags opts (any_case st) = help_flags opts st).
  { unfold help_flags. cbn [s_case_insensitive s_style any_case].
    assert (X : forall g, In g generated_flags -> has_flag opts g true = has_flag opts g (s_case_insensitive st))
      by (intros g I; apply has_flag_case; intros f If; exact (H f g If I)).
    rewrite !X by (cbn; tauto). reflexivity. }
  rewrite E. reflexivity.
Qed.

Lemma case_finish_command : forall st c full i a c1 c2, (forall x, within c x -> clear_flags x) ->
  finish_command st full i a c = Val c1 -> finish_command (any_case st) full i a c = Val c2 -> same_items c1 c2.
Proof.
  intros st. induction c as [c IH] using cmd_nested_ind. intros full i a c1 c2 Cl. rewrite !finish_command_eq.
  change (s_style (any_case st)) with (s_style st).
  destruct (validate_all (s_style st) (c_options c)) as [opts1|e] eqn:Va; [|discriminate].
  destruct (update_require (c_require c) (c_commands c)) as [rq'|e]; [|discriminate]. cbv zeta.
  rewrite (help_option_case opts1).
  2: { intros f g If. apply (Cl c (within_top _)). rewrite <- (DefProofs.validate_all_flags _ _ _ Va). exact If. }
  destruct (set_internal_ids _ _ _ _) as (((args' & opts') & vid') & aid').
  destruct (build_option_index (s_case_insensitive st) opts') as [index|e]; [|discriminate].
  destruct (build_option_index (s_case_insensitive (any_case st)) opts') as [index'|e]; [|intros _ X; discriminate X].
  destruct (finish_subs st _ _ _ _) as [l1|e] eqn:F1; [|discriminate]. intros E1; injection E1 as <-.
  destruct (finish_subs (any_case st) _ _ _ _) as [l2|e] eqn:F2; [|discriminate]. intros E2; injection E2 as <-.
  constructor; try reflexivity. cbn [c_commands].
  assert (Cl' : forall d, In d (c_commands c) -> forall x, within d x -> clear_flags x).
  { intros d Id x Wx. apply Cl. induction Wx as [|y z _ IW Iz]; [apply within_sub with c; [apply within_top|exact Id]|].
    apply within_sub with y; assumption. }
  rewrite finish_subs_forall2 in F1, F2. clear - IH F1 F2 Cl'. revert l1 l2 F1 F2 Cl'.
  induction IH as [|d l Hd Hl IHl]; intros l1 l2 F1 F2 Cl'; inversion F1; inversion F2; subst; constructor.
  - eapply Hd; try eassumption. apply Cl'. left. reflexivity.
  - apply IHl; try assumption. intros x Ix. apply Cl'. right. exact Ix.
Qed.

Lemma case_finish : forall p q q', finish_parser p = Val q -> finish_parser (any_case_parser p) = Val q' ->
  (forall c, within (d_command p) c -> clear_flags c) -> same_items (d_command q) (d_command q').
Proof.
  intros p q q' E E' Cl. unfold finish_parser in E, E'. cbn [d_command d_settings d_version d_line_width d_word_rules any_case_parser] in E'.
  set (c := d_command p) in *.
  assert (Gen : forall g1 g2, In g1 generated_flags -> In g2 generated_flags -> folded true g1 = folded true g2 -> g1 = g2).
  { intros g1 g2 I1 I2. cbn in I1, I2.
    repeat (destruct I1 as [<-|I1]; [repeat (destruct I2 as [<-|I2]; [intros Q; first [reflexivity|discriminate Q]|]); destruct I2|]). destruct I1. }
  assert (Iv : In (version_flag (s_style (d_settings p))) generated_flags) by (destruct (s_style (d_settings p)); cbn; tauto).
  assert (Ev : add_version_option (c_options c) (c_current_section c) (c_name c) (d_version p) (any_case (d_settings p)) =
    add_version_option (c_options c) (c_current_section c) (c_name c) (d_version p) (d_settings p)).
  { unfold add_version_option. cbn [s_style s_case_insensitive any_case].
    rewrite (has_flag_case _ _ (s_case_insensitive (d_settings p))) by (intros f If; exact (Cl c (within_top _) f _ If Iv)). reflexivity. }
  rewrite Ev in E'. cbv zeta in E, E'. set (opts := add_version_option _ _ _ _ _) in *.
  assert (Fl : forall f, In f (all_flags opts) -> In f (all_flags (c_options c)) \/ In f generated_flags).
  { intros f If. unfold opts, add_version_option in If. destruct (is_empty (d_version p)); [left; exact If|].
    destruct (has_flag _ _ _); [left; exact If|]. unfold all_flags in If. rewrite flat_map_app in If. apply in_app_or in If.
    destruct If as [If|If]; [left; exact If|]. right. cbn in If. destruct If as [<-|[]]. exact Iv. }
  destruct (finish_command (d_settings p) _ _ _ _) as [c1|e] eqn:F1; [|discriminate].
  destruct (finish_command (any_case (d_settings p)) _ _ _ _) as [c2|e] eqn:F2; [|discriminate].
  injection E as <-. injection E' as <-. refine (case_finish_command _ _ _ _ _ _ _ _ F1 F2).
  assert (W : forall x, within (set_c_items c (c_arguments c) opts (c_commands c)) x ->
    x = set_c_items c (c_arguments c) opts (c_commands c) \/ within c x).
  { intros x Wx. induction Wx as [|y z _ IW Iz]; [left; reflexivity|]. right. destruct IW as [->|IW].
    - apply within_sub with c; [apply within_top|]. destruct c. exact Iz.
    - apply within_sub with y; assumption. }
  intros x Wx. destruct (W x Wx) as [->|W']; [|exact (Cl x W')].
  intros f g If Ig Q. replace (c_options (set_c_items c (c_arguments c) opts (c_commands c))) with opts in If by (destruct c; reflexivity).
  destruct (Fl f If) as [I|I]; [exact (Cl c (within_top _) f g I Ig Q)|exact (Gen f g I Ig Q)].
Qed.

Lemma case_settings : forall p q q', finish_parser p = Val q -> finish_parser (any_case_parser p) = Val q' ->
  d_settings q' = any_case (d_settings q).
Proof.
  intros p q q' E E'. unfold finish_parser in E, E'. cbv zeta in E, E'. destruct (finish_command _ _ _ _ _) as [c1|e]; [|discriminate].
  destruct (finish_command (d_settings (any_case_parser p)) _ _ _ _) as [c2|e]; [|discriminate].
  injection E as <-. injection E' as <-. reflexivity.
Qed.

(** ** Command lines *)

Lemma combine_same : forall A (f : A -> N) l x y, In (x, y) (combine (map f l) (map f l)) -> x = y.
Proof. intros A f. induction l as [|a l IH]; intros x y I; [destruct I|]. destruct I as [I|I]; [congruence|exact (IH _ _ I)]. Qed.

Lemma forall2_self : forall A (R : A -> A -> Prop) l, (forall x, R x x) -> Forall2 R l l.
Proof. intros A R l Rf. induction l; constructor; auto. Qed.

Lemma items_extend : forall c c', same_items c c' -> (forall x, within c x -> caseless x) -> extends true c c'.
Proof.
  induction c as [c IH] using cmd_nested_ind. intros c' X Ok. inversion X as [? ? En Er Ea Eo Es]; subst.
  destruct (Ok c (within_top _)) as (S1 & S2 & _).
  apply extended with (opts := c_options c') (extra := []).
  - assert (P : forall v v', In (v, v') (value_pairs c c' (c_options c')) -> v = v').
    { intros v v' I. unfold value_pairs in I. rewrite Ea, Eo in I. apply in_app_or in I.
      destruct I as [I|I]; exact (combine_same _ _ _ _ _ I). }
    unfold extended_by. rewrite <- !Eo, <- Ea. split; [exact En|]. split; [exact Er|].
    split; [apply forall2_self; split; reflexivity|]. split; [apply forall2_self; repeat split|].
    split; [rewrite app_nil_r; apply Permutation_refl|]. split; [intros o []|].
    rewrite <- Eo in P.
    split; [intros v1 v1' v2 v2' I1 I2; apply P in I1; apply P in I2; subst; tauto|].
    split; [intros v v' I; apply P in I; subst; reflexivity|]. split; [exact S2|exact S1].
  - assert (Sub : forall d x, In d (c_commands c) -> within d x -> within c x).
    { intros d x Id Wx. induction Wx as [|y z _ IW Iz]; [apply within_sub with c; [apply within_top|exact Id]|].
      apply within_sub with y; assumption. }
    assert (Ok' : forall d, In d (c_commands c) -> forall x, within d x -> caseless x) by (intros d Id x Wx; apply Ok; exact (Sub d x Id Wx)).
    clear - IH Es Ok'. revert IH Ok'. induction Es as [|d d' l l' R F IHl]; intros IH Ok'; [constructor|].
    inversion IH as [|? ? H1 H2]; subst. constructor.
    + apply H1; [exact R|]. apply Ok'. left. reflexivity.
    + apply IHl; [exact H2|]. intros x Ix. apply Ok'. right. exact Ix.
Qed.

Lemma case_success : forall p q q' args ws subs e left,
  let cfg := d_settings q in let top := d_command q in
  finish_parser p = Val q -> finish_parser (any_case_parser p) = Val q' -> s_case_insensitive cfg = false ->
  regular cfg top -> regular (d_settings q') (d_command q') -> same_items top (d_command q') -> (forall c, within top c -> caseless c) ->
  reading (with_abbreviations false cfg) false top (Fresh args) ws subs e -> left_of e = Some left ->
  all_foreseen (with_abbreviations true cfg) ((top, ws) :: subs) ->
  (forall hs left0, succeeds cfg top args hs left0 ->
     exists hs', succeeds (d_settings q') (d_command q') args hs' left0 /\ Forall2 like_values hs hs') /\
  ((exists hs' left0, succeeds (d_settings q') (d_command q') args hs' left0) ->
     exists hs left0, succeeds cfg top args hs left0).
Proof.
  intros p q q' args ws subs e left cfg top H H' Cs Rg Rg' Ri Ok. pose proof (case_settings _ _ _ H H') as Es.
  apply (extended_success_more p q (any_case_parser p) q' args ws subs e left H H' Rg Rg').
  - rewrite Es. split; [reflexivity|]. reflexivity.
  - intros c W. rewrite Es. fold cfg. rewrite Cs. exact (proj2 (proj2 (Ok c W))).
  - rewrite Es. exact (items_extend _ _ Ri Ok).
Qed.
