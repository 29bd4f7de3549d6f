(** Proofs about rules for splitting words (C47). *)
From Coq Require Import Sorting.Sorted.
From Verif Require Import Base BaseProofs MStrings MText SStrings SText StrProofs SplitProofs.
Open Scope nat_scope.

Lemma app_same_length : forall (u v w z : str), u ++ w = v ++ z -> length u = length v -> u = v /\ w = z.
Proof.
  induction u as [|i u IH]; intros [|j v] w z E Hl; try discriminate; simpl in *; auto.
  injection E as -> E. destruct (IH v w z) as (-> & ->); auto.
Qed.

(** ** Columns *)

Lemma columns_count : forall s, columns s (count_code_points s).
Proof.
  intros s. unfold columns.
  destruct (count_cp_cases (length s) (S (length s)) 0 s (le_n _))
    as [(cs & F & E)|[(cs & t & F & T & E)|B]].
  - left. assert (U : utf8_text s (length cs)) by (exists cs; auto).
    rewrite (count_text_proof _ _ U). exact U.
  - right. left. exists (concat cs), t, (length cs).
    assert (U : utf8_text (concat cs) (length cs)) by (exists cs; auto).
    split; [exact E|]. split; [exact U|]. split; [exact T|].
    rewrite E. apply count_truncated_proof; assumption.
  - right. right.
    assert (N1 : ~ exists k, utf8_text s k).
    { intros (k & cs & F & -> & ->). pose proof (concat_length_ge cs F) as L.
      rewrite <- (app_nil_r (concat cs)) in B at 2. rewrite count_cp_chars in B by exact F.
      simpl in B. lia. }
    assert (N2 : ~ exists a t k, s = a ++ t /\ utf8_text a k /\ truncated_char t).
    { intros (a & t & k & -> & (cs & F & -> & ->) & T). pose proof (concat_length_ge cs F) as L.
      rewrite count_cp_chars in B by exact F. apply truncated_iff in T.
      destruct T as (c & r & -> & Lr & C). simpl in B. rewrite code_point_length_spec in B.
      destruct (lead_len c) as [|l] eqn:E; [lia|].
      rewrite count_cp_conts_cut in B; [|exact C|lia]. rewrite app_length in B. simpl in B. lia. }
    split; [exact N1|]. split; [exact N2|]. apply count_malformed_proof.
    + intros n H. apply N1. eauto.
    + intros p n t H T E. apply N2. eauto 8.
Qed.

Lemma columns_iff : forall s n, columns s n <-> n = count_code_points s.
Proof.
  intros s n. split; [|intros ->; apply columns_count].
  intros [U|[(a & t & k & -> & U & T & ->)|(N1 & N2 & ->)]].
  - symmetry. apply count_text_proof. exact U.
  - symmetry. apply count_truncated_proof; assumption.
  - symmetry. apply count_malformed_proof.
    + intros m H. apply N1. eauto.
    + intros p m t H T E. apply N2. eauto 8.
Qed.

Lemma fits_iff : forall s h n,
  fits s h n <-> count_code_points s + (match h with Some _ => 1 | None => 0 end) <= n.
Proof.
  intros s h n. unfold fits. split.
  - intros (k & C & L). apply columns_iff in C. subst. exact L.
  - intros L. exists (count_code_points s). split; [apply columns_count|exact L].
Qed.

(** ** Lower case and spaces *)

Lemma to_lower_lower : forall s, to_lower s = lower s.
Proof.
  intros s. apply map_ext. intros c.
  pose proof (all_bytes_1 (fun c => Ascii.eqb (to_lower_char c) (lower_ascii c)) ltac:(vm_compute; reflexivity) c) as H.
  apply Ascii.eqb_eq in H. exact H.
Qed.

Lemma is_lower_lower : forall s, is_lower s = true -> lower s = s.
Proof.
  induction s as [|c s IH]; intros H; [reflexivity|]. simpl in H. apply andb_true_iff in H.
  destruct H as (H1 & H2). simpl. rewrite (IH H2). f_equal.
  pose proof (all_bytes_1 (fun c => negb ((s8 c <? 65) || (90 <? s8 c))%Z || Ascii.eqb (lower_ascii c) c)
    ltac:(vm_compute; reflexivity) c) as X. cbv beta in X. rewrite H1 in X. simpl in X.
  apply Ascii.eqb_eq in X. exact X.
Qed.

Lemma key_lower : forall s, (if is_lower s then s else to_lower s) = lower s.
Proof.
  intros s. destruct (is_lower s) eqn:E; [symmetry; apply is_lower_lower; exact E|apply to_lower_lower].
Qed.

Lemma lower_bytes : forall c, lead_len (lower_ascii c) = lead_len c /\
  is_utf8_continuation (lower_ascii c) = is_utf8_continuation c.
Proof.
  intros c. pose proof (all_bytes_1 (fun c => (lead_len (lower_ascii c) =? lead_len c) &&
    Bool.eqb (is_utf8_continuation (lower_ascii c)) (is_utf8_continuation c)) ltac:(vm_compute; reflexivity) c) as H.
  cbv beta in H. apply andb_true_iff in H. destruct H as (H1 & H2).
  apply Nat.eqb_eq in H1. apply eqb_prop in H2. auto.
Qed.

Lemma lower_app : forall a b, lower (a ++ b) = lower a ++ lower b.
Proof. intros. apply map_app. Qed.

Lemma lower_firstn : forall n s, lower (firstn n s) = firstn n (lower s).
Proof. intros n s. unfold lower. rewrite firstn_map. reflexivity. Qed.

Lemma utf8_char_lower : forall ch, utf8_char ch <-> utf8_char (lower ch).
Proof.
  intros ch. rewrite !utf8_char_iff. split.
  - intros (c & r & -> & L & C). exists (lower_ascii c), (lower r). split; [reflexivity|].
    rewrite lower_length, (proj1 (lower_bytes c)). split; [exact L|].
    intros x Hx. apply in_map_iff in Hx. destruct Hx as (y & <- & Hy). rewrite (proj2 (lower_bytes y)). auto.
  - intros (c & r & E & L & C). destruct ch as [|d q]; [discriminate|]. simpl in E.
    injection E as <- <-. exists d, q. split; [reflexivity|].
    fold (lower q) in *. rewrite (proj1 (lower_bytes d)), lower_length in L. split; [exact L|].
    intros x Hx. rewrite <- (proj2 (lower_bytes x)). apply C. apply in_map. exact Hx.
Qed.

Lemma utf8_lower : forall s n, utf8_text s n <-> utf8_text (lower s) n.
Proof.
  intros s n. split.
  - intros (cs & F & -> & ->). exists (map lower cs). rewrite map_length.
    split; [|split; [unfold lower; rewrite concat_map; reflexivity|reflexivity]].
    apply Forall_map. apply (Forall_impl _ (fun ch => proj1 (utf8_char_lower ch)) F).
  - intros (ds & F & E & ->). revert s E. induction F as [|d ds Hd F IH]; intros s E.
    + destruct s; [|discriminate]. apply utf8_nil.
    + simpl in E. rewrite <- (firstn_skipn (length d) s). change (length (d :: ds)) with (1 + length ds).
      assert (L : length s = length d + length (concat ds)).
      { rewrite <- lower_length, E, app_length. reflexivity. }
      assert (E1 : lower (firstn (length d) s) = d).
      { rewrite lower_firstn, E, firstn_app, firstn_all, Nat.sub_diag. apply app_nil_r. }
      apply utf8_app.
      * exists [firstn (length d) s]. split; [|split; [symmetry; apply app_nil_r|reflexivity]].
        constructor; [|constructor]. apply utf8_char_lower. rewrite E1. exact Hd.
      * apply IH. unfold lower in *. rewrite <- skipn_map, E, skipn_app, skipn_all, Nat.sub_diag. reflexivity.
Qed.

Lemma without_spaces_app : forall a b, without_spaces (a ++ b) = without_spaces a ++ without_spaces b.
Proof. intros. apply filter_app. Qed.

Lemma utf8_char_space : forall ch, utf8_char ch -> ch = [c_space] \/ without_spaces ch = ch.
Proof.
  intros ch H. apply utf8_char_iff in H. destruct H as (c & r & -> & L & C).
  assert (R : without_spaces r = r).
  { clear L. induction r as [|x r IH]; [reflexivity|]. simpl. destruct (Ascii.eqb_spec x c_space) as [->|_].
    - pose proof (C c_space (or_introl eq_refl)) as X. discriminate X.
    - simpl. f_equal. apply IH. intros y Hy. apply C. right. exact Hy. }
  simpl. destruct (Ascii.eqb_spec c c_space) as [->|_].
  - left. change (lead_len c_space) with 1 in L. destruct r; [reflexivity|discriminate].
  - right. simpl. f_equal. exact R.
Qed.

Lemma utf8_without_spaces : forall s n, utf8_text s n -> exists k, utf8_text (without_spaces s) k.
Proof.
  intros s n (cs & F & -> & _). induction F as [|ch cs Hch F (k & IH)]; [exists 0; apply utf8_nil|].
  simpl. rewrite without_spaces_app. destruct (utf8_char_space ch Hch) as [->|E].
  - exists k. exact IH.
  - rewrite E. exists (1 + k). apply utf8_app; [|exact IH]. exists [ch].
    split; [constructor; [exact Hch|constructor]|]. split; [symmetry; apply app_nil_r|reflexivity].
Qed.

(** ** The places where a rule splits a word *)

Definition rule_hyphen (a : str) : option ascii :=
  if match last_char a with Some c => Ascii.eqb c c_dash | None => false end then None else Some c_dash.

(** Positions increase, apart from those around a space at the end. *)
Definition split_lt (rule : str) (x y : split_point) : Prop :=
  sp_index x < sp_index y \/ (last_char rule = Some c_space /\ sp_index x <= sp_index y).

Lemma without_spaces_length : forall s, length (without_spaces s) <= length s.
Proof. induction s as [|c s IH]; simpl; [lia|]. destruct (negb _); simpl; lia. Qed.

Lemma rule_splits_spec : forall s pre l,
  rule_splits (last_char pre) (length pre) (length pre - length (without_spaces pre)) s = Some l ->
  (forall x, In x l -> rule_break (pre ++ s) (sp_index x) (sp_separator x) /\ length (without_spaces pre) <= sp_index x) /\
  (forall a b, pre ++ s = a ++ c_space :: b -> length pre <= length a ->
     In (mk_split (length (without_spaces a)) (rule_hyphen a)) l) /\
  In (mk_split (length (without_spaces (pre ++ s))) None) l /\
  StronglySorted (split_lt (pre ++ s)) l /\
  (last_char pre = Some c_space -> forall b, s <> c_space :: b) /\
  (forall a b, pre ++ s = a ++ c_space :: c_space :: b -> length a < length pre) /\
  (pre = [] -> forall b, s <> c_space :: b).
Proof.
  induction s as [|c s IH]; intros pre l E.
  - cbn [rule_splits] in E. injection E as <-. rewrite app_nil_r.
    pose proof (without_spaces_length pre) as L.
    replace (length pre - (length pre - length (without_spaces pre))) with (length (without_spaces pre)) by lia.
    split; [intros x [<-|[]]; split; [right; auto|apply le_n]|].
    split; [intros a b -> La; rewrite app_length in La; simpl in La; lia|].
    split; [left; reflexivity|]. split; [constructor; [constructor|constructor]|].
    split; [discriminate|]. split; [intros a b ->; rewrite app_length; simpl; lia|discriminate].
  - assert (A : pre ++ c :: s = (pre ++ [c]) ++ s) by (rewrite <- app_assoc; reflexivity).
    assert (Lc : length (pre ++ [c]) = S (length pre)) by (rewrite app_length; simpl; lia).
    pose proof (without_spaces_length pre) as L.
    cbn [rule_splits] in E. destruct (Ascii.eqb_spec c c_space) as [->|Nc].
    + assert (W : without_spaces (pre ++ [c_space]) = without_spaces pre)
        by (rewrite without_spaces_app; apply app_nil_r).
      destruct (last_char pre) as [x|] eqn:Ex; [|discriminate].
      destruct (Ascii.eqb_spec x c_space) as [->|Nx]; [discriminate|].
      destruct (rule_splits _ _ _ s) as [l'|] eqn:El; [|discriminate]. injection E as <-.
      assert (El' : rule_splits (last_char (pre ++ [c_space])) (length (pre ++ [c_space]))
        (length (pre ++ [c_space]) - length (without_spaces (pre ++ [c_space]))) s = Some l').
      { rewrite last_char_app, Lc, W.
        replace (S (length pre) - length (without_spaces pre))
          with (S (length pre - length (without_spaces pre))) by lia. exact El. }
      destruct (IH _ _ El') as (I1 & I2 & I3 & I4 & I5 & I6 & _). rewrite <- A in I1, I2, I3, I4, I6.
      replace (length pre - (length pre - length (without_spaces pre))) with (length (without_spaces pre)) by lia.
      assert (Hh : (if Ascii.eqb x c_dash then None else Some c_dash) = rule_hyphen pre)
        by (unfold rule_hyphen; rewrite Ex; reflexivity).
      rewrite Hh. split; [|split; [|split; [|split; [|split; [|split]]]]].
      * intros y [<-|Hy].
        -- split; [|apply le_n]. left. exists pre, s. auto.
        -- destruct (I1 y Hy) as (J1 & J2). rewrite W in J2. auto.
      * intros a b Eq La. destruct (Nat.eq_dec (length a) (length pre)) as [Ea|Na].
        -- left. destruct (app_same_length _ _ _ _ Eq (eq_sym Ea)) as (<- & Eq'). reflexivity.
        -- right. apply (I2 a b Eq). lia.
      * right. exact I3.
      * constructor; [exact I4|]. apply Forall_forall. intros y Hy. unfold split_lt. cbn [sp_index].
        destruct (I1 y Hy) as (_ & J2). rewrite W in J2.
        destruct s as [|d s'].
        -- right. split; [|exact J2]. apply last_char_app.
        -- assert (Nd : d <> c_space).
           { intros ->. apply (I5 (last_char_app _ _) s'). reflexivity. }
           left. cbn [rule_splits] in El'. destruct (Ascii.eqb_spec d c_space) as [->|_]; [congruence|].
           assert (El2 : rule_splits (last_char ((pre ++ [c_space]) ++ [d])) (length ((pre ++ [c_space]) ++ [d]))
             (length ((pre ++ [c_space]) ++ [d]) - length (without_spaces ((pre ++ [c_space]) ++ [d]))) s' = Some l').
           { rewrite last_char_app, (app_length (pre ++ [c_space])), without_spaces_app, app_length, W.
             replace (without_spaces [d]) with [d]
               by (simpl; destruct (Ascii.eqb_spec d c_space); [congruence|reflexivity]).
             rewrite Lc, W in *. rewrite ?app_length. cbn [length] in *. rewrite !Nat.add_1_r. exact El'. }
           assert (J3 : length (without_spaces ((pre ++ [c_space]) ++ [d])) <= sp_index y).
           { clear - El2 Hy. revert El2. generalize ((pre ++ [c_space]) ++ [d]). clear pre. intros pre El.
             revert pre l' El Hy. induction s' as [|c s IH]; intros pre l' El Hy.
             - cbn [rule_splits] in El. injection El as <-. destruct Hy as [<-|[]]. cbn [sp_index].
               pose proof (without_spaces_length pre). lia.
             - pose proof (without_spaces_length pre). cbn [rule_splits] in El. destruct (Ascii.eqb_spec c c_space) as [->|Nc].
               + destruct (last_char pre); [|discriminate]. destruct (Ascii.eqb a c_space); [discriminate|].
                 destruct (rule_splits _ _ _ s) as [l2|] eqn:E2; [|discriminate]. injection El as <-.
                 destruct Hy as [<-|Hy]; [cbn [sp_index]; lia|].
                 assert (W : without_spaces (pre ++ [c_space]) = without_spaces pre)
                   by (rewrite without_spaces_app; apply app_nil_r).
                 rewrite <- W. apply (IH _ l2); [|exact Hy]. rewrite last_char_app, W, app_length. simpl.
                 rewrite Nat.add_1_r. rewrite Nat.sub_succ_l by lia. exact E2.
               + assert (W : without_spaces (pre ++ [c]) = without_spaces pre ++ [c]).
                 { rewrite without_spaces_app. simpl. destruct (Ascii.eqb_spec c c_space); [congruence|reflexivity]. }
                 assert (J : length (without_spaces (pre ++ [c])) <= sp_index y).
                 { apply (IH _ l'); [|exact Hy]. rewrite last_char_app, W, !app_length. simpl.
                   rewrite !Nat.add_1_r. exact El. }
                 rewrite W, app_length in J. lia. }
           rewrite without_spaces_app, app_length, W in J3. simpl in J3.
           destruct (Ascii.eqb_spec d c_space); [congruence|]. simpl in J3. lia.
      * intros X. congruence.
      * intros a b Eq. specialize (I6 a b Eq). rewrite Lc in I6.
        destruct (Nat.eq_dec (length a) (length pre)) as [Ea|Na]; [exfalso|lia].
        destruct (app_same_length _ _ _ _ Eq (eq_sym Ea)) as (<- & Eq'). injection Eq' as ->. apply (I5 (last_char_app _ _) b). reflexivity.
      * intros ->. discriminate Ex.
    + assert (W : without_spaces (pre ++ [c]) = without_spaces pre ++ [c]).
      { rewrite without_spaces_app. simpl. destruct (Ascii.eqb_spec c c_space); [congruence|reflexivity]. }
      assert (El' : rule_splits (last_char (pre ++ [c])) (length (pre ++ [c]))
        (length (pre ++ [c]) - length (without_spaces (pre ++ [c]))) s = Some l).
      { rewrite last_char_app, Lc, W, app_length. simpl. rewrite Nat.add_1_r. simpl. exact E. }
      destruct (IH _ _ El') as (I1 & I2 & I3 & I4 & _ & I6 & _). rewrite <- A in I1, I2, I3, I4, I6.
      assert (NA : forall a b, pre ++ c :: s = a ++ c_space :: b -> length a <> length pre).
      { intros a b Eq Ea. apply (f_equal (fun t => nth_error t (length pre))) in Eq.
        rewrite nth_error_app2, Nat.sub_diag in Eq by lia. rewrite <- Ea, nth_error_app2, Nat.sub_diag in Eq by lia.
        simpl in Eq. congruence. }
      split; [|split; [|split; [exact I3|split; [exact I4|split; [|split]]]]].
      * intros y Hy. destruct (I1 y Hy) as (J1 & J2). rewrite W, app_length in J2. split; [exact J1|lia].
      * intros a b Eq La. apply (I2 a b Eq). pose proof (NA a b Eq). lia.
      * intros _ b X. congruence.
      * intros a b Eq. specialize (I6 a b Eq). pose proof (NA a _ Eq). lia.
      * intros _ b X. congruence.
Qed.

(** ** Finding the rule *)

Lemma add_words_find : forall rules m m', add_words m rules = TOk m' -> forall key,
  (forall l, find_rule m key = Some l -> find_rule m' key = Some l) /\
  (find_rule m key = None ->
   match find_rule m' key with
   | Some l => exists l1 rule l2, rules = l1 ++ rule :: l2 /\ lower (without_spaces rule) = key /\
                 rule_splits None 0 0 rule = Some l /\ forall r, In r l1 -> lower (without_spaces r) <> key
   | None => forall r, In r rules -> lower (without_spaces r) <> key
   end).
Proof.
  induction rules as [|r rules IH]; intros m m' E key.
  - simpl in E. injection E as <-. split; [auto|]. intros ->. intros r [].
  - simpl in E. unfold add_word in E. destruct (rule_splits None 0 0 r) as [l|] eqn:El; [|discriminate].
    rewrite to_lower_lower in E. fold (without_spaces r) in E.
    destruct (find_rule m (lower (without_spaces r))) as [l0|] eqn:F; simpl in E.
    + destruct (IH m m' E key) as (I1 & I2). split; [exact I1|]. intros Nk.
      specialize (I2 Nk). assert (Nr : lower (without_spaces r) <> key) by congruence.
      destruct (find_rule m' key) as [l'|].
      * destruct I2 as (l1 & rule & l2 & -> & A & B & C). exists (r :: l1), rule, l2.
        split; [reflexivity|]. split; [exact A|]. split; [exact B|]. intros x [<-|Hx]; auto.
      * intros x [<-|Hx]; auto.
    + assert (Fa : forall mm k v key, find_rule (mm ++ [(k, v)]) key =
        match find_rule mm key with Some x => Some x | None => if str_eqb k key then Some v else None end).
      { clear. induction mm as [|(k0, v0) mm IH]; intros k v key; [reflexivity|]. simpl.
        destruct (str_eqb k0 key); [reflexivity|apply IH]. }
      destruct (IH _ m' E key) as (I1 & I2). rewrite Fa in I1, I2. split.
      * intros l1 Hl. apply I1. rewrite Hl. reflexivity.
      * intros Nk. rewrite Nk in I1, I2. destruct (str_eqb_spec (lower (without_spaces r)) key) as [Ek|Nr].
        -- rewrite (I1 l eq_refl). exists [], r, rules. split; [reflexivity|]. split; [exact Ek|].
           split; [exact El|intros x []].
        -- specialize (I2 eq_refl). destruct (find_rule m' key) as [l'|].
           ++ destruct I2 as (l1 & rule & l2 & -> & A & B & C). exists (r :: l1), rule, l2.
              split; [reflexivity|]. split; [exact A|]. split; [exact B|]. intros x [<-|Hx]; auto.
           ++ intros x [<-|Hx]; auto.
Qed.

Lemma find_last_not_spec : forall set s,
  match find_last_not_of set s with
  | None => forall c, In c s -> In c set
  | Some i => exists b c p, s = b ++ c :: p /\ length b = i /\ ~ In c set /\ forall x, In x p -> In x set
  end.
Proof.
  intros set. induction s as [|c s IH]; simpl; [intros c []|].
  destruct (find_last_not_of set s) as [i|].
  - destruct IH as (b & d & p & -> & <- & Nd & Hp). exists (c :: b), d, p. auto.
  - destruct (existsb (Ascii.eqb c) set) eqn:E.
    + apply existsb_eqb_in in E. intros x [<-|Hx]; auto.
    + exists [], c, s. split; [reflexivity|]. split; [reflexivity|]. split; [|exact IH].
      intros X. apply existsb_eqb_in in X. congruence.
Qed.

Lemma bare_remove : forall word, bare_word word (remove_punctuation word).
Proof.
  intros word. unfold remove_punctuation, bare_word, is_punctuation.
  pose proof (find_last_not_spec punctuation word) as H.
  destruct (find_last_not_of punctuation word) as [i|].
  - destruct H as (b & c & p & -> & <- & Nc & Hp). exists p.
    assert (E : firstn (length b + 1) (b ++ c :: p) = b ++ [c]).
    { rewrite firstn_app, firstn_all2 by lia. replace (length b + 1 - length b) with 1 by lia. reflexivity. }
    rewrite E. split; [rewrite <- app_assoc; reflexivity|]. split; [apply Forall_forall; exact Hp|].
    right. exists b, c. auto.
  - exists word. split; [reflexivity|]. split; [apply Forall_forall; exact H|left; reflexivity].
Qed.

Lemma bare_unique : forall word a b, bare_word word a -> bare_word word b -> a = b.
Proof.
  assert (X : forall word a b, bare_word word a -> bare_word word b -> length a <= length b).
  { intros word a b (p & E & Hp & Ha) (q & E' & Hq & Hb). destruct Ha as [->|(a' & c & -> & Nc)]; [simpl; lia|].
    destruct (Nat.le_gt_cases (length (a' ++ [c])) (length b)) as [L|L]; [exact L|exfalso].
    rewrite app_length in L. simpl in L. subst word.
    apply (f_equal (fun t => nth_error t (length a'))) in E'.
    rewrite <- app_assoc, nth_error_app2, Nat.sub_diag in E' by lia. simpl in E'.
    rewrite nth_error_app2 in E' by lia. symmetry in E'. apply nth_error_In in E'.
    rewrite Forall_forall in Hq. apply Nc. apply Hq. exact E'. }
  intros word a b Ha Hb. pose proof (X _ _ _ Ha Hb). pose proof (X _ _ _ Hb Ha).
  destruct Ha as (p & E & _), Hb as (q & E' & _). subst word.
  symmetry in E'. apply (app_same_length _ _ _ _ (eq_sym E')). lia.
Qed.

Lemma punctuation_utf8 : forall p, Forall is_punctuation p -> exists n, utf8_text p n.
Proof.
  induction 1 as [|c p Hc Hp (n & IH)]; [exists 0; apply utf8_nil|].
  exists (1 + n). change (c :: p) with ([c] ++ p). apply utf8_app; [|exact IH]. apply utf8_one.
  assert (X : Forall (fun c => (nat_of_ascii c <=? 127) = true) ($".,;:!?()[]{}<>""'`"))
    by (repeat constructor).
  rewrite Forall_forall in X. specialize (X c Hc). apply Nat.leb_le in X. unfold byte_between. lia.
Qed.

(** ** The search for a place to split *)

Lemma utf8_between : forall word i j a b, i <= j ->
  utf8_text (firstn i word) a -> utf8_text (firstn j word) b ->
  exists k, utf8_text (between word i j) k /\ b = a + k.
Proof.
  intros word i j a b L Ha Hb. unfold between.
  assert (E : firstn j word = firstn i word ++ firstn (j - i) (skipn i word)).
  { rewrite <- (firstn_skipn i word) at 1. rewrite firstn_app, firstn_firstn.
    replace (Nat.min j i) with i by lia. f_equal. rewrite firstn_length.
    destruct (Nat.le_gt_cases i (length word)).
    - f_equal. lia.
    - rewrite (skipn_all2 word) by lia. rewrite !firstn_nil. reflexivity. }
  rewrite E in Hb. destruct (utf8_rest _ _ _ _ Hb Ha) as (m & Hm & ->). eauto.
Qed.

Section Loop.
Variables (rule word : str) (start n : nat).
Definition boundary (i : nat) : Prop := i <= length word /\ exists k, utf8_text (firstn i word) k.
Hypothesis Start : boundary start.

Lemma rule_loop_spec : forall l prev len,
  (forall x, In x l -> boundary (sp_index x)) ->
  StronglySorted (split_lt rule) l ->
  start <= sp_index prev -> boundary (sp_index prev) ->
  (forall x, In x l -> start < sp_index x -> sp_index prev <= sp_index x) ->
  len = count_code_points (between word start (sp_index prev)) ->
  let y := rule_loop word start n prev len l in
  (y = prev \/ (In y l /\ start < sp_index y /\ fits (between word start (sp_index y)) (sp_separator y) n)) /\
  sp_index prev <= sp_index y /\
  (last_char rule <> Some c_space -> forall z, In z l -> sp_index y < sp_index z -> start < sp_index z ->
     ~ fits (between word start (sp_index z)) (sp_separator z) n).
Proof.
  induction l as [|x l IH]; intros prev len Hl Hs Hp Bp Hm Hlen; cbn [rule_loop].
  - split; [left; reflexivity|]. split; [lia|]. intros _ z [].
  - inversion Hs as [|? ? Hs' Hx]; subst. rewrite Forall_forall in Hx.
    assert (Hl' : forall x0, In x0 l -> boundary (sp_index x0)) by (intros; apply Hl; right; assumption).
    destruct (Nat.ltb_spec (sp_index x) (start + 1)) as [L|L].
    + destruct (IH prev _ Hl' Hs' Hp Bp (fun z Hz => Hm z (or_intror Hz)) eq_refl) as (I1 & I2 & I3).
      split; [destruct I1 as [I1|(I1 & I1')]; [left; exact I1|right; split; [right; exact I1|exact I1']]|].
      split; [exact I2|]. intros Nr z [<-|Hz] H1 H2; [lia|]. apply I3; assumption.
    + pose proof (Hm x (or_introl eq_refl) ltac:(lia)) as Px.
      assert (Ex : count_code_points (between word start (sp_index prev)) +
          count_code_points (firstn (sp_index x - sp_index prev) (skipn (sp_index prev) word)) =
          count_code_points (between word start (sp_index x))).
      { destruct Start as (_ & a & Ha), Bp as (_ & b & Hb), (Hl x (or_introl eq_refl)) as (_ & c & Hc).
        destruct (utf8_between word start (sp_index prev) a b Hp Ha Hb) as (k1 & K1 & E1).
        destruct (utf8_between word (sp_index prev) (sp_index x) b c Px Hb Hc) as (k2 & K2 & E2).
        destruct (utf8_between word start (sp_index x) a c ltac:(lia) Ha Hc) as (k3 & K3 & E3).
        unfold between in K2. rewrite (utf8_count _ _ K1), (utf8_count _ _ K2), (utf8_count _ _ K3). lia. }
      rewrite Ex. destruct (Nat.ltb_spec n (count_code_points (between word start (sp_index x)) +
        match sp_separator x with Some _ => 1 | None => 0 end)) as [Ln|Ln].
      * split; [left; reflexivity|]. split; [lia|]. intros Nr z [<-|Hz] H1 H2 Hf.
        -- apply fits_iff in Hf. lia.
        -- apply fits_iff in Hf. destruct (Hx z Hz) as [Hlt|(Hc & _)]; [|congruence].
           destruct Start as (_ & a & Ha), (Hl x (or_introl eq_refl)) as (_ & b & Hb), (Hl z (or_intror Hz)) as (Lz & c & Hc).
           destruct (utf8_between word start (sp_index x) a b ltac:(lia) Ha Hb) as (k1 & K1 & E1).
           destruct (utf8_between word start (sp_index z) a c ltac:(lia) Ha Hc) as (k2 & K2 & E2).
           destruct (utf8_between word (sp_index x) (sp_index z) b c ltac:(lia) Hb Hc) as (k3 & K3 & E3).
           rewrite (utf8_count _ _ K2) in Hf. rewrite (utf8_count _ _ K1) in Ln.
           assert (k3 <> 0).
           { intros ->. apply utf8_count in K3. apply count_zero in K3. apply (f_equal (@length _)) in K3.
             unfold between in K3. rewrite firstn_length, skipn_length in K3. simpl in K3. lia. }
           destruct (sp_separator x), (sp_separator z); lia.
      * assert (Hm' : forall z, In z l -> start < sp_index z -> sp_index x <= sp_index z).
        { intros z Hz _. destruct (Hx z Hz) as [|(_ & ?)]; lia. }
        destruct (IH x _ Hl' Hs' ltac:(lia) (Hl x (or_introl eq_refl)) Hm' eq_refl) as (I1 & I2 & I3).
        split; [|split; [lia|]].
        -- right. destruct I1 as [->|(I1 & I1')]; [|split; [right; exact I1|exact I1']].
           split; [left; reflexivity|]. split; [lia|]. apply fits_iff. lia.
        -- intros Nr z [<-|Hz] H1 H2; [lia|]. apply I3; assumption.
Qed.
End Loop.

(** ** Splitting *)

Lemma skipn_skipn : forall A (l : list A) x y, skipn x (skipn y l) = skipn (y + x) l.
Proof.
  intros A l x y. revert l. induction y as [|y IH]; intros l; [reflexivity|].
  destruct l; simpl; [apply skipn_nil|apply IH].
Qed.

Lemma break_utf8 : forall rule i h n, utf8_text rule n -> rule_break rule i h ->
  i <= length (without_spaces rule) /\ exists k, utf8_text (firstn i (without_spaces rule)) k.
Proof.
  intros rule i h n U [(a & b & -> & -> & _)|(-> & _)].
  - assert (Hs : byte_between 0 127 c_space) by (unfold byte_between; vm_compute; lia).
    destruct (utf8_ascii_split _ _ _ _ Hs U) as (k & m & Ha & _).
    destruct (utf8_without_spaces _ _ Ha) as (k' & Hk).
    rewrite without_spaces_app, app_length. split; [lia|].
    rewrite firstn_app, firstn_all, Nat.sub_diag, app_nil_r. eauto.
  - split; [lia|]. rewrite firstn_all. eapply utf8_without_spaces. exact U.
Qed.

Lemma split_cases : forall rules m word start n must, utf8_rules rules -> add_words [] rules = TOk m ->
  at_boundary word start ->
  (exists rule i h, first_rule rules word rule /\ rule_break rule i h /\ start + 1 < i <= length word /\
     boundary word start /\ boundary word i /\
     fits (between word start i) h n /\
     (last_char rule <> Some c_space -> forall j h', rule_break rule j h' -> i < j ->
        ~ fits (between word start j) h' n) /\
     split m word start n must = TOk (between word start i, h, skipn i word)) \/
  ((forall rule, first_rule rules word rule -> last_char rule <> Some c_space ->
      forall j h', rule_break rule j h' -> start + 1 < j -> ~ fits (between word start j) h' n) /\
   split m word start n must =
     if must then default_rule (skipn start word) n else TOk ([], None, word)).
Proof.
  intros rules m word start n must HR HA (Ls & HB). unfold split.
  rewrite key_lower. pose proof (bare_remove word) as Bw. set (b := remove_punctuation word) in *.
  destruct (add_words_find rules [] m HA (lower b)) as (_ & F). specialize (F eq_refl).
  destruct (find_rule m (lower b)) as [l|] eqn:Ef.
  2:{ right. split; [|reflexivity]. intros rule (l1 & l2 & -> & (b' & Bb & Eb) & _).
      exfalso. apply (F rule); [apply in_elt|]. rewrite <- Eb. f_equal. eapply bare_unique; eassumption. }
  destruct F as (l1 & rule & l2 & -> & Ek & El & Nl).
  assert (Hr : exists k, utf8_text rule k) by (apply HR; apply in_elt). destruct Hr as (kr & Ur).
  assert (HF : first_rule (l1 ++ rule :: l2) word rule).
  { exists l1, l2. split; [reflexivity|]. split; [exists b; auto|].
    intros r Hr (b' & Bb & Eb). apply (Nl r Hr). rewrite <- Eb. f_equal. eapply bare_unique; eassumption. }
  assert (Uniq : forall rule', first_rule (l1 ++ rule :: l2) word rule' -> rule' = rule).
  { intros rule' (l3 & l4 & E & (b' & Bb & Eb) & N'). rewrite (bare_unique _ _ _ Bb Bw) in Eb. clear b' Bb.
    assert (Y1 : forall r, In r l3 -> lower (without_spaces r) <> lower b).
    { intros r Hr X. apply (N' r Hr). exists b. auto. }
    clear - E Ek Nl Eb Y1. revert l3 E Y1. induction l1 as [|x l1 IH]; intros [|y l3] E Y1; simpl in E.
    - congruence.
    - injection E as <- E. exfalso. apply (Y1 rule); [left; reflexivity|exact Ek].
    - injection E as -> E. exfalso. apply (Nl rule'); [left; reflexivity|symmetry; exact Eb].
    - injection E as <- E. apply (IH (fun r Hr => Nl r (or_intror Hr)) l3 E (fun r Hr => Y1 r (or_intror Hr))). }
  destruct (rule_splits_spec rule [] l El) as (S1 & S2 & S3 & S4 & _). simpl in S1, S2, S3, S4.
  assert (Bd : forall i h, rule_break rule i h -> boundary word i).
  { intros i h Hb. destruct (break_utf8 _ _ _ _ Ur Hb) as (Li & k & Uk).
    assert (Lb : length (without_spaces rule) = length b) by (rewrite <- (lower_length b), <- Ek, lower_length; reflexivity).
    destruct Bw as (p & Ew & _). rewrite Ew. split; [rewrite app_length; lia|]. exists k.
    rewrite firstn_app. replace (i - length b) with 0 by lia. rewrite app_nil_r.
    apply utf8_lower. rewrite lower_firstn, <- Ek, <- lower_firstn. apply utf8_lower in Uk. exact Uk. }
  assert (Uw : exists k, utf8_text word k).
  { destruct (Bd _ _ (or_intror (conj eq_refl eq_refl))) as (Lw & k & Uk).
    assert (Lb : length (without_spaces rule) = length b) by (rewrite <- (lower_length b), <- Ek, lower_length; reflexivity).
    destruct Bw as (p & Ew & Hp & _). destruct (punctuation_utf8 p Hp) as (j & Uj).
    rewrite Lb, Ew, firstn_app, firstn_all, Nat.sub_diag, app_nil_r in Uk.
    exists (k + j). rewrite Ew. apply utf8_app; assumption. }
  assert (Bs : boundary word start).
  { split; [exact Ls|]. destruct Uw as (k & Uk). apply (HB k Uk). }
  assert (Bl : forall x, In x l -> boundary word (sp_index x)) by (intros x Hx; eapply Bd; apply (S1 x Hx)).
  destruct (rule_loop_spec rule word start n Bs l (mk_split start None) 0 Bl S4 (le_n _) Bs
    (fun x _ H => Nat.lt_le_incl _ _ H)) as (R1 & R2 & R3).
  { cbn [sp_index]. unfold between. rewrite Nat.sub_diag. reflexivity. }
  set (y := rule_loop word start n (mk_split start None) 0 l) in *. cbn [sp_index] in R2.
  assert (Cm : forall j h', rule_break rule j h' -> In (mk_split j h') l).
  { intros j h' [(a & c & E & -> & ->)|(-> & ->)]; [|exact S3]. apply (S2 a c E). simpl. lia. }
  destruct (Nat.ltb_spec (start + 1) (sp_index y)) as [Ly|Ly].
  - left. destruct R1 as [R1|(R1 & _ & R1')]; [rewrite R1 in Ly; simpl in Ly; lia|].
    exists rule, (sp_index y), (sp_separator y). split; [exact HF|]. split; [apply (S1 y R1)|].
    split; [split; [exact Ly|apply (Bl y R1)]|]. split; [exact Bs|]. split; [apply (Bl y R1)|].
    split; [exact R1'|]. split; [|reflexivity].
    intros Nr j h' Hj Hlt. apply (R3 Nr (mk_split j h') (Cm j h' Hj)); simpl; lia.
  - right. split; [|reflexivity]. intros rule' HF' Nr j h' Hj Hlt. rewrite (Uniq rule' HF') in *.
    apply (R3 Nr (mk_split j h') (Cm j h' Hj)); simpl; lia.
Qed.

Lemma boundary_cut : forall word i j, i <= j -> boundary word i -> boundary word j ->
  (exists a, utf8_text (between word i j) a) /\
  forall k, utf8_text (skipn i word) k -> exists b, utf8_text (skipn j word) b.
Proof.
  intros word i j L (Li & a & Ha) (Lj & b & Hb).
  destruct (utf8_between word i j a b L Ha Hb) as (k & Hk & _). split; [eauto|].
  intros c Hc. assert (E : skipn i word = between word i j ++ skipn j word).
  { unfold between. rewrite <- (firstn_skipn (j - i) (skipn i word)) at 1. rewrite skipn_skipn. do 2 f_equal. lia. }
  rewrite E in Hc. destruct (utf8_rest _ _ _ _ Hc Hk) as (d & Hd & _). eauto.
Qed.

(** Splitting a word that does not fit. *)
Lemma split_proof : forall rules m word start n must, utf8_rules rules -> add_words [] rules = TOk m ->
  at_boundary word start -> n < count_code_points (skipn start word) ->
  exists w h r, split m word start n must = TOk (w, h, r) /\
    ((w = [] /\ h = None /\ (must = false \/ n <= 2)) \/ good_cut (skipn start word) w r h n).
Proof.
  intros rules m word start n must HR HA HB Hn.
  destruct (split_cases rules m word start n must HR HA HB)
    as [(rule & i & h & HF & Hb & Hi & Bs & Bi & Hfit & _ & ->)|(_ & ->)].
  - exists (between word start i), h, (skipn i word). split; [reflexivity|right].
    assert (E : between word start i ++ skipn i word = skipn start word).
    { unfold between. rewrite <- (firstn_skipn (i - start) (skipn start word)) at 2. rewrite skipn_skipn.
      do 2 f_equal. lia. }
    destruct (boundary_cut word start i ltac:(lia) Bs Bi) as ((a & Ua) & Hrest).
    split; [exact E|]. split.
    { intros X. apply (f_equal (@length _)) in X. unfold between in X. rewrite firstn_length, skipn_length in X.
      simpl in X. lia. }
    split.
    { intros X. rewrite X, app_nil_r in E. apply fits_iff in Hfit. rewrite E in Hfit. lia. }
    split; [apply fits_iff; exact Hfit|]. split.
    { destruct Hb as [(x & y & _ & _ & ->)|(_ & ->)]; [|auto].
      destruct (last_char x) as [z|]; [destruct (Ascii.eqb z c_dash)|]; auto. }
    intros k Hk. destruct (Hrest k Hk) as (b & Ub). eauto.
  - destruct must.
    + destruct (Nat.le_gt_cases n 2) as [L|L].
      * unfold default_rule. destruct (Nat.leb_spec n 2); [|lia]. exists [], None, (skipn start word). split; [reflexivity|]. left. auto.
      * destruct (default_cut (skipn start word) n L Hn) as (w & s & r & E & G). exists w, s, r. split; [exact E|right; exact G].
    + exists [], None, word. split; [reflexivity|]. left. auto.
Qed.
