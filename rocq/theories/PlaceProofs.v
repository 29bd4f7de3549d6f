(** Proofs about splitting words for which there is no rule (C47). *)
From Verif Require Import Base BaseProofs MStrings MText SStrings SText StrProofs SplitProofs RuleProofs.
Open Scope nat_scope.

Lemma isdigit_spec : forall c, isdigit c = true <-> is_digit c.
Proof. intros c. unfold isdigit, is_digit, u8, nat_of_ascii. rewrite andb_true_iff, !N.leb_le. lia. Qed.

Lemma isalnum_spec : forall c, isalnum c = true <-> letter_or_digit c.
Proof.
  intros c. unfold isalnum, letter_or_digit, is_letter. rewrite !orb_true_iff, isdigit_spec.
  unfold is_digit, u8, nat_of_ascii. rewrite !andb_true_iff, !N.leb_le.
  pose proof (N2Nat.id (N_of_ascii c)). intuition lia.
Qed.

Lemma eqb_iff : forall a b P Q, (a = true <-> P) -> (b = true <-> Q) -> (Bool.eqb a b = true <-> (P <-> Q)).
Proof. intros [|] [|] P Q HP HQ; simpl; intuition congruence. Qed.

(** What the loop of the default rule finds at a position. *)
Definition place_kind (s : str) (i : nat) : option (option ascii) :=
  match i with
  | O => None
  | S j =>
      match nth_error s j, nth_error s i with
      | Some a, Some b =>
          if ((127 <=? u8 a) || (127 <=? u8 b))%N then None
          else if negb (Bool.eqb (isalnum a) (isalnum b)) then Some None
          else if negb (Bool.eqb (isdigit a) (isdigit b)) then Some (Some c_dash)
          else None
      | _, _ => None
      end
  end.

Lemma nth_two : forall (s : str) j a b, nth_error s j = Some a -> nth_error s (S j) = Some b ->
  exists x y, s = x ++ a :: b :: y /\ length x = j.
Proof.
  induction s as [|c s IH]; intros j a b Ha Hb; [destruct j; discriminate|].
  destruct j as [|j].
  - simpl in *. injection Ha as ->. destruct s as [|d s]; [discriminate|]. injection Hb as ->. exists [], s. auto.
  - simpl in *. destruct (IH j a b Ha Hb) as (x & y & -> & <-). exists (c :: x), y. auto.
Qed.

Lemma place_kind_spec : forall s i h, place_kind s i = Some h <-> good_place s i h.
Proof.
  intros s i h. split.
  - unfold place_kind. destruct i as [|j]; [discriminate|].
    destruct (nth_error s j) as [a|] eqn:Ea; [|discriminate].
    destruct (nth_error s (S j)) as [b|] eqn:Eb; [|discriminate].
    destruct (nth_two _ _ _ _ Ea Eb) as (x & y & -> & <-). intros E.
    destruct (_ || _)%N eqn:E1; [discriminate|]. apply orb_false_iff in E1. rewrite !N.leb_gt in E1.
    exists x, a, b, y. split; [reflexivity|]. split; [lia|]. split; [unfold nat_of_ascii, u8 in *; lia|].
    split; [unfold nat_of_ascii, u8 in *; lia|].
    pose proof (eqb_iff _ _ _ _ (isalnum_spec a) (isalnum_spec b)) as A.
    pose proof (eqb_iff _ _ _ _ (isdigit_spec a) (isdigit_spec b)) as D.
    destruct (Bool.eqb (isalnum a) (isalnum b)); simpl in E.
    + destruct (Bool.eqb (isdigit a) (isdigit b)); [discriminate|]. injection E as <-. right.
      split; [reflexivity|].
      assert (Nd : ~ (is_digit a <-> is_digit b)) by (intros X; apply D in X; discriminate).
      assert (AA : letter_or_digit a <-> letter_or_digit b) by (apply A; reflexivity).
      pose proof (isdigit_spec a) as Da. pose proof (isdigit_spec b) as Db.
      assert (Ca : is_digit a \/ ~ is_digit a) by (destruct (isdigit a); [left; apply Da; reflexivity|right; intros X; apply Da in X; discriminate]).
      assert (Cb : is_digit b \/ ~ is_digit b) by (destruct (isdigit b); [left; apply Db; reflexivity|right; intros X; apply Db in X; discriminate]).
      unfold letter_or_digit in *. clear - Ca Cb Nd AA. revert Ca Cb Nd AA.
      generalize (is_digit a) (is_digit b) (is_letter a) (is_letter b). intros. tauto.
    + injection E as <-. left. split; [reflexivity|]. intros X. apply A in X. discriminate.
  - intros (x & a & b & y & -> & <- & La & Lb & K). unfold place_kind. rewrite Nat.add_1_r.
    assert (E1 : nth_error (x ++ a :: b :: y) (length x) = Some a).
    { rewrite nth_error_app2, Nat.sub_diag by lia. reflexivity. }
    assert (E2 : nth_error (x ++ a :: b :: y) (S (length x)) = Some b).
    { rewrite nth_error_app2 by lia. replace (S (length x) - length x) with 1 by lia. reflexivity. }
    rewrite E1, E2. clear E1 E2.
    destruct (_ || _)%N eqn:E1.
    { apply orb_true_iff in E1. rewrite !N.leb_le in E1. unfold nat_of_ascii, u8 in *. lia. }
    pose proof (eqb_iff _ _ _ _ (isalnum_spec a) (isalnum_spec b)) as A.
    pose proof (eqb_iff _ _ _ _ (isdigit_spec a) (isdigit_spec b)) as D.
    destruct K as [(-> & N1)|(-> & H1 & H2 & N1)].
    + destruct (Bool.eqb (isalnum a) (isalnum b)); [|reflexivity]. exfalso. apply N1. apply A. reflexivity.
    + destruct (Bool.eqb (isalnum a) (isalnum b)).
      * destruct (Bool.eqb (isdigit a) (isdigit b)); [|reflexivity]. exfalso. apply N1. apply D. reflexivity.
      * exfalso. assert (X : false = true) by (apply A; tauto). discriminate.
Qed.

Section Places.
Variables (word : str) (ig : bool) (n : nat) (pos : nat -> nat).
Hypothesis Step : forall k, k < n -> step_back ig word (pos (S k)) = Some (pos k).
Hypothesis Pos : forall k, 0 < k <= n -> 0 < pos k.
Hypothesis Inside : forall k, k <= n -> pos k < length word.

Lemma default_loop_place : forall count min_pos, 0 < min_pos -> count <= n - 1 ->
  (default_loop ig word min_pos count (pos count) = Some None /\
   forall j, min_pos <= j < count -> place_kind word (pos j) = None) \/
  exists k s, min_pos <= k < count /\ place_kind word (pos k) = Some s /\
    (forall j, k < j < count -> place_kind word (pos j) = None) /\
    default_loop ig word min_pos count (pos count) = Some (Some (firstn (pos k) word, s, skipn (pos k) word)).
Proof.
  induction count as [|c IH]; intros min_pos Hm Hc; [left; split; [reflexivity|lia]|].
  cbn [default_loop]. destruct (Nat.ltb_spec min_pos (S c)); [|left; split; [reflexivity|lia]].
  rewrite Step by lia.
  assert (K : forall s, place_kind word (pos c) = Some s ->
    exists k s', min_pos <= k < S c /\ place_kind word (pos k) = Some s' /\
      (forall j, k < j < S c -> place_kind word (pos j) = None) /\
      Some (Some (firstn (pos c) word, s, skipn (pos c) word)) =
      Some (Some (firstn (pos k) word, s', skipn (pos k) word))).
  { intros s Hs. exists c, s. split; [lia|]. split; [exact Hs|]. split; [lia|reflexivity]. }
  assert (M : place_kind word (pos c) = None ->
    (default_loop ig word min_pos c (pos c) = Some None /\
     forall j, min_pos <= j < S c -> place_kind word (pos j) = None) \/
    exists k s, min_pos <= k < S c /\ place_kind word (pos k) = Some s /\
      (forall j, k < j < S c -> place_kind word (pos j) = None) /\
      default_loop ig word min_pos c (pos c) = Some (Some (firstn (pos k) word, s, skipn (pos k) word))).
  { intros Hn. destruct (IH min_pos Hm ltac:(lia)) as [(E & H1)|(k & s & H1 & H2 & H3 & E)].
    - left. split; [exact E|]. intros j Hj. destruct (Nat.eq_dec j c) as [->|]; [exact Hn|apply H1; lia].
    - right. exists k, s. split; [lia|]. split; [exact H2|]. split; [|exact E].
      intros j Hj. destruct (Nat.eq_dec j c) as [->|]; [exact Hn|apply H3; lia]. }
  destruct (pos c) as [|j] eqn:Ep; [pose proof (Pos c ltac:(lia)); lia|].
  pose proof (Inside c ltac:(lia)) as In_.
  unfold place_kind in K at 1. unfold place_kind in M at 1.
  destruct (nth_error word j) as [a|] eqn:Ea; [|apply nth_error_None in Ea; lia].
  destruct (nth_error word (S j)) as [b|] eqn:Eb; [|apply nth_error_None in Eb; lia].
  destruct (_ || _)%N; [apply M; reflexivity|].
  destruct (negb (Bool.eqb (isalnum a) (isalnum b))); [right; apply K; reflexivity|].
  destruct (negb _); [right; apply K; reflexivity|]. apply M. reflexivity.
Qed.

Lemma default_rule_place : 2 < n -> find_nth_code_point word n = Some (pos n) -> (pos n =? n) = ig ->
  exists k s, default_rule word n = TOk (firstn (pos k) word, s, skipn (pos k) word) /\
    ((k = n - 1 /\ s = Some c_dash /\
      forall j, (n + 2) / 3 <= j < n - 1 -> place_kind word (pos j) = None) \/
     ((n + 2) / 3 <= k < n - 1 /\ place_kind word (pos k) = Some s /\
      forall j, k < j < n - 1 -> place_kind word (pos j) = None)).
Proof.
  intros Hn F E. unfold default_rule. destruct (Nat.leb_spec n 2); [lia|]. rewrite F, E.
  replace (step_back ig word (pos n)) with (Some (pos (n - 1))).
  2:{ symmetry. replace (pos n) with (pos (S (n - 1))) by (f_equal; lia). apply Step. lia. }
  assert (Hm : 0 < (n + 2) / 3) by (apply Nat.div_str_pos; lia).
  destruct (default_loop_place (n - 1) _ Hm (le_n _)) as [(-> & H1)|(k & s & Hk & H1 & H2 & ->)].
  - exists (n - 1), (Some c_dash). split; [reflexivity|]. left. auto.
  - exists k, s. split; [reflexivity|]. right. auto.
Qed.
End Places.

(** Positions of the code points of a text. *)
Definition cp_pos (cs : list str) (k : nat) : nat := length (concat (firstn k cs)).

Lemma cp_pos_step : forall cs k, Forall utf8_char cs -> k < length cs ->
  step_back false (concat cs) (cp_pos cs (S k)) = Some (cp_pos cs k).
Proof.
  intros cs k F Hk. unfold cp_pos. destruct (nth_error cs k) as [ch|] eqn:Ek; [|apply nth_error_None in Ek; lia].
  apply nth_error_split in Ek. destruct Ek as (l1 & l2 & -> & <-).
  assert (Hch : utf8_char ch) by (apply Forall_elt in F; exact F).
  rewrite firstn_app, firstn_all2 by lia.
  replace (S (length l1) - length l1) with 1 by lia. rewrite firstn_app, firstn_all, Nat.sub_diag.
  simpl. rewrite !concat_app, app_nil_r. simpl. rewrite app_nil_r, app_length.
  pose proof (utf8_char_nonempty _ Hch) as Ln.
  destruct (length ch) as [|lc] eqn:El; [lia|]. rewrite Nat.add_succ_r. cbn [step_back].
  apply skip_back_char; [exact Hch|lia].
Qed.

Lemma cp_pos_add : forall cs i j, i <= j -> cp_pos cs j = cp_pos cs i + length (concat (firstn (j - i) (skipn i cs))).
Proof.
  intros cs i j H. unfold cp_pos. rewrite <- app_length, <- concat_app. f_equal. f_equal.
  rewrite <- (firstn_skipn i cs) at 1. rewrite firstn_app, firstn_firstn, firstn_length.
  replace (Nat.min j i) with i by lia. f_equal.
  destruct (Nat.le_gt_cases i (length cs)); [f_equal; lia|].
  rewrite skipn_all2 by lia. rewrite !firstn_nil. reflexivity.
Qed.

Lemma cp_pos_ge : forall cs i j, Forall utf8_char cs -> i <= j <= length cs -> j - i <= cp_pos cs j - cp_pos cs i /\ cp_pos cs i <= cp_pos cs j.
Proof.
  intros cs i j F H. rewrite (cp_pos_add cs i j) by lia.
  pose proof (concat_length_ge (firstn (j - i) (skipn i cs)) (Forall_firstn _ _ _ _ (Forall_skipn _ _ _ _ F))) as A.
  rewrite firstn_length, skipn_length in A. lia.
Qed.

Lemma cp_pos_0 : forall cs, cp_pos cs 0 = 0.
Proof. reflexivity. Qed.

Lemma cp_pos_end : forall cs, cp_pos cs (length cs) = length (concat cs).
Proof. intros cs. unfold cp_pos. rewrite firstn_all. reflexivity. Qed.

(** The position after [j] code points. *)
Lemma prefix_pos : forall cs v u j, Forall utf8_char cs -> concat cs = v ++ u -> utf8_text v j ->
  j <= length cs /\ length v = cp_pos cs j.
Proof.
  intros cs v u j F E U.
  assert (Uc : utf8_text (v ++ u) (length cs)) by (exists cs; rewrite <- E; auto).
  destruct (utf8_rest _ _ _ _ Uc U) as (b & Hb & Eb).
  assert (Lj : j <= length cs) by lia. split; [exact Lj|]. clear Eb Hb b Uc.
  destruct U as (ds & G & -> & ->). unfold cp_pos. f_equal.
  revert cs u F E Lj. induction G as [|d ds Hd G IH]; intros cs u F E Lj; [reflexivity|].
  destruct F as [|c cs Hc F]; [simpl in Lj; lia|]. cbn [concat length firstn] in *.
  rewrite <- !app_assoc in E.
  assert (L : length c = length d).
  { apply utf8_char_iff in Hc, Hd. destruct Hc as (c0 & c1 & -> & L1 & _), Hd as (d0 & d1 & -> & L2 & _).
    injection E as -> _. simpl. congruence. }
  destruct (app_same_length _ _ _ _ E L) as (-> & E2). f_equal. apply (IH cs u F E2). lia.
Qed.

Lemma default_place_proof : forall s m n, utf8_text s m -> 2 < n < m ->
  exists w h r k, default_rule s n = TOk (w, h, r) /\ w ++ r = s /\ utf8_text w k /\
    ((k = n - 1 /\ h = Some c_dash /\
      forall v u j h', v ++ u = s -> utf8_text v j -> n <= 3 * j -> j < n - 1 -> ~ good_place s (length v) h') \/
     (n <= 3 * k /\ k < n - 1 /\ good_place s (length w) h /\
      forall v u j h', v ++ u = s -> utf8_text v j -> k < j < n - 1 -> ~ good_place s (length v) h')).
Proof.
  intros s m n (cs & F & -> & ->) Hn.
  assert (Fn : find_nth_code_point (concat cs) n = Some (cp_pos cs n)).
  { rewrite find_nth_proof by exact F. destruct (Nat.ltb_spec n (length cs)); [reflexivity|lia]. }
  assert (X : exists k s, default_rule (concat cs) n = TOk (firstn (cp_pos cs k) (concat cs), s, skipn (cp_pos cs k) (concat cs)) /\
    ((k = n - 1 /\ s = Some c_dash /\
      forall j, (n + 2) / 3 <= j < n - 1 -> place_kind (concat cs) (cp_pos cs j) = None) \/
     ((n + 2) / 3 <= k < n - 1 /\ place_kind (concat cs) (cp_pos cs k) = Some s /\
      forall j, k < j < n - 1 -> place_kind (concat cs) (cp_pos cs j) = None))).
  { apply (default_rule_place (concat cs) (cp_pos cs n =? n) n (cp_pos cs)); try lia; auto.
    - intros k Hk. destruct (cp_pos cs n =? n) eqn:Eig; [|apply cp_pos_step; [exact F|lia]].
      apply Nat.eqb_eq in Eig.
      assert (Y : forall j, j <= n -> cp_pos cs j = j).
      { intros j Hj. pose proof (cp_pos_ge cs 0 j F ltac:(lia)) as A. pose proof (cp_pos_ge cs j n F ltac:(lia)) as B.
        rewrite cp_pos_0 in A. lia. }
      rewrite !Y by lia. reflexivity.
    - intros k Hk. pose proof (cp_pos_ge cs 0 k F ltac:(lia)) as A. lia.
    - intros k Hk. pose proof (cp_pos_ge cs k (length cs) F ltac:(lia)) as A. rewrite cp_pos_end in A. lia. }
  destruct X as (k & h & E & K). exists (firstn (cp_pos cs k) (concat cs)), h, (skipn (cp_pos cs k) (concat cs)), k.
  assert (Lk : k <= length cs) by (destruct K as [(-> & _)|(? & _)]; lia).
  destruct (firstn_concat cs k [] Lk) as (Y1 & _). fold (cp_pos cs k) in Y1. rewrite app_nil_r in Y1.
  assert (U : utf8_text (firstn (cp_pos cs k) (concat cs)) k).
  { rewrite Y1. exists (firstn k cs). split; [apply Forall_firstn; exact F|]. split; [reflexivity|].
    rewrite firstn_length. lia. }
  split; [exact E|]. split; [apply firstn_skipn|]. split; [exact U|].
  assert (None_at : forall v u j h', v ++ u = concat cs -> utf8_text v j ->
    place_kind (concat cs) (cp_pos cs j) = None -> ~ good_place (concat cs) (length v) h').
  { intros v u j h' Ev Uv Kn G. destruct (prefix_pos cs v u j F (eq_sym Ev) Uv) as (_ & L). rewrite L in G.
    apply place_kind_spec in G. congruence. }
  destruct K as [(-> & -> & H)|(Hk & Hg & H)].
  - left. split; [reflexivity|]. split; [reflexivity|]. intros v u j h' Ev Uv H1 H2.
    apply (None_at v u j h' Ev Uv). apply H. split; [|exact H2].
    assert ((n + 2) / 3 < S j); [|lia]. apply Nat.div_lt_upper_bound; lia.
  - right. assert (n <= 3 * k).
    { pose proof (Nat.div_mod_eq (n + 2) 3) as D. pose proof (Nat.mod_upper_bound (n + 2) 3 ltac:(lia)) as M. lia. }
    split; [assumption|]. split; [lia|]. split.
    + rewrite firstn_length. destruct (cp_pos_ge cs k (length cs) F ltac:(lia)) as (_ & A). rewrite cp_pos_end in A.
      rewrite Nat.min_l by exact A. apply place_kind_spec. exact Hg.
    + intros v u j h' Ev Uv Hj. apply (None_at v u j h' Ev Uv). apply H. exact Hj.
Qed.

(** Without a rule for the word [split] is the default rule. *)
Lemma split_default : forall rules m word start n, utf8_rules rules -> add_words [] rules = TOk m ->
  at_boundary word start -> (forall r, In r rules -> ~ rule_for r word) ->
  split m word start n true = default_rule (skipn start word) n /\
  split m word start n false = TOk ([], None, word).
Proof.
  intros rules m word start n HR HA HB Hno.
  assert (X : forall must, split m word start n must =
     if must then default_rule (skipn start word) n else TOk ([], None, word)).
  { intros must. destruct (split_cases rules m word start n must HR HA HB)
      as [(rule & i & h & (l1 & l2 & -> & HF & _) & _)|(_ & E)]; [|exact E].
    exfalso. apply (Hno rule); [apply in_elt|exact HF]. }
  split; apply X.
Qed.

(** ** Rules that are refused *)

Lemma rule_splits_none : forall s pre, rule_splits (last_char pre) (length pre) (length pre - length (without_spaces pre)) s = None ->
  bad_rule (pre ++ s).
Proof.
  induction s as [|c s IH]; intros pre E; [discriminate|]. cbn [rule_splits] in E.
  assert (W : length (without_spaces (pre ++ [c])) = length (without_spaces pre) + (if Ascii.eqb c c_space then 0 else 1)).
  { rewrite without_spaces_app, app_length. simpl. destruct (Ascii.eqb c c_space); reflexivity. }
  pose proof (without_spaces_length pre) as Wl.
  assert (Next : rule_splits (Some c) (S (length pre))
    (S (length pre) - length (without_spaces (pre ++ [c]))) s = None -> bad_rule (pre ++ c :: s)).
  { intros H. change (c :: s) with ([c] ++ s). rewrite app_assoc. apply IH.
    rewrite last_char_app, app_length. simpl. rewrite Nat.add_1_r. exact H. }
  destruct (Ascii.eqb_spec c c_space) as [->|Nc].
  - destruct (last_char pre) as [x|] eqn:El.
    + pose proof (last_char_some _ _ El) as Ep. set (p' := firstn (length pre - 1) pre) in *. clearbody p'. subst pre.
      destruct (Ascii.eqb_spec x c_space) as [->|Nx].
      * right. exists p', s. rewrite <- app_assoc. reflexivity.
      * match type of E with match ?t with _ => _ end = _ => destruct t eqn:R end; [discriminate|]. apply Next.
        rewrite <- R. f_equal. rewrite W. cbv iota. rewrite Nat.add_0_r. apply Nat.sub_succ_l. exact Wl.
    + assert (pre = []) as ->.
      { destruct pre as [|p pre]; [reflexivity|]. exfalso.
        destruct (exists_last (l := p :: pre) ltac:(discriminate)) as (p' & x & X). rewrite X, last_char_app in El. discriminate. }
      left. exists s. reflexivity.
  - apply Next. rewrite <- E. f_equal. rewrite W. lia.
Qed.

Lemma add_word_throws_proof : forall m rule, add_word m rule = TThrows (TInvalidRule rule) <-> bad_rule rule.
Proof.
  intros m rule. unfold add_word. destruct (rule_splits None 0 0 rule) as [l|] eqn:E.
  - split; [destruct (find_rule _ _); discriminate|]. intros B. exfalso.
    destruct (rule_splits_spec rule [] l E) as (_ & _ & _ & _ & _ & H1 & H2).
    destruct B as [(b & ->)|(a & b & ->)]; [apply (H2 eq_refl b eq_refl)|].
    specialize (H1 a b eq_refl). simpl in H1. lia.
  - split; [|reflexivity]. intros _. apply (rule_splits_none rule []). exact E.
Qed.

Lemma add_words_proof : forall rules m,
  (forall r, In r rules -> ~ bad_rule r) <-> exists m', add_words m rules = TOk m'.
Proof.
  induction rules as [|r rules IH]; intros m; [split; [intros _; eexists; reflexivity|intros _ r []]|].
  cbn [add_words]. pose proof (add_word_throws_proof m r) as T.
  assert (O : (exists m1, add_word m r = TOk m1) \/ add_word m r = TThrows (TInvalidRule r)).
  { unfold add_word. destruct (rule_splits _ _ _ _); [|right; reflexivity]. left. destruct (find_rule _ _); eauto. }
  destruct O as [(m1 & E)|E]; rewrite E in T |- *; cbn [tbind].
  - rewrite <- (IH m1). split.
    + intros H x Hx. apply H. right. exact Hx.
    + intros H x [<-|Hx]; [|apply H; exact Hx]. intros B. apply T in B. discriminate.
  - split.
    + intros H. exfalso. apply (H r (or_introl eq_refl)). apply T. reflexivity.
    + intros (m' & X). discriminate.
Qed.
