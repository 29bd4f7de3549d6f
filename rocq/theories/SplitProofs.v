(** Proofs about the splitting of words (C47). *)
From Verif Require Import Base BaseProofs MStrings MText SStrings SText StrProofs.
Open Scope nat_scope.

(** ** Code points *)

Lemma utf8_nil : utf8_text [] 0.
Proof. exists []. auto. Qed.

Lemma utf8_app : forall a b n m, utf8_text a n -> utf8_text b m -> utf8_text (a ++ b) (n + m).
Proof.
  intros a b n m (cs & F & -> & ->) (ds & G & -> & ->). exists (cs ++ ds).
  rewrite concat_app, app_length. split; [apply Forall_app; auto|auto].
Qed.

Lemma utf8_char_prefix : forall a b x y, utf8_char a -> utf8_char b -> a ++ x = b ++ y -> a = b /\ x = y.
Proof.
  intros a b x y Ha Hb E. apply utf8_char_iff in Ha, Hb.
  destruct Ha as (c & r & -> & L & _), Hb as (d & q & -> & M & _).
  simpl in E. injection E as <- E. assert (length r = length q) by congruence.
  assert (X : forall (u v : str) w z, length u = length v -> u ++ w = v ++ z -> u = v /\ w = z).
  { clear. induction u as [|i u IH]; intros [|j v] w z Hl E; try discriminate; simpl in *; auto.
    injection E as -> E. destruct (IH v w z) as (-> & ->); auto. }
  destruct (X _ _ _ _ H E) as (-> & ->). auto.
Qed.

Lemma utf8_prefix : forall ds cs rest, Forall utf8_char cs -> Forall utf8_char ds ->
  concat cs = concat ds ++ rest -> exists es, cs = ds ++ es /\ rest = concat es.
Proof.
  induction ds as [|d ds IH]; intros cs rest F G E.
  - exists cs. auto.
  - inversion G as [|? ? Hd Gs]; subst. destruct cs as [|c cs].
    + simpl in E. pose proof (utf8_char_nonempty _ Hd). apply (f_equal (@length _)) in E.
      simpl in E. rewrite !app_length in E. lia.
    + inversion F as [|? ? Hc Fs]; subst. simpl in E. rewrite <- app_assoc in E.
      destruct (utf8_char_prefix _ _ _ _ Hc Hd E) as (-> & E').
      destruct (IH cs rest Fs Gs E') as (es & -> & ->). exists es. auto.
Qed.

Lemma utf8_rest : forall a b n k, utf8_text (a ++ b) n -> utf8_text a k ->
  exists m, utf8_text b m /\ n = k + m.
Proof.
  intros a b n k (cs & F & E & ->) (ds & G & -> & ->).
  destruct (utf8_prefix ds cs b F G (eq_sym E)) as (es & -> & ->).
  exists (length es). rewrite app_length. split; [|reflexivity]. exists es.
  apply Forall_app in F. tauto.
Qed.

Lemma utf8_count : forall s n, utf8_text s n -> count_code_points s = n.
Proof. exact count_text_proof. Qed.

(** A string that is not empty has a width. *)
Lemma count_zero : forall s, count_code_points s = 0 -> s = [].
Proof.
  intros [|c s] H; [reflexivity|]. exfalso. unfold count_code_points in H.
  destruct (count_cp_cases (length (c :: s)) (length (c :: s)) 0 (c :: s) (le_n _))
    as [(cs & F & E)|[(cs & t & F & T & E)|B]].
  - assert (X : count_code_points (c :: s) = length cs) by (apply count_text_proof; exists cs; auto).
    unfold count_code_points in X. rewrite X in H. destruct cs; [discriminate E|discriminate H].
  - assert (X : count_code_points (concat cs ++ t) = S (length cs)).
    { apply count_truncated_proof; [|exact T]. exists cs. auto. }
    rewrite <- E in X. unfold count_code_points in X. rewrite X in H. discriminate.
  - rewrite B in H. discriminate.
Qed.

(** An ASCII character is not part of a longer code point. *)
Lemma utf8_ascii_split : forall a c b n, byte_between 0 127 c -> utf8_text (a ++ c :: b) n ->
  exists k m, utf8_text a k /\ utf8_text b m.
Proof.
  intros a c b n Hc (cs & F & E & ->). revert a E.
  induction F as [|ch cs Hch F IH]; intros a E; [destruct a; discriminate|].
  simpl in E. apply utf8_char_iff in Hch. destruct Hch as (d & r & -> & L & C).
  destruct a as [|x a].
  - simpl in E. injection E as <- E. assert (L1 : lead_len c = 1).
    { unfold lead_len, byte_between in *. leb_cases. }
    rewrite L1 in L. destruct r; [|discriminate]. simpl in E. subst b.
    exists 0, (length cs). split; [apply utf8_nil|]. exists cs. auto.
  - simpl in E. injection E as <- E.
    assert (X : exists a', a = r ++ a' /\ a' ++ c :: b = concat cs).
    { clear - E C Hc. revert a E. induction r as [|y r IHr]; intros a E; [exists a; auto|].
      destruct a as [|z a]; simpl in E.
      - injection E as -> E. exfalso. assert (Y : is_utf8_continuation y = true) by (apply C; left; reflexivity).
        apply continuation_spec in Y. unfold byte_between in *. lia.
      - injection E as -> E. destruct (IHr (fun x Hx => C x (or_intror Hx)) a E) as (a' & -> & E').
        exists a'. auto. }
    destruct X as (a' & -> & E'). destruct (IH a' E') as (k & m & (ds & G & -> & ->) & Hb).
    exists (S (length ds)), m. split; [|exact Hb]. exists ((x :: r) :: ds). split; [|split; reflexivity].
    constructor; [|exact G]. apply utf8_char_iff. exists x, r. auto.
Qed.

Lemma utf8_one : forall c, byte_between 0 127 c -> utf8_text [c] 1.
Proof. intros c H. exists [[c]]. split; [constructor; [apply utf8_1; exact H|constructor]|auto]. Qed.

(** ** The default rule *)

Lemma skip_back_char : forall pre ch rest k, utf8_char ch -> k < length ch ->
  skip_back (pre ++ ch ++ rest) (length pre + k) = Some (length pre).
Proof.
  intros pre ch rest k H. apply utf8_char_iff in H. destruct H as (c & r & -> & L & C).
  assert (Nc : is_utf8_continuation c = false).
  { destruct (is_utf8_continuation c) eqn:E; [|reflexivity]. apply continuation_spec in E.
    unfold lead_len, byte_between in *. exfalso. revert L. leb_cases. }
  induction k as [|k IH]; intros Hk.
  - rewrite Nat.add_0_r. destruct (length pre) eqn:El; cbn [skip_back].
    + destruct pre; [|discriminate]. simpl. rewrite Nc. reflexivity.
    + rewrite <- El. rewrite nth_error_app2 by lia. rewrite Nat.sub_diag. simpl. rewrite Nc. reflexivity.
  - assert (E : nth_error (pre ++ (c :: r) ++ rest) (length pre + S k) = nth_error r k).
    { rewrite nth_error_app2 by lia. replace (length pre + S k - length pre) with (S k) by lia. simpl.
      simpl in Hk. rewrite nth_error_app1 by lia. reflexivity. }
    rewrite Nat.add_succ_r in *. cbn [skip_back]. rewrite E.
    destruct (nth_error r k) as [y|] eqn:Ey.
    + rewrite (C y (nth_error_In _ _ Ey)). apply IH. simpl in *. lia.
    + apply nth_error_None in Ey. simpl in Hk. lia.
Qed.

(** Where the n-th code point begins, for all byte strings. *)
Lemma find_nth_loop_cases : forall k s n i count total, length s <= k -> count <= n ->
  n < count_cp_loop total count 0 s -> n < total ->
  find_nth_loop n i count 0 s = Some n \/
  exists cs rest, Forall utf8_char cs /\ s = concat cs ++ rest /\ rest <> [] /\
    count + length cs = n /\ find_nth_loop n i count 0 s = Some (i + length (concat cs)).
Proof.
  induction k as [|k IH]; intros s n i count total Hk Hc H Ht.
  - destruct s; simpl in *; lia.
  - destruct s as [|c s]; [simpl in H; lia|].
    cbn [find_nth_loop]. destruct (Nat.eqb_spec count n) as [->|Nn].
    { right. exists [], (c :: s). rewrite Nat.add_0_r. simpl. split; [constructor|].
      split; [reflexivity|]. split; [discriminate|]. split; [lia|]. f_equal. lia. }
    cbn [count_cp_loop] in H. rewrite code_point_length_spec in H |- *.
    destruct (lead_len c) as [|l] eqn:L; [left; reflexivity|].
    assert (X : (exists r s', s = r ++ s' /\ length r = l /\
                   (forall x, In x r -> is_utf8_continuation x = true)) \/
                find_nth_loop n (S i) (S count) l s = Some n).
    { clear - l. remember (S i) as j eqn:Ej. clear Ej. revert s j. induction l as [|l IH]; intros s j.
      - left. exists [], s. split; [reflexivity|]. split; [reflexivity|intros x []].
      - destruct s as [|y s]; [right; reflexivity|]. cbn [find_nth_loop].
        destruct (is_utf8_continuation y) eqn:E; [|right; reflexivity].
        destruct (IH s (S j)) as [(r & s' & -> & <- & C)|X]; [|auto].
        left. exists (y :: r), s'. split; [reflexivity|]. split; [reflexivity|].
        intros x [<-|Hx]; auto. }
    destruct X as [(r & s' & -> & <- & C)|X]; [|left; exact X].
    rewrite count_cp_conts in H by exact C. rewrite find_nth_conts by exact C.
    simpl in Hk. rewrite app_length in Hk.
    destruct (IH s' n (S i + length r) (S count) total ltac:(lia) ltac:(lia) H Ht)
      as [X|(cs & rest & F & -> & Nr & Ec & X)]; [left; exact X|].
    right. exists ((c :: r) :: cs), rest. split.
    { constructor; [|exact F]. apply utf8_char_iff. exists c, r. auto. }
    split; [simpl; rewrite <- app_assoc; reflexivity|]. split; [exact Nr|]. split; [simpl; lia|].
    rewrite X. f_equal. simpl. rewrite app_length. lia.
Qed.

Lemma find_nth_cases : forall s n, n < count_code_points s ->
  (n < length s /\ find_nth_code_point s n = Some n) \/
  exists cs rest, Forall utf8_char cs /\ s = concat cs ++ rest /\ rest <> [] /\
    length cs = n /\ find_nth_code_point s n = Some (length (concat cs)).
Proof.
  intros s n H. pose proof (count_le_length_proof s). unfold find_nth_code_point.
  destruct (Nat.leb_spec (length s) n); [lia|].
  destruct (find_nth_loop_cases (length s) s n 0 0 (length s) (le_n _) (Nat.le_0_l _) H ltac:(lia))
    as [X|(cs & rest & F & E & Nr & Ec & X)].
  - left. auto.
  - right. exists cs, rest. auto.
Qed.

(** The positions that the default rule looks at. *)
Section Positions.
Variables (word : str) (ig : bool) (n : nat) (pos : nat -> nat).
Hypothesis Step : forall k, k < n -> step_back ig word (pos (S k)) = Some (pos k).
Hypothesis Pos : forall k, 0 < k -> 0 < pos k.
Hypothesis Inside : forall k, k <= n -> pos k < length word.

Lemma default_loop_ok : forall count min_pos, 0 < min_pos -> count <= n - 1 ->
  default_loop ig word min_pos count (pos count) = Some None \/
  exists k s, min_pos <= k <= n - 2 /\
    default_loop ig word min_pos count (pos count) = Some (Some (firstn (pos k) word, s, skipn (pos k) word)).
Proof.
  induction count as [|c IH]; intros min_pos Hm Hc; [left; reflexivity|].
  cbn [default_loop]. destruct (Nat.ltb_spec min_pos (S c)); [|left; reflexivity].
  rewrite Step by lia. destruct (pos c) as [|j] eqn:Ep; [pose proof (Pos c ltac:(lia)); lia|].
  pose proof (Inside c ltac:(lia)) as In_.
  destruct (nth_error word j) as [a|] eqn:Ea; [|apply nth_error_None in Ea; lia].
  destruct (nth_error word (S j)) as [b|] eqn:Eb; [|apply nth_error_None in Eb; lia].
  rewrite <- Ep in IH |- *.
  destruct (_ || _)%N; [apply IH; lia|].
  destruct (negb _); [right; exists c, None; split; [lia|reflexivity]|].
  destruct (negb _); [right; exists c, (Some c_dash); split; [lia|reflexivity]|].
  apply IH; lia.
Qed.

Lemma default_rule_ok : 2 < n -> find_nth_code_point word n = Some (pos n) -> (pos n =? n) = ig ->
  exists k s, 0 < k <= n - 1 /\ default_rule word n = TOk (firstn (pos k) word, s, skipn (pos k) word).
Proof.
  intros Hn F E. unfold default_rule. destruct (Nat.leb_spec n 2); [lia|]. rewrite F, E.
  replace (step_back ig word (pos n)) with (Some (pos (n - 1))).
  2:{ symmetry. replace (pos n) with (pos (S (n - 1))) by (f_equal; lia). apply Step. lia. }
  assert (Hm : 0 < (n + 2) / 3) by (apply Nat.div_str_pos; lia).
  destruct (default_loop_ok (n - 1) _ Hm (le_n _)) as [->|(k & s & Hk & ->)].
  - exists (n - 1), (Some c_dash). split; [lia|reflexivity].
  - exists k, s. split; [lia|reflexivity].
Qed.
End Positions.

(** A piece that is cut off: it fits together with its hyphen, it is not everything,
    and it does not end inside of a code point. *)
Definition good_cut (s w r : str) (h : option ascii) (n : nat) : Prop :=
  w ++ r = s /\ w <> [] /\ r <> [] /\
  count_code_points w + (match h with Some _ => 1 | None => 0 end) <= n /\
  (h = None \/ h = Some c_dash) /\
  forall k, utf8_text s k -> exists a b, utf8_text w a /\ utf8_text r b.

Lemma default_dash : forall ig word m c i w s r,
  default_loop ig word m c i = Some (Some (w, s, r)) -> s = None \/ s = Some c_dash.
Proof.
  induction c as [|c IH]; intros i w s r E; [discriminate|]. cbn [default_loop] in E.
  destruct (m <? S c); [|discriminate]. destruct (step_back ig word i) as [[|j]|]; try discriminate.
  destruct (nth_error word j); [|discriminate]. destruct (nth_error word (S j)); [|discriminate].
  destruct (_ || _)%N; [eapply IH; exact E|].
  destruct (negb _); [injection E as _ <- _; auto|].
  destruct (negb _); [injection E as _ <- _; auto|]. eapply IH; exact E.
Qed.

Lemma default_rule_dash : forall word n w s r, default_rule word n = TOk (w, s, r) ->
  s = None \/ s = Some c_dash.
Proof.
  intros word n w s r E. unfold default_rule in E. destruct (n <=? 2); [injection E as _ <- _; auto|].
  destruct (find_nth_code_point word n); [|injection E as _ <- _; auto].
  destruct (step_back _ _ _); [|discriminate].
  destruct (default_loop _ _ _ _ _) as [[[[w' s'] r']|]|] eqn:D; try discriminate.
  - injection E as <- <- <-. eapply default_dash; exact D.
  - injection E as _ <- _. auto.
Qed.

Lemma Forall_firstn : forall A (P : A -> Prop) k l, Forall P l -> Forall P (firstn k l).
Proof. intros A P k l H. rewrite <- (firstn_skipn k l) in H. apply Forall_app in H. tauto. Qed.

Lemma Forall_skipn : forall A (P : A -> Prop) k l, Forall P l -> Forall P (skipn k l).
Proof. intros A P k l H. rewrite <- (firstn_skipn k l) in H. apply Forall_app in H. tauto. Qed.

Lemma firstn_concat : forall (cs : list str) k rest, k <= length cs ->
  firstn (length (concat (firstn k cs))) (concat cs ++ rest) = concat (firstn k cs) /\
  skipn (length (concat (firstn k cs))) (concat cs ++ rest) = concat (skipn k cs) ++ rest.
Proof.
  intros cs k rest H. rewrite <- (firstn_skipn k cs) at 2 5. rewrite concat_app, <- app_assoc.
  rewrite firstn_app, firstn_all, Nat.sub_diag, skipn_app, skipn_all, Nat.sub_diag.
  simpl. rewrite app_nil_r. auto.
Qed.

Lemma default_cut : forall word n, 2 < n -> n < count_code_points word ->
  exists w s r, default_rule word n = TOk (w, s, r) /\ good_cut word w r s n.
Proof.
  intros word n Hn Hc.
  assert (Gen : forall k w s r, default_rule word n = TOk (w, s, r) -> w ++ r = word -> w <> [] -> r <> [] ->
    count_code_points w <= k -> 0 < k <= n - 1 ->
    (forall m, utf8_text word m -> exists a b, utf8_text w a /\ utf8_text r b) ->
    exists w s r, default_rule word n = TOk (w, s, r) /\ good_cut word w r s n).
  { intros k w s r E1 E2 E3 E4 E5 E6 E7. exists w, s, r. split; [exact E1|]. split; [exact E2|].
    split; [exact E3|]. split; [exact E4|]. split; [destruct s; lia|]. split; [|exact E7].
    eapply default_rule_dash; exact E1. }
  destruct (find_nth_cases word n Hc) as [(Hl & F)|(cs & rest & F & Ew & Nr & Lc & Fn)].
  - destruct (default_rule_ok word true n (fun k => k)) as (k & s & Hk & E); try assumption.
    + intros k Hk. reflexivity.
    + auto.
    + intros k Hk. lia.
    + apply Nat.eqb_refl.
    + eapply (Gen k); [exact E|apply firstn_skipn| | | |exact Hk|].
      * intros X. apply (f_equal (@length _)) in X. rewrite firstn_length in X. simpl in X. lia.
      * intros X. apply (f_equal (@length _)) in X. rewrite skipn_length in X. simpl in X. lia.
      * eapply Nat.le_trans; [apply count_le_length_proof|]. rewrite firstn_length. lia.
      * intros m (ds & G & Ed & ->). subst word. rewrite find_nth_proof in F by exact G.
        destruct (Nat.ltb_spec n (length ds)) as [Hd|Hd]; [|discriminate]. injection F as F.
        (* the first n code points are single bytes *)
        assert (X : forall j, j <= n -> length (concat (firstn j ds)) = j).
        { intros j Hj. pose proof (concat_length_ge (firstn j ds) (Forall_firstn _ _ _ _ G)) as A1.
          rewrite firstn_length in A1.
          assert (A2 : length (concat (firstn n ds)) = length (concat (firstn j ds)) + length (concat (firstn (n - j) (skipn j ds)))).
          { rewrite <- app_length, <- concat_app. f_equal. f_equal. rewrite <- (firstn_skipn j ds) at 1.
            rewrite firstn_app, firstn_length, firstn_firstn.
            replace (Nat.min n j) with j by lia. f_equal. f_equal. lia. }
          pose proof (concat_length_ge (firstn (n - j) (skipn j ds)) (Forall_firstn _ _ _ _ (Forall_skipn _ _ _ _ G))) as A3.
          rewrite firstn_length, skipn_length in A3. lia. }
        destruct (firstn_concat ds k [] ltac:(lia)) as (Y1 & Y2). rewrite app_nil_r in Y1, Y2.
        rewrite X in Y1, Y2 by lia. rewrite app_nil_r in Y2. rewrite Y1, Y2.
        exists (length (firstn k ds)), (length (skipn k ds)). split.
        -- exists (firstn k ds). split; [apply Forall_firstn; exact G|auto].
        -- exists (skipn k ds). split; [apply Forall_skipn; exact G|auto].
  - set (pos := fun k => length (concat (firstn k cs))).
    assert (Ep : pos n = length (concat cs)) by (unfold pos; rewrite <- Lc, firstn_all; reflexivity).
    assert (Pl : forall k, k <= n -> k <= pos k).
    { intros k Hk. unfold pos. pose proof (concat_length_ge (firstn k cs) (Forall_firstn _ _ _ _ F)) as A.
      rewrite firstn_length in A. lia. }
    destruct (pos n =? n) eqn:Eig.
    + (* single bytes *)
      assert (Fn' : find_nth_code_point word n = Some n) by (rewrite Fn; f_equal; rewrite <- Ep; apply Nat.eqb_eq; exact Eig).
      destruct (default_rule_ok word true n (fun k => k)) as (k & s & Hk & E); try assumption.
      * intros k Hk. reflexivity.
      * auto.
      * intros k Hk. pose proof (count_le_length_proof word). lia.
      * apply Nat.eqb_refl.
      * pose proof (count_le_length_proof word) as Hl.
        assert (X : forall j, j <= n -> pos j = j).
        { intros j Hj. apply Nat.eqb_eq in Eig. pose proof (Pl j Hj) as A1.
          assert (A2 : pos n = pos j + length (concat (skipn j cs))).
          { unfold pos. rewrite <- Lc, firstn_all. rewrite <- (firstn_skipn j cs) at 1.
            rewrite concat_app, app_length. reflexivity. }
          pose proof (concat_length_ge (skipn j cs) (Forall_skipn _ _ _ _ F)) as A3.
          rewrite skipn_length in A3. lia. }
        destruct (firstn_concat cs k rest ltac:(lia)) as (Y1 & Y2). fold (pos k) in Y1, Y2.
        rewrite (X k) in Y1, Y2 by lia. rewrite <- Ew in Y1, Y2.
        eapply (Gen k); [exact E|apply firstn_skipn| | | |exact Hk|].
        -- intros Z. apply (f_equal (@length _)) in Z. rewrite firstn_length in Z. simpl in Z. lia.
        -- intros Z. apply (f_equal (@length _)) in Z. rewrite skipn_length in Z. simpl in Z. lia.
        -- eapply Nat.le_trans; [apply count_le_length_proof|]. rewrite firstn_length. lia.
        -- intros m Hm. rewrite <- (firstn_skipn k word) in Hm. rewrite Y1 in Hm |- *.
           assert (U : utf8_text (concat (firstn k cs)) (length (firstn k cs))).
           { exists (firstn k cs). split; [apply Forall_firstn; exact F|auto]. }
           destruct (utf8_rest _ _ _ _ Hm U) as (b & Hb & _). eauto.
    + destruct (default_rule_ok word false n pos) as (k & s & Hk & E); try assumption.
      * intros k Hk. unfold pos. rewrite Ew.
        destruct (nth_error cs k) as [ch|] eqn:Ek; [|apply nth_error_None in Ek; lia].
        apply nth_error_split in Ek. destruct Ek as (l1 & l2 & -> & <-).
        assert (Hch : utf8_char ch) by (apply Forall_elt in F; exact F).
        rewrite firstn_app, firstn_all2 by lia.
        replace (S (length l1) - length l1) with 1 by lia. rewrite firstn_app, firstn_all, Nat.sub_diag.
        simpl. rewrite !concat_app, app_nil_r. simpl. rewrite app_nil_r, app_length.
        pose proof (utf8_char_nonempty _ Hch) as Ln.
        destruct (length ch) as [|lc] eqn:El; [lia|]. rewrite Nat.add_succ_r. cbn [step_back].
        rewrite <- !app_assoc. apply skip_back_char; [exact Hch|lia].
      * intros k Hk. pose proof (Pl (Nat.min k n) ltac:(lia)) as A.
        assert (B : pos (Nat.min k n) <= pos k).
        { destruct (Nat.le_gt_cases k n); [rewrite Nat.min_l by lia; lia|].
          rewrite Nat.min_r by lia. unfold pos. rewrite <- Lc, firstn_all, (firstn_all2 (n := k)) by lia. lia. }
        lia.
      * intros k Hk. rewrite Ew, app_length. assert (0 < length rest) by (destruct rest; [congruence|simpl; lia]).
        assert (pos k <= length (concat cs)).
        { unfold pos. rewrite <- (firstn_skipn k cs) at 2. rewrite concat_app, app_length. lia. }
        lia.
      * rewrite Fn, Ep. reflexivity.
      * destruct (firstn_concat cs k rest ltac:(lia)) as (Y1 & Y2). fold (pos k) in Y1, Y2.
        rewrite <- Ew in Y1, Y2.
        assert (U : utf8_text (concat (firstn k cs)) (length (firstn k cs))).
        { exists (firstn k cs). split; [apply Forall_firstn; exact F|auto]. }
        eapply (Gen k); [exact E|apply firstn_skipn| | | |exact Hk|].
        -- rewrite Y1. intros Z. apply (f_equal (@length _)) in Z. fold (pos k) in Z.
           pose proof (Pl k ltac:(lia)). unfold pos in *. simpl in Z. lia.
        -- rewrite Y2. intros Z. apply app_eq_nil in Z. tauto.
        -- rewrite Y1, (utf8_count _ _ U), firstn_length. lia.
        -- intros m Hm. rewrite <- (firstn_skipn (pos k) word) in Hm. rewrite Y1 in Hm |- *.
           destruct (utf8_rest _ _ _ _ Hm U) as (b & Hb & _). eauto.
Qed.
