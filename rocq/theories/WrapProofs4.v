(** The layout of a text is determined (C78). *)
From Verif Require Import Base BaseProofs MStrings MText SStrings SText SFormat SWrap StrProofs SplitProofs
  RuleProofs PlaceProofs TextProofs LayoutProofs LayoutProofs2 WidthProofs IndentProofs TextApi WrapProofs
  WrapProofs2 WrapProofs3.
Open Scope nat_scope.

Lemma utf8_unique : forall s n m, utf8_text s n -> utf8_text s m -> n = m.
Proof. intros s n m A B. rewrite <- (utf8_count _ _ A). exact (utf8_count _ _ B). Qed.

Lemma no_spaces_all : forall s, length (without_spaces s) = 0 -> forall c, In c s -> c = c_space.
Proof.
  induction s as [|d s IH]; intros H c Hc; [destruct Hc|]. unfold without_spaces in *. cbn [filter] in H.
  destruct (Ascii.eqb_spec d c_space) as [->|N]; cbn [negb] in H; [|simpl in H; lia].
  destruct Hc as [<-|Hc]; [reflexivity|]. apply IH; assumption.
Qed.

Lemma break_unique : forall rule i h1 h2, ~ bad_rule rule -> last_char rule <> Some c_space ->
  rule_break rule i h1 -> rule_break rule i h2 -> h1 = h2.
Proof.
  intros rule i h1 h2 NB NS.
  assert (One : forall a b, rule = a ++ c_space :: b -> length (without_spaces a) = length (without_spaces rule) -> False).
  { intros a b E L. rewrite E, without_spaces_app, app_length in L.
    assert (Z : length (without_spaces (c_space :: b)) = 0) by lia.
    pose proof (no_spaces_all _ Z) as Al. apply NS. rewrite E. rewrite last_char_app2 by discriminate.
    destruct (exists_last (l := c_space :: b)) as (b' & d & Eb); [discriminate|]. rewrite Eb, last_char_app. f_equal.
    apply Al. rewrite Eb. apply in_or_app. right. left. reflexivity. }
  assert (Two : forall a1 b1 a2 b2, rule = a1 ++ c_space :: b1 -> rule = a2 ++ c_space :: b2 ->
    length (without_spaces a1) = length (without_spaces a2) -> length a1 < length a2 -> False).
  { intros a1 b1 a2 b2 E1 E2 L Lt.
    assert (X : exists m, a2 = a1 ++ c_space :: m).
    { exists (skipn (S (length a1)) a2). rewrite E1 in E2. assert (F := f_equal (firstn (S (length a1))) E2).
      rewrite !firstn_app in F. rewrite firstn_all2 in F by lia.
      replace (S (length a1) - length a1) with 1 in F by lia. replace (S (length a1) - length a2) with 0 in F by lia.
      simpl (firstn 0 _) in F. rewrite app_nil_r in F. change (firstn 1 (c_space :: b1)) with [c_space] in F.
      change (c_space :: skipn (S (length a1)) a2) with ([c_space] ++ skipn (S (length a1)) a2).
      rewrite app_assoc, F. symmetry. apply firstn_skipn. }
    destruct X as (m & ->). rewrite without_spaces_app, app_length in L.
    assert (Z : length (without_spaces (c_space :: m)) = 0) by lia.
    pose proof (no_spaces_all _ Z) as Al. apply NB. right. rewrite <- app_assoc in E2. destruct m as [|d m].
    - exists a1, b2. exact E2.
    - assert (d = c_space) by (apply Al; right; left; reflexivity). subst d. exists a1, (m ++ c_space :: b2). exact E2. }
  intros [(a1 & b1 & E1 & I1 & ->)|(I1 & ->)] [(a2 & b2 & E2 & I2 & ->)|(I2 & ->)].
  - destruct (Nat.lt_trichotomy (length a1) (length a2)) as [L|[L|L]].
    + exfalso. apply (Two a1 b1 a2 b2); auto; congruence.
    + assert (X : a1 = a2) by (rewrite E1 in E2; apply app_same_length in E2; [tauto|exact L]). rewrite X. reflexivity.
    + exfalso. apply (Two a2 b2 a1 b1); auto; congruence.
  - exfalso. apply (One a1 b1); congruence.
  - exfalso. apply (One a2 b2); congruence.
  - reflexivity.
Qed.

Section Unique.
Variables (rules : list str) (width : nat).
Hypothesis HT : trimmed_rules rules.
Hypothesis HB : forall r, In r rules -> ~ bad_rule r.

Lemma app_len_unique : forall (w r w' r' : str), w ++ r = w' ++ r' -> length w = length w' -> w = w' /\ r = r'.
Proof. intros w r w' r' E L. apply app_same_length; assumption. Qed.

Lemma by_rule_unique : forall word before s room w h r w' h' r',
  by_rule rules word before s room w h r -> by_rule rules word before s room w' h' r' -> w = w' /\ h = h' /\ r = r'.
Proof.
  intros word before s room w h r w' h' r' (U & M) (U' & M').
  assert (L : length w = length w') by (apply M in U'; apply M' in U; lia).
  destruct U as (rule & F & E & _ & B & _). destruct U' as (rule' & F' & E' & _ & B' & _).
  rewrite <- (first_rule_unique _ _ _ _ F F') in B'. rewrite <- L in B'.
  destruct (app_len_unique w r w' r') as (-> & ->); [congruence|exact L|].
  split; [reflexivity|]. split; [|reflexivity].
  assert (IR : In rule rules) by (destruct F as (l1 & l2 & -> & _); apply in_or_app; right; left; reflexivity).
  eapply break_unique; [apply HB; exact IR|apply HT; exact IR|exact B|exact B'].
Qed.

Lemma good_place_unique : forall s i h h', good_place s i h -> good_place s i h' -> h = h'.
Proof.
  intros s i h h' A B. apply place_kind_spec in A. apply place_kind_spec in B. rewrite A in B. injection B as ->. reflexivity.
Qed.

Lemma prefix_unique : forall s n w r w' r' i, utf8_text s n -> w ++ r = s -> w' ++ r' = s ->
  utf8_text w i -> utf8_text w' i -> w = w' /\ r = r'.
Proof.
  intros s n w r w' r' i (cs & Fc & Es & _) E E' U U'.
  destruct (prefix_pos cs w r i Fc) as (_ & L); [congruence|exact U|].
  destruct (prefix_pos cs w' r' i Fc) as (_ & L'); [congruence|exact U'|].
  apply app_len_unique; congruence.
Qed.

Lemma by_default_unique : forall s n room w h r w' h' r', utf8_text s n ->
  by_default s room w h r -> by_default s room w' h' r' -> w = w' /\ h = h' /\ r = r'.
Proof.
  intros s n room w h r w' h' r' US (E & i & Ui & H) (E' & i' & Ui' & H').
  assert (Same : i = i' /\ h = h').
  { destruct H as [(A1 & A2 & A3)|(B1 & B2 & B3 & B4)]; destruct H' as [(A1' & A2' & A3')|(B1' & B2' & B3' & B4')].
    - split; congruence.
    - exfalso. apply (A3 w' r' i' h'); assumption || lia.
    - exfalso. apply (A3' w r i h); assumption || lia.
    - destruct (Nat.lt_trichotomy i i') as [L|[L|L]].
      + exfalso. apply (B4 w' r' i' h'); assumption || lia.
      + subst i'. split; [reflexivity|]. destruct (prefix_unique _ _ _ _ _ _ _ US E E' Ui Ui') as (X & _).
        rewrite <- X in B3'. eapply good_place_unique; eassumption.
      + exfalso. apply (B4' w r i h); assumption || lia. }
  destruct Same as (<- & <-). destruct (prefix_unique _ _ _ _ _ _ _ US E E' Ui Ui') as (-> & ->). auto.
Qed.

Lemma put_unique : forall indent word fresh col gap before s out e, put rules width indent word fresh col gap before s out e ->
  forall out' e', put rules width indent word fresh col gap before s out' e' -> out = out' /\ e = e'.
Proof.
  intros indent word fresh col gap before s out e H.
  induction H as [fresh col gap before s n U L|fresh col gap before s n w h r out e U L BR P IH
    |col gap before s n out e U L NR P IH|col gap before s n w h r out e U L NR R BD P IH|col gap before s n U L NR R];
    intros out' e' H'; inversion H'; subst;
    repeat match goal with
    | A : utf8_text s ?a, B : utf8_text s ?b |- _ =>
        assert (a = b) by (eapply utf8_unique; eassumption); clear B; subst
    end; try lia; auto;
    try (exfalso; match goal with A : by_rule _ _ _ _ _ _ _ _, B : no_rule _ _ _ _ _ |- _ => destruct A as (A & _); exact (B _ _ _ A) end).
  - match goal with A : by_rule _ _ _ _ _ w h r, B : by_rule _ _ _ _ _ ?w' ?h' ?r' |- _ =>
      destruct (by_rule_unique _ _ _ _ _ _ _ _ _ _ A B) as (<- & <- & <-) end.
    match goal with B : put _ _ _ _ true 0 _ (before ++ w) r _ _ |- _ => destruct (IH _ _ B) as (<- & <-) end. auto.
  - match goal with B : put _ _ _ _ true 0 _ before s _ _ |- _ => destruct (IH _ _ B) as (<- & <-) end. auto.
  - match goal with A : by_default _ _ w h r, B : by_default _ _ ?w' ?h' ?r' |- _ =>
      destruct (by_default_unique _ _ _ _ _ _ _ _ _ U A B) as (<- & <- & <-) end.
    match goal with B : put _ _ _ _ true 0 _ (before ++ w) r _ _ |- _ => destruct (IH _ _ B) as (<- & <-) end. auto.
Qed.

Lemma put_words_unique : forall indent more col out e, put_words rules width indent col more out e ->
  forall out' e', put_words rules width indent col more out' e' -> out = out' /\ e = e'.
Proof.
  intros indent. induction more as [|[g word] more IH]; intros col out e H out' e' H'; inversion H; inversion H'; subst; auto.
  match goal with A : put _ _ _ _ _ _ _ _ _ ?o ?x, B : put _ _ _ _ _ _ _ _ _ ?o' ?y |- _ =>
    destruct (put_unique _ _ _ _ _ _ _ _ _ A _ _ B) as (<- & <-) end.
  match goal with A : put_words _ _ _ _ more ?o ?x, B : put_words _ _ _ _ more ?o' ?y |- ?o0 ++ ?o = ?o0 ++ ?o' /\ _ =>
    destruct (IH _ _ _ A _ _ B) as (<- & <-) end. auto.
Qed.

Lemma put_line_unique : forall base l out out', put_line rules width base l out -> put_line rules width base l out' -> out = out'.
Proof.
  intros base l out out' H H'. inversion H; subst; inversion H'; subst; auto.
  - match goal with A : put _ _ _ _ _ _ _ _ _ ?o ?x, B : put _ _ _ _ _ _ _ _ _ ?o' ?y |- ?o ++ _ = ?o' ++ _ =>
      destruct (put_unique _ _ _ _ _ _ _ _ _ A _ _ B) as (<- & <-) end.
    match goal with A : put_words _ _ _ _ ?m ?o ?x, B : put_words _ _ _ _ ?m ?o' ?y |- _ ++ ?o = _ ++ ?o' =>
      destruct (put_words_unique _ _ _ _ _ A _ _ B) as (<- & <-) end. reflexivity.
  - match goal with A : put _ _ _ _ _ _ _ _ _ ?o ?x, B : put _ _ _ _ _ _ _ _ _ ?o' ?y |- ?o ++ _ = ?o' ++ _ =>
      destruct (put_unique _ _ _ _ _ _ _ _ _ A _ _ B) as (<- & <-) end.
    match goal with A : put _ _ _ _ _ _ _ _ _ ?o ?x, B : put _ _ _ _ _ _ _ _ _ ?o' ?y |- _ ++ ?o ++ _ = _ ++ ?o' ++ _ =>
      destruct (put_unique _ _ _ _ _ _ _ _ _ A _ _ B) as (<- & <-) end.
    match goal with A : put_words _ _ _ _ ?m ?o ?x, B : put_words _ _ _ _ ?m ?o' ?y |- _ ++ _ ++ ?o = _ ++ _ ++ ?o' =>
      destruct (put_words_unique _ _ _ _ _ A _ _ B) as (<- & <-) end. reflexivity.
Qed.

Lemma put_text_unique : forall base ls out, put_text rules width base ls out ->
  forall out', put_text rules width base ls out' -> out = out'.
Proof.
  intros base ls out H. induction H as [x out P|x l out rest P PT IH]; intros out' H'.
  - inversion H'; subst.
    + eapply put_line_unique; eassumption.
    + match goal with X : put_text _ _ _ [] _ |- _ => inversion X end.
  - inversion H'; subst.
    + inversion PT.
    + match goal with A : put_line _ _ _ x ?o |- _ = ?o ++ _ => rewrite (put_line_unique _ _ _ _ P A) end.
      match goal with A : put_text _ _ _ l ?o |- _ = _ ++ _ :: ?o => rewrite (IH _ A) end. reflexivity.
Qed.

Lemma put_beside_unique : forall base col gap ls out, put_beside rules width base col gap ls out ->
  forall out', put_beside rules width base col gap ls out' -> out = out'.
Proof.
  intros base col gap ls out H out' H'. inversion H; subst; inversion H'; subst;
    try (match goal with X : put_text _ _ _ [] _ |- _ => inversion X end);
    (match goal with A : put _ _ _ _ _ _ _ _ _ ?o ?x, B : put _ _ _ _ _ _ _ _ _ ?o' ?y |- ?o ++ _ = ?o' ++ _ =>
      destruct (put_unique _ _ _ _ _ _ _ _ _ A _ _ B) as (<- & <-) end).
  - match goal with A : put_words _ _ _ _ ?m ?o ?x, B : put_words _ _ _ _ ?m ?o' ?y |- _ ++ ?o = _ ++ ?o' =>
      destruct (put_words_unique _ _ _ _ _ A _ _ B) as (<- & <-) end. reflexivity.
  - match goal with A : put_words _ _ _ _ ?m ?o ?x, B : put_words _ _ _ _ ?m ?o' ?y |- _ ++ ?o ++ _ = _ ++ ?o' ++ _ =>
      destruct (put_words_unique _ _ _ _ _ A _ _ B) as (<- & <-) end.
    match goal with A : put_text _ _ _ ?l ?o, B : put_text _ _ _ ?l ?o' |- _ ++ _ ++ _ :: ?o = _ ++ _ ++ _ :: ?o' =>
      rewrite (put_text_unique _ _ _ A _ B) end. reflexivity.
Qed.
End Unique.

(** ** Paragraphs *)

Lemma no_rule_short : forall rules word before s room w h r, (forall x, In x rules -> ~ rule_for x word) ->
  ~ usable rules word before s room w h r.
Proof.
  intros rules word before s room w h r N (rule & (l1 & l2 & -> & F & _) & _).
  apply (N rule); [apply in_or_app; right; left; reflexivity|exact F].
Qed.

Lemma put_short : forall rules width indent word n fresh col gap out e, indent < width ->
  short_word rules (width - indent) word n -> (fresh = true -> col = 0 /\ gap = indent) ->
  put rules width indent word fresh col gap [] word out e ->
  (col + gap + n <= width /\ out = blanks gap ++ word /\ e = col + gap + n) \/
  (fresh = false /\ width < col + gap + n /\ out = c_lf :: blanks indent ++ word /\ e = indent + n).
Proof.
  intros rules width indent word n fresh col gap out e LI (Nw & Hw & U & L & NR) HF P.
  assert (Q : forall m, utf8_text word m -> m = n) by (intros m A; eapply utf8_unique; eassumption).
  inversion P as [? ? ? ? ? m Um Lm|? ? ? ? ? m ? ? ? ? ? Um Lm|? ? ? ? m ? ? Um Lm|? ? ? ? m ? ? ? ? ? Um Lm|? ? ? ? m Um Lm]; subst;
    pose proof (Q m Um); subst m.
  - left. auto.
  - match goal with A : by_rule _ _ _ _ _ _ _ _ |- _ => destruct A as (A & _); exfalso; exact (no_rule_short _ _ _ _ _ _ _ _ NR A) end.
  - right. split; [reflexivity|]. split; [assumption|].
    match goal with A : put _ _ _ _ true 0 _ _ _ _ _ |- _ =>
      inversion A as [? ? ? ? ? m2 Um2 Lm2|? ? ? ? ? m2 ? ? ? ? ? Um2 Lm2|? ? ? ? m2 ? ? Um2 Lm2|? ? ? ? m2 ? ? ? ? ? Um2 Lm2|? ? ? ? m2 Um2 Lm2];
      subst; pose proof (Q m2 Um2); subst m2 end; try lia; auto.
  - destruct (HF eq_refl). lia.
  - destruct (HF eq_refl). lia.
Qed.

Definition more_of (l : list (nat * str * nat)) : list (gap * str) := map (fun x => (Spaces (fst (fst x)), snd (fst x))) l.

Lemma more_fill : forall rules width indent l col out e, indent < width ->
  (forall k w n, In (k, w, n) l -> short_word rules (width - indent) w n) ->
  put_words rules width indent col (more_of l) out e -> out = fill width indent col l.
Proof.
  intros rules width indent. induction l as [|[[k w] n] l IH]; intros col out e LI HS P; inversion P; subst; [reflexivity|].
  cbn [fill]. assert (D : false = true -> col = 0 /\ k = indent) by discriminate.
  cbn [gap_width fst snd] in *.
  match goal with A : put _ _ _ _ _ _ _ _ _ _ _ |- _ =>
    destruct (put_short _ _ _ _ n _ _ _ _ _ LI (HS k w n (or_introl eq_refl)) D A) as [(L & -> & ->)|(_ & L & -> & ->)] end.
  - destruct (Nat.leb_spec (col + k + n) width); [|lia].
    match goal with A : put_words _ _ _ _ (more_of l) ?o _ |- _ =>
      rewrite (IH _ _ _ LI (fun k0 w0 n0 H0 => HS k0 w0 n0 (or_intror H0)) A) end.
    rewrite <- app_assoc. reflexivity.
  - destruct (Nat.leb_spec (col + k + n) width); [lia|].
    match goal with A : put_words _ _ _ _ (more_of l) ?o _ |- _ =>
      rewrite (IH _ _ _ LI (fun k0 w0 n0 H0 => HS k0 w0 n0 (or_intror H0)) A) end.
    cbn [app]. rewrite <- app_assoc. reflexivity.
Qed.

Lemma paragraph_text : forall word l, paragraph word l = text_of [Line None None word (more_of l)].
Proof.
  intros word l. cbn [text_of line_text app]. unfold paragraph, more_text, more_of. rewrite map_map. reflexivity.
Qed.

Lemma short_good : forall rules room word n, short_word rules room word n -> good_word word.
Proof. intros rules room word n (A & B & C & _). split; [exact A|]. split; [exact B|]. eauto. Qed.

Lemma unix_plain : forall s, ~ In c_cr s -> unix s = s.
Proof. intros s H. rewrite <- (app_nil_r s) at 1. rewrite unix_app by exact H. apply app_nil_r. Qed.

Lemma C78_paragraph_proof : forall width rules f ops f1 n word k l, utf8_rules rules -> trimmed_rules rules ->
  text_formatter width rules = TOk f -> ~ ops_marker ops -> run_ops ops f = TOk f1 -> at_line_start (shown f1) ->
  n < width -> ~ is_marker word -> short_word rules (width - n) word k ->
  (forall g w m, In (g, w, m) l -> 0 < g /\ short_word rules (width - n) w m) ->
  exists f2, run_ops [OpPush (Some n); OpWords (paragraph word l)] f1 = TOk f2 /\
    shown f2 = shown f1 ++ blanks n ++ word ++ fill width n (n + k) l.
Proof.
  intros width rules f ops f1 n word k l HU HT EF NM ER LS Ln Nm HW HL.
  assert (GM : forall g w, In (g, w) (more_of l) -> good_gap g /\ good_word w).
  { intros g w X. unfold more_of in X. apply in_map_iff in X. destruct X as ([[g' w'] m] & E & X). cbn in E. injection E as <- <-.
    destruct (HL _ _ _ X) as (A & B). split; [exact A|eapply short_good; exact B]. }
  assert (NC : ~ In c_cr (paragraph word l)).
  { intros X. unfold paragraph in X. apply in_app_or in X. destruct X as [X|X].
    - destruct HW as (_ & W & _). apply W in X. discriminate.
    - apply in_concat in X. destruct X as (y & Y & X). apply in_map_iff in Y. destruct Y as ([[g w] m] & <- & Y). cbn in X.
      apply in_app_or in X. destruct X as [X|X]; [apply repeat_spec in X; discriminate|].
      destruct (HL _ _ _ Y) as (_ & _ & W & _). apply W in X. discriminate. }
  destruct (C78_text_proof width rules f ops f1 n (paragraph word l) [Line None None word (more_of l)]) as (f2 & out & E2 & Sh & P);
    try assumption; try discriminate.
  { intros x [<-|[]]. split; [exact I|]. split; [exact Nm|]. split; [eapply short_good; exact HW|exact GM]. }
  { rewrite unix_plain by exact NC. apply paragraph_text. }
  exists f2. split; [exact E2|]. rewrite Sh. f_equal. inversion P; subst;
    [|match goal with X : put_text _ _ _ [] _ |- _ => inversion X end].
  match goal with X : put_line _ _ _ _ _ |- _ => inversion X; subst end.
  match goal with A : put _ _ _ _ _ _ _ _ _ _ _ |- _ =>
    destruct (put_short _ _ _ _ k _ _ _ _ _ Ln HW (fun _ => conj eq_refl eq_refl) A) as [(L & -> & ->)|(X & _)]; [|discriminate] end.
  match goal with A : put_words _ _ _ _ (more_of l) ?o _ |- _ =>
    rewrite (more_fill _ _ _ _ _ _ _ Ln (fun k0 w0 n0 H0 => proj2 (HL k0 w0 n0 H0)) A) end.
  rewrite <- app_assoc. reflexivity.
Qed.
