(** Proofs about how words are put on lines (C78). *)
From Verif Require Import Base BaseProofs MStrings MText SStrings SText SFormat SWrap StrProofs SplitProofs
  RuleProofs PlaceProofs TextProofs TextApi.
Open Scope nat_scope.

Definition wshown (w : writer) : str := w_out w ++ w_line w.

(** The state of a writer in front of a word. *)
Record ready (width indent : nat) (fresh : bool) (col gap : nat) (w : writer) : Prop := mk_ready {
  rd_width : w_line_width w = width;
  rd_indent : w_indent w = indent;
  rd_col : w_current w = col;
  rd_gap : current_width w = col + gap;
  rd_fresh : fresh = true -> w_line w = [] /\ w_spaces w = 0 /\ col = 0 /\ gap = indent;
  rd_used : fresh = false -> w_line w <> []
}.

(** The state after a word. *)
Record stopped (width indent e : nat) (w : writer) : Prop := mk_stopped {
  st_width : w_line_width w = width;
  st_indent : w_indent w = indent;
  st_col : w_current w = e;
  st_spaces : w_spaces w = 0;
  st_line : w_line w <> [];
  st_le : indent <= e
}.

Lemma usable_iff : forall rules word before s n w h r, word = before ++ s ->
  usable rules word before s n w h r <->
  exists rule i, first_rule rules word rule /\ rule_break rule i h /\ length before + 1 < i <= length word /\
    w = between word (length before) i /\ r = skipn i word /\ fits w h n.
Proof.
  intros rules word before s n w h r E. unfold usable.
  assert (Es : skipn (length before) word = s) by (rewrite E, skipn_app, skipn_all, Nat.sub_diag; reflexivity).
  split.
  - intros (rule & F & Ew & L & B & Fi). exists rule, (length before + length w).
    assert (Lw : length before + length w <= length word) by (rewrite E, <- Ew, !app_length; lia).
    repeat (split; [assumption || lia|]). split; [|split; [|exact Fi]].
    + unfold between. rewrite Es, <- Ew. replace (length before + length w - length before) with (length w) by lia.
      rewrite firstn_app, firstn_all, Nat.sub_diag. simpl. symmetry. apply app_nil_r.
    + rewrite E, <- Ew, app_assoc, skipn_app, skipn_all2 by (rewrite app_length; lia).
      rewrite app_length, Nat.sub_diag. reflexivity.
  - intros (rule & i & F & B & L & Ew & Er & Fi). exists rule.
    assert (Lw : length w = i - length before).
    { rewrite Ew. unfold between. rewrite Es, firstn_length. assert (length word = length before + length s) by (rewrite E, app_length; lia). lia. }
    split; [exact F|]. split.
    + rewrite Ew, Er. unfold between. rewrite <- Es. rewrite <- (firstn_skipn (i - length before) (skipn (length before) word)) at 2.
      f_equal. rewrite skipn_skipn. f_equal. lia.
    + split; [lia|]. split; [|exact Fi]. replace (length before + length w) with i by lia. exact B.
Qed.

Lemma on_writer_twice : forall g h f, on_writer g (on_writer h f) = on_writer (fun w => g (h w)) f.
Proof. reflexivity. Qed.

Lemma written_stopped : forall width indent fresh col gap w s n, ready width indent fresh col gap w ->
  utf8_text s n -> s <> [] ->
  stopped width indent (col + gap + n) (written s w) /\ wshown (written s w) = wshown w ++ blanks gap ++ s.
Proof.
  intros width indent fresh col gap w s n [H1 H2 H3 H4 H5 H6] U Ns. split.
  - constructor; simpl; try assumption; try reflexivity.
    + rewrite H4, (utf8_count _ _ U). reflexivity.
    + intros X. apply app_eq_nil in X. destruct X as (_ & X). apply app_eq_nil in X. destruct X; auto.
    + assert (w_indent w <= current_width w) by (unfold current_width; lia). lia.
  - unfold wshown. simpl. rewrite H4, H3. replace (col + gap - col) with gap by lia. rewrite app_assoc. reflexivity.
Qed.

Lemma next_ready : forall width indent w, w_line_width w = width -> w_indent w = indent ->
  ready width indent true 0 indent (next w) /\ wshown (next w) = wshown w ++ [c_lf].
Proof.
  intros width indent w H1 H2. split.
  - constructor; simpl; try assumption; try reflexivity; try discriminate.
    + unfold current_width. simpl. lia.
    + auto.
  - unfold wshown, next, writer_newline, flush_writer, set_spaces. simpl. rewrite app_nil_r, app_assoc. reflexivity.
Qed.

Lemma dash_text : utf8_text [c_dash] 1.
Proof. apply utf8_one. unfold byte_between. vm_compute. lia. Qed.

Section Word.
Variables (rules : list str) (width indent : nat) (word : str).
Hypothesis HU : utf8_rules rules.
Hypothesis HT : trimmed_rules rules.

Lemma first_in : forall rule, first_rule rules word rule -> In rule rules.
Proof. intros rule (l1 & l2 & -> & _). apply in_or_app. right. left. reflexivity. Qed.

Lemma append_put : forall fuel f fresh col gap before s n k, measure s (f_writer f) < fuel ->
  add_words [] rules = TOk (f_rules f) ->
  ready width indent fresh col gap (f_writer f) -> word = before ++ s -> s <> [] ->
  utf8_text s n -> utf8_text before k ->
  exists w' out e, append_loop fuel word s f = TOk (on_writer (fun _ => w') f) /\
    put rules width indent word fresh col gap before s out e /\
    wshown w' = wshown (f_writer f) ++ out /\ stopped width indent e w'.
Proof.
  induction fuel as [|fuel IH]; intros f fresh col gap before s n k Hm HA HR Ew Ns Us Ub; [lia|].
  cbn [append_loop].
  assert (Rem : remaining_width (f_writer f) = width - (col + gap)).
  { unfold remaining_width. rewrite (rd_gap _ _ _ _ _ _ HR), (rd_width _ _ _ _ _ _ HR). lia. }
  assert (Cs := utf8_count _ _ Us).
  assert (Nz : n <> 0) by (intros ->; apply count_zero in Cs; auto).
  destruct (write_cases s (f_writer f)) as [(-> & L)|((w0 & ->) & L)]; rewrite Rem, Cs in L.
  { destruct (written_stopped _ _ _ _ _ _ s n HR Us Ns) as (St & Sh).
    exists (written s (f_writer f)), (blanks gap ++ s), (col + gap + n).
    split; [reflexivity|]. split; [|split; [exact Sh|exact St]].
    apply put_fits; [exact Us|]. lia. }
  assert (Es : length word - length s = length before) by (rewrite Ew, app_length; lia).
  assert (Er : skipn (length before) word = s) by (rewrite Ew, skipn_app, skipn_all, Nat.sub_diag; reflexivity).
  assert (Ef : firstn (length before) word = before)
    by (rewrite Ew, firstn_app, firstn_all, Nat.sub_diag; apply app_nil_r).
  assert (Lb : length before <= length word) by (rewrite Ew, app_length; lia).
  rewrite Es, Rem.
  (* a part of the word and a new line *)
  assert (Part : forall w h r a, w ++ r = s -> w <> [] -> r <> [] -> utf8_text w a ->
    a + length (hyphen_of h) <= width - (col + gap) -> (h = None \/ h = Some c_dash) ->
    exists f3 w' out e,
      newline (match h with
               | Some c => on_writer (fun x => snd (write [c] false x)) (on_writer (fun x => snd (write w false x)) f)
               | None => on_writer (fun x => snd (write w false x)) f
               end) = f3 /\
      append_loop fuel word r f3 = TOk (on_writer (fun _ => w') f) /\
      put rules width indent word true 0 indent (before ++ w) r out e /\
      wshown w' = wshown (f_writer f) ++ blanks gap ++ w ++ hyphen_of h ++ c_lf :: out /\ stopped width indent e w').
  { intros w h r a Ewr Nw Nr Uw La Hh.
    assert (Ur : exists b, utf8_text r b).
    { rewrite <- Ewr in Us. destruct (utf8_rest _ _ _ _ Us Uw) as (m & Um & _). eauto. }
    destruct Ur as (b & Ur).
    destruct (written_stopped _ _ _ _ _ _ w a HR Uw Nw) as (St & Sh).
    set (w1 := written w (f_writer f)) in *.
    assert (E1 : on_writer (fun x => snd (write w false x)) f = on_writer (fun _ => w1) f).
    { unfold on_writer. rewrite write_ok; [reflexivity|]. right. rewrite Rem, (utf8_count _ _ Uw).
      destruct h; simpl in La; lia. }
    set (w2 := match h with Some c => written [c] w1 | None => w1 end).
    assert (W2 : w_line_width w2 = width /\ w_indent w2 = indent /\ wshown w2 = wshown w1 ++ hyphen_of h).
    { destruct St as [S1 S2 S3 S4 S5 S6]. unfold w2. destruct h as [c|]; [|simpl; rewrite app_nil_r; auto].
      assert (RD : ready width indent false (col + gap + a) 0 w1).
      { constructor; try assumption; try discriminate; [|intros _; exact S5]. unfold current_width. rewrite S3, S4, S2. lia. }
      destruct Hh as [X|X]; [discriminate|]. injection X as ->.
      destruct (written_stopped _ _ _ _ _ _ [c_dash] 1 RD dash_text ltac:(discriminate)) as ([T1 T2 _ _ _ _] & T7).
      split; [exact T1|]. split; [exact T2|]. exact T7. }
    destruct W2 as (W21 & W22 & W23).
    destruct (next_ready _ _ _ W21 W22) as (Rn & Sn).
    assert (E2 : newline (match h with
               | Some c => on_writer (fun x => snd (write [c] false x)) (on_writer (fun x => snd (write w false x)) f)
               | None => on_writer (fun x => snd (write w false x)) f
               end) = on_writer (fun _ => next w2) f).
    { rewrite E1. unfold w2. destruct h as [c|]; [|reflexivity].
      unfold newline, on_writer, next. cbn [f_writer f_indents f_rules f_state]. rewrite write_ok; [reflexivity|]. right.
      unfold w1. rewrite remaining_written by (rewrite Rem, (utf8_count _ _ Uw); simpl in La; lia).
      rewrite Rem, (utf8_count _ _ Uw). assert (count_code_points [c] <= 1) by apply (count_le_length_proof [c]).
      simpl in La. lia. }
    destruct (IH (on_writer (fun _ => next w2) f) true 0 indent (before ++ w) r b (k + a)) as (w' & out & e & A & B & C & D).
    - assert (length r < length s) by (rewrite <- Ewr, app_length; destruct w; [congruence|simpl; lia]).
      unfold measure in *. cbn. lia.
    - exact HA.
    - exact Rn.
    - rewrite <- app_assoc, Ewr. exact Ew.
    - exact Nr.
    - exact Ur.
    - apply utf8_app; assumption.
    - exists (on_writer (fun _ => next w2) f), w', out, e. split; [exact E2|]. split; [exact A|]. split; [exact B|].
      split; [|exact D]. rewrite C. cbn [on_writer f_writer]. rewrite Sn, W23, Sh, <- !app_assoc. reflexivity. }
  destruct (split_cases rules (f_rules f) word (length before) (width - (col + gap)) (is_line_empty (f_writer f)) HU HA)
    as [(rule & i & h & F & B & Li & B1 & B2 & Fi & Mx & ->)|(No & ->)].
  { split; [exact Lb|]. intros m Hm'. rewrite Ef. eauto. }
  - (* a place named by the rule *)
    set (w := between word (length before) i) in *. set (r := skipn i word).
    assert (UA : usable rules word before s (width - (col + gap)) w h r).
    { apply usable_iff; [exact Ew|]. exists rule, i. repeat (split; [first [assumption|lia|reflexivity]|]). exact Fi. }
    assert (BR : by_rule rules word before s (width - (col + gap)) w h r).
    { split; [exact UA|]. intros w' h' r' UA'. apply usable_iff in UA'; [|exact Ew].
      destruct UA' as (rule' & j & F' & B' & Lj & Ew' & _ & Fi').
      rewrite (first_rule_unique _ _ _ _ F' F) in B'.
      destruct (Nat.le_gt_cases (length w') (length w)) as [X|X]; [exact X|]. exfalso.
      assert (Lb' : forall x, length before + 1 < x <= length word -> length (between word (length before) x) = x - length before).
      { intros x Hx. unfold between. rewrite firstn_length, skipn_length. lia. }
      subst w'. unfold w in X. rewrite !Lb' in X by lia.
      apply (Mx (HT _ (first_in _ F)) j h' B'); [lia|exact Fi']. }
    pose proof UA as (_ & _ & Ewr & Lw & _ & _).
    destruct (boundary_cut word (length before) i) as ((a & Uw) & _); [lia|exact B1|exact B2|].
    fold w in Uw.
    assert (Nw : w <> []) by (intros X; rewrite X in Lw; simpl in Lw; lia).
    apply fits_iff in Fi. rewrite (utf8_count _ _ Uw) in Fi.
    assert (Hh : h = None \/ h = Some c_dash).
    { destruct B as [(x & y & _ & _ & ->)|(_ & ->)]; [destruct (match last_char x with Some c => _ | None => _ end)|]; auto. }
    assert (Nr : r <> []).
    { intros X. rewrite X, app_nil_r in Ewr. rewrite <- Ewr, (utf8_count _ _ Uw) in Cs. destruct h; lia. }
    cbn [tbind]. rewrite (proj2 (is_empty_false _) Nw). cbn [negb].
    destruct (Part w h r a Ewr Nw Nr Uw) as (f3 & w' & out & e & -> & -> & A & Sh & St);
      [destruct h; simpl; lia|exact Hh|].
    exists w', (blanks gap ++ w ++ hyphen_of h ++ c_lf :: out), e. split; [reflexivity|].
    split; [|split; [exact Sh|exact St]].
    eapply put_rule; [exact Us|lia|exact BR|exact A].
  - (* no such place *)
    assert (NR : no_rule rules word before s (width - (col + gap))).
    { intros w h r UA. apply usable_iff in UA; [|exact Ew].
      destruct UA as (rule' & j & F' & B' & Lj & Ew' & _ & Fi'). subst w.
      apply (No rule' F' (HT _ (first_in _ F')) j h B'); [lia|exact Fi']. }
    destruct fresh.
    + destruct (rd_fresh _ _ _ _ _ _ HR eq_refl) as (R1 & R2 & R3 & R4).
      assert (El : is_line_empty (f_writer f) = true) by (unfold is_line_empty; rewrite R1; reflexivity).
      rewrite El, Er. destruct (Nat.le_gt_cases (width - (col + gap)) 2) as [Sm|Bg].
      * unfold default_rule. destruct (Nat.leb_spec (width - (col + gap)) 2); [|lia]. cbn [tbind is_empty negb].
        rewrite R2. cbn [Nat.eqb negb].
        destruct (written_stopped _ _ _ _ _ _ s n HR Us Ns) as (St & Sh).
        exists (written s (f_writer f)), (blanks gap ++ s), (col + gap + n).
        split; [unfold on_writer; rewrite write_ok by (left; reflexivity); reflexivity|].
        split; [|split; [exact Sh|exact St]]. apply put_over; [exact Us|lia|exact NR|exact Sm].
      * destruct (default_place_proof s n (width - (col + gap)) Us ltac:(lia)) as (w & h & r & i & -> & Ewr & Uw & Hp).
        cbn [tbind].
        assert (Hi : 0 < i /\ i + length (hyphen_of h) <= width - (col + gap) /\ (h = None \/ h = Some c_dash) /\ i < n).
        { destruct Hp as [(E1 & -> & _)|(E1 & E2 & (x & a & b & y & _ & _ & _ & _ & Hg) & _)]; [simpl; split; [lia|split; [lia|split; [auto|lia]]]|].
          split; [lia|]. destruct Hg as [(-> & _)|(-> & _)]; simpl; (split; [lia|split; [auto|lia]]). }
        destruct Hi as (I1 & I2 & I3 & I4).
        assert (Nw : w <> []) by (intros ->; apply utf8_count in Uw; change (0 = i) in Uw; lia).
        assert (Nr : r <> []).
        { intros X. rewrite X, app_nil_r in Ewr. rewrite <- Ewr, (utf8_count _ _ Uw) in Cs. lia. }
        rewrite (proj2 (is_empty_false _) Nw). cbn [negb].
        destruct (Part w h r i Ewr Nw Nr Uw I2 I3) as (f3 & w' & out & e & -> & -> & A & Sh & St).
        exists w', (blanks gap ++ w ++ hyphen_of h ++ c_lf :: out), e. split; [reflexivity|].
        split; [|split; [exact Sh|exact St]].
        eapply put_break; [exact Us|lia|exact NR|exact Bg| |exact A].
        split; [exact Ewr|]. exists i. split; [exact Uw|exact Hp].
    + assert (Nl := rd_used _ _ _ _ _ _ HR eq_refl).
      assert (El : is_line_empty (f_writer f) = false) by (apply is_empty_false; exact Nl).
      rewrite El. cbn [tbind is_empty negb].
      destruct (next_ready _ _ _ (rd_width _ _ _ _ _ _ HR) (rd_indent _ _ _ _ _ _ HR)) as (Rn & Sn).
      destruct (IH (on_writer (set_spaces 0) (newline f)) true 0 indent before s n k) as (w' & out & e & A & B & C & D);
        try assumption.
      * unfold measure in *. rewrite El in Hm. cbn. lia.
      * exists w', (c_lf :: out), e. split; [exact A|]. split; [eapply put_next; [exact Us|lia|exact NR|exact B]|].
        split; [|exact D]. rewrite C. cbn [on_writer newline f_writer].
        change (set_spaces 0 (set_spaces 0 (writer_newline (f_writer f)))) with (next (f_writer f)).
        rewrite Sn, <- app_assoc. reflexivity.
Qed.

Lemma append_word_put : forall f fresh col gap n, word <> [] -> utf8_text word n ->
  add_words [] rules = TOk (f_rules f) -> ready width indent fresh col gap (f_writer f) ->
  exists w' out e, append_word word f = TOk (on_writer (fun _ => w') f) /\
    put rules width indent word fresh col gap [] word out e /\
    wshown w' = wshown (f_writer f) ++ out /\ stopped width indent e w'.
Proof.
  intros f fresh col gap n Nw U HA HR. unfold append_word.
  apply (append_put _ f fresh col gap [] word n 0); try assumption; [|reflexivity|apply utf8_nil].
  unfold measure. destruct (is_line_empty (f_writer f)); [destruct (_ =? 0)|]; lia.
Qed.
End Word.
