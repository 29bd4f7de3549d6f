(** Proofs about how lines and texts are written (C78). *)
From Verif Require Import Base BaseProofs MStrings MText SStrings SText SFormat SWrap StrProofs SplitProofs
  RuleProofs PlaceProofs TextProofs LayoutProofs LayoutProofs2 IndentProofs TextApi WrapProofs.
Open Scope nat_scope.

(** ** Tokens *)

Lemma words_fuel : forall fuel text f, length text <= fuel -> words_loop fuel text f = write_words text f.
Proof.
  induction fuel as [fuel IH] using lt_wf_ind. intros text f L. unfold write_words.
  destruct text as [|c t]; [destruct fuel; reflexivity|].
  destruct fuel as [|fuel]; [simpl in L; lia|]. cbn [words_loop length].
  destruct (next_token (c :: t)) as [[k token] rest] eqn:E.
  assert (Nt : c :: t <> []) by discriminate.
  destruct (next_token_spec _ _ _ _ Nt E) as (E1 & Ne & _).
  assert (Lr : length rest <= length t).
  { assert (X := f_equal (@length ascii) E1). rewrite app_length in X. simpl in X. destruct token; [congruence|]. simpl in X. lia. }
  simpl in L. destruct (write_token k token f) as [f1| | |]; [|reflexivity..]. cbn [tbind].
  rewrite (IH fuel) by lia. rewrite (IH (length t)) by lia. reflexivity.
Qed.

Lemma words_step : forall text k token rest f, text <> [] -> next_token text = (k, token, rest) ->
  write_words text f = tbind (write_token k token f) (write_words rest).
Proof.
  intros text k token rest f Nt E. destruct (next_token_spec _ _ _ _ Nt E) as (E1 & Ne & _).
  destruct text as [|c t]; [congruence|]. unfold write_words at 1. cbn [words_loop length]. rewrite E.
  destruct (write_token k token f) as [f1| | |]; [|reflexivity..]. cbn [tbind]. apply words_fuel.
  assert (X := f_equal (@length ascii) E1). rewrite app_length in X. simpl in X. destruct token; [congruence|].
  simpl in X. lia.
Qed.

Lemma find_first_app : forall set x c y, (forall d, In d x -> ~ In d set) -> In c set ->
  find_first_of set (x ++ c :: y) = Some (length x).
Proof.
  intros set. induction x as [|d x IH]; intros c y Hx Hc; simpl.
  - rewrite (proj2 (existsb_eqb_in _ _) Hc). reflexivity.
  - destruct (existsb (Ascii.eqb d) set) eqn:E.
    + apply existsb_eqb_in in E. exfalso. apply (Hx d); [left; reflexivity|exact E].
    + rewrite IH; [reflexivity| |exact Hc]. intros e He. apply Hx. right. exact He.
Qed.

Lemma find_not_blanks : forall n c y, c <> c_space ->
  find_first_not_of [c_space] (blanks n ++ c :: y) = Some n.
Proof.
  intros n c y Hc. induction n as [|n IH].
  - simpl. destruct (Ascii.eqb_spec c c_space); [congruence|]. reflexivity.
  - change (blanks (S n) ++ c :: y) with (c_space :: (blanks n ++ c :: y)). cbn [find_first_not_of].
    change (existsb (Ascii.eqb c_space) [c_space]) with true. cbn iota. rewrite IH. reflexivity.
Qed.

Lemma token_word : forall word rest, word <> [] -> (forall c, In c word -> is_white c = false) ->
  starts_white rest -> next_token (word ++ rest) = (TkWord, word, rest).
Proof.
  intros word rest Nw Hw Hr.
  assert (Hs : forall c, In c word -> ~ In c [c_tab; c_cr; c_lf; c_space]).
  { intros c Hc X. apply white_set in X. rewrite (Hw c Hc) in X. discriminate. }
  destruct word as [|c word]; [congruence|]. assert (Hc := Hs c (or_introl eq_refl)).
  unfold next_token. cbn [app].
  destruct (Ascii.eqb_spec c c_tab) as [->|]; [exfalso; apply Hc; simpl; auto|].
  destruct (Ascii.eqb_spec c c_cr) as [->|]; [exfalso; apply Hc; simpl; auto|].
  destruct (Ascii.eqb_spec c c_lf) as [->|]; [exfalso; apply Hc; simpl; auto|].
  destruct (Ascii.eqb_spec c c_space) as [->|]; [exfalso; apply Hc; simpl; auto|].
  destruct Hr as [->|(d & r & -> & Hd)].
  - rewrite app_nil_r. rewrite (proj2 (find_first_of_none _ (c :: word)) Hs). reflexivity.
  - rewrite app_comm_cons, find_first_app; [|exact Hs|apply white_set; exact Hd].
    rewrite firstn_app, firstn_all, Nat.sub_diag, app_nil_r, skipn_app, skipn_all, Nat.sub_diag. reflexivity.
Qed.

Lemma cut_app : forall (x y : str) k, length x = k -> firstn k (x ++ y) = x /\ skipn k (x ++ y) = y.
Proof.
  intros x y k <-. rewrite firstn_app, firstn_all, Nat.sub_diag, app_nil_r, skipn_app, skipn_all, Nat.sub_diag. auto.
Qed.

Lemma token_spaces : forall n rest, 0 < n -> (forall r, rest <> c_space :: r) -> rest <> [] ->
  next_token (blanks n ++ rest) = (TkSpace, blanks n, rest).
Proof.
  intros n rest Hn Hr Nr. destruct n as [|n]; [lia|]. unfold next_token.
  change (blanks (S n) ++ rest) with (c_space :: (blanks n ++ rest)). cbn iota.
  change (Ascii.eqb c_space c_tab) with false. change (Ascii.eqb c_space c_cr) with false.
  change (Ascii.eqb c_space c_lf) with false. change (Ascii.eqb c_space c_space) with true. cbn iota.
  change (c_space :: (blanks n ++ rest)) with (blanks (S n) ++ rest).
  destruct rest as [|c y]; [congruence|]. rewrite find_not_blanks by (intros ->; eapply Hr; reflexivity).
  assert (L : length (blanks (S n)) = S n) by apply repeat_length.
  destruct (cut_app (blanks (S n)) (c :: y) (S n) L) as (-> & ->). reflexivity.
Qed.

Lemma more_white : forall more rest, (forall g w, In (g, w) more -> good_gap g /\ good_word w) -> starts_white rest ->
  starts_white (more_text more ++ rest).
Proof.
  intros [|[g w] more] rest HG HR; [exact HR|]. right. destruct (HG g w (or_introl eq_refl)) as (G' & _).
  destruct g as [[|n]|]; cbn [good_gap] in G'; [lia| |]; eexists _, _; (split; [reflexivity|reflexivity]).
Qed.

Lemma bytes_word : forall m, m <> [] -> (forall c, In c m -> byte_between 33 127 c) -> good_word m.
Proof.
  intros m Nm H2. split; [exact Nm|]. split.
  - intros c Hc. specialize (H2 c Hc). destruct (is_white c) eqn:E; [|reflexivity]. exfalso.
    apply white_set in E. unfold byte_between in H2. destruct E as [<-|[<-|[<-|[<-|[]]]]]; vm_compute in H2; lia.
  - exists (length m). clear Nm. induction m as [|c m IH]; [apply utf8_nil|].
    apply (utf8_app [c] m 1); [apply utf8_one|apply IH].
    + specialize (H2 c (or_introl eq_refl)). unfold byte_between in *. lia.
    + intros d Hd. apply H2. right. exact Hd.
Qed.

Lemma marker_good : forall m, is_marker m -> good_word m.
Proof.
  intros m Hm. apply bytes_word; destruct Hm as [->|[->|(d & -> & Nd & Hd)]]; try discriminate.
  - destruct d; discriminate.
  - intros c [<-|[]]. unfold byte_between. vm_compute. lia.
  - intros c [<-|[]]. unfold byte_between. vm_compute. lia.
  - intros c Hc. unfold byte_between. apply in_app_or in Hc. destruct Hc as [Hc|[<-|[]]].
    + specialize (Hd c Hc). lia.
    + vm_compute. lia.
Qed.

Lemma marker_conv : forall m, is_marker m -> is_list_marker m = true.
Proof.
  intros m [->|[->|(d & -> & Nd & Hd)]]; [reflexivity..|].
  destruct d as [|a d]; [congruence|].
  assert (E : is_list_marker ((a :: d) ++ ["."%char]) =
    match last_char ((a :: d) ++ ["."%char]) with
    | Some c => Ascii.eqb c "."%char && forallb isdigit (removelast ((a :: d) ++ ["."%char]))
    | None => false
    end).
  { simpl. destruct (d ++ ["."%char]) as [|x y] eqn:X; [destruct d; discriminate|]. reflexivity. }
  rewrite E, last_char_app, removelast_last. cbn [andb Ascii.eqb]. change (Ascii.eqb "." ".") with true. cbn [andb].
  apply forallb_forall. intros c Hc. specialize (Hd c Hc). unfold isdigit. apply andb_true_iff.
  unfold nat_of_ascii in Hd. unfold u8. split; apply N.leb_le; lia.
Qed.

(** ** The formatter *)

Section Lines.
Variables (rules : list str) (width base : nat) (stack : list nat).
Hypothesis HU : utf8_rules rules.
Hypothesis HT : trimmed_rules rules.
Hypothesis HB : base < width.

Definition fshown (f : formatter) : str := wshown (f_writer f).

(** At the start of a line. *)
Record at_start (f : formatter) : Prop := mk_at_start {
  as_rules : add_words [] rules = TOk (f_rules f);
  as_state : f_state f = NO_ALIGNMENT;
  as_indents : f_indents f = base :: stack;
  as_writer : ready width base true 0 base (f_writer f)
}.

(** After a line. *)
Record at_end (f : formatter) : Prop := mk_at_end {
  ae_rules : add_words [] rules = TOk (f_rules f);
  ae_state : (f_state f = NO_ALIGNMENT /\ f_indents f = base :: stack /\ w_indent (f_writer f) = base) \/
             (f_state f = ALIGNMENT /\ exists x, f_indents f = x :: base :: stack);
  ae_width : w_line_width (f_writer f) = width
}.

(** After a word of the line. *)
Record after_word (indent e : nat) (f : formatter) : Prop := mk_after_word {
  aw_rules : add_words [] rules = TOk (f_rules f);
  aw_state : (f_state f = NO_ALIGNMENT /\ f_indents f = base :: stack /\ indent = base) \/
             (f_state f = ALIGNMENT /\ exists x, f_indents f = x :: base :: stack);
  aw_writer : stopped width indent e (f_writer f)
}.

Lemma after_end : forall indent e f, after_word indent e f -> at_end f.
Proof.
  intros indent e f [H1 H2 [H3 H4 _ _ _ _]]. constructor; [exact H1| |exact H3].
  destruct H2 as [(A & B & C)|H2]; [left|right; exact H2]. split; [exact A|]. split; [exact B|]. congruence.
Qed.

Lemma good_word_token : forall word rest f, good_word word -> starts_white rest ->
  write_words (word ++ rest) f = tbind (append_word word (update_alignment word f)) (write_words rest).
Proof.
  intros word rest f (Nw & Hw & _) Hr.
  rewrite (words_step _ TkWord word rest); [reflexivity| |apply token_word; assumption].
  destruct word; [congruence|discriminate].
Qed.

Definition starts_word (s : str) : Prop := exists c s', s = c :: s' /\ is_white c = false.

Lemma word_starts : forall word rest, good_word word -> starts_word (word ++ rest).
Proof.
  intros [|c w] rest (Nw & Hw & _); [congruence|]. exists c, (w ++ rest). split; [reflexivity|].
  apply Hw. left. reflexivity.
Qed.

(** A gap in front of a word. *)
Lemma gap_token : forall g rest f, good_gap g -> starts_word rest -> w_spaces (f_writer f) = 0 ->
  write_words (gap_text g ++ rest) f =
  tbind (begin_alignment (on_writer (set_spaces (gap_width (current_width (f_writer f)) g)) f)) (write_words rest).
Proof.
  intros g rest f Hg (c & s & -> & Hc) Hs.
  assert (Nc : c <> c_space) by (intros ->; discriminate).
  destruct g as [n|]; cbn [gap_text gap_width good_gap] in *.
  - rewrite (words_step _ TkSpace (blanks n) (c :: s)).
    + cbn [write_token]. unfold blanks at 1. rewrite repeat_length. reflexivity.
    + destruct n; [lia|discriminate].
    + apply token_spaces; [exact Hg|congruence|discriminate].
  - rewrite (words_step _ TkTab [c_tab] (c :: s)); [|discriminate|reflexivity].
    cbn [write_token]. unfold tab, on_writer. rewrite Hs. reflexivity.
Qed.

Lemma update_used : forall token f, w_line (f_writer f) <> [] -> update_alignment token f = f.
Proof.
  intros token f H. unfold update_alignment. assert (E : is_line_empty (f_writer f) = false) by (apply is_empty_false; exact H).
  rewrite E. reflexivity.
Qed.

(** More words. *)
Lemma more_put : forall more indent e f rest, after_word indent e f ->
  (forall g w, In (g, w) more -> good_gap g /\ good_word w) -> starts_white rest ->
  exists f' out e', write_words (more_text more ++ rest) f = write_words rest f' /\
    put_words rules width indent e more out e' /\ fshown f' = fshown f ++ out /\ after_word indent e' f'.
Proof.
  induction more as [|[g word] more IH]; intros indent e f rest HF HG HR.
  - exists f, [], e. split; [reflexivity|]. split; [constructor|]. split; [symmetry; apply app_nil_r|exact HF].
  - destruct (HG g word (or_introl eq_refl)) as (Gg & Gw).
    assert (HG' : forall g w, In (g, w) more -> good_gap g /\ good_word w) by (intros; apply HG; right; assumption).
    assert (SW : starts_white (more_text more ++ rest)).
    { destruct more as [|[g' w'] more]; [exact HR|]. right. destruct (HG' g' w' (or_introl eq_refl)) as (G' & _).
      destruct g' as [[|n]|]; cbn [good_gap] in G'; [lia| |]; eexists _, _; (split; [reflexivity|reflexivity]). }
    change (more_text ((g, word) :: more)) with ((gap_text g ++ word) ++ more_text more).
    rewrite <- !app_assoc. pose proof (aw_writer _ _ _ HF) as [S1 S2 S3 S4 S5 S6].
    assert (CW : current_width (f_writer f) = e) by (unfold current_width; rewrite S2, S3, S4; lia).
    rewrite gap_token; [|exact Gg|apply word_starts; exact Gw|exact S4]. rewrite CW.
    set (f1 := on_writer (set_spaces (gap_width e g)) f).
    assert (EB : begin_alignment f1 = TOk f1).
    { unfold begin_alignment. assert (E : is_line_empty (f_writer f1) = false) by (apply is_empty_false; exact S5).
      rewrite E. change (f_state f1) with (f_state f).
      destruct (aw_state _ _ _ HF) as [(-> & _)|(-> & _)]; reflexivity. }
    rewrite EB. cbn [tbind]. rewrite good_word_token by assumption. rewrite update_used by exact S5.
    assert (RD : ready width indent false e (gap_width e g) (f_writer f1)).
    { constructor; try assumption; try discriminate.
      - unfold current_width. cbn. rewrite S2, S3. lia.
      - intros _. exact S5. }
    destruct Gw as (Nw & Hw & n & Uw).
    destruct (append_word_put rules width indent word HU HT f1 false e (gap_width e g) n Nw Uw (aw_rules _ _ _ HF) RD)
      as (w' & out & e1 & -> & P1 & Sh & St). cbn [tbind].
    destruct (IH indent e1 (on_writer (fun _ => w') f1) rest) as (f' & out' & e' & E' & P' & Sh' & A'); try assumption.
    + constructor; [exact (aw_rules _ _ _ HF)| |exact St]. exact (aw_state _ _ _ HF).
    + exists f', (out ++ out'), e'. split; [exact E'|]. split; [econstructor; eassumption|]. split; [|exact A'].
      rewrite Sh'. unfold fshown. cbn [on_writer f_writer]. rewrite Sh, app_assoc. reflexivity.
Qed.

(** What [push_indentation] with the current column does. *)
Lemma push_hung : forall f col gap old, w_line_width (f_writer f) = width -> w_indent (f_writer f) = old ->
  w_current (f_writer f) = col -> current_width (f_writer f) = col + gap ->
  w_indent (f_writer (push_indentation None f)) = hung width old (col + gap) /\
  w_line_width (f_writer (push_indentation None f)) = width /\
  w_current (f_writer (push_indentation None f)) = col /\
  w_spaces (f_writer (push_indentation None f)) = 0 /\
  w_line (f_writer (push_indentation None f)) = w_line (f_writer f) /\
  w_out (f_writer (push_indentation None f)) = w_out (f_writer f).
Proof.
  intros f col gap old H1 H2 H3 H4. cbn [push_indentation]. unfold set_indents, on_writer, set_indentation, hung.
  cbn [f_writer]. rewrite H4. cbn [w_line_width set_spaces]. rewrite H1.
  destruct (Nat.leb_spec width (col + gap)) as [L|L]; destruct (Nat.ltb_spec (col + gap) width) as [L'|L']; try lia;
    cbn; auto 10.
Qed.

(** In front of the first word of a line. *)
Record begun (indent : nat) (f : formatter) : Prop := mk_begun {
  bg_rules : add_words [] rules = TOk (f_rules f);
  bg_state : (f_state f = NO_ALIGNMENT /\ f_indents f = base :: stack /\ indent = base) \/
             (f_state f = ALIGNMENT /\ exists x, f_indents f = x :: base :: stack);
  bg_writer : ready width indent true 0 indent (f_writer f)
}.

Definition lead_text (lead : option gap) : str := match lead with Some g => gap_text g | None => [] end.

Definition lead_indent (lead : option gap) : nat :=
  match lead with Some g => hung width base (base + gap_width base g) | None => base end.

Lemma lead_put : forall lead rest f, at_start f -> match lead with Some g => good_gap g | None => True end ->
  starts_word rest ->
  exists f1, write_words (lead_text lead ++ rest) f = write_words rest f1 /\ begun (lead_indent lead) f1 /\
    fshown f1 = fshown f.
Proof.
  intros [g|] rest f [H1 H2 H3 H4] HG HR; cbn [lead_text lead_indent].
  - destruct (rd_fresh _ _ _ _ _ _ H4 eq_refl) as (R1 & R2 & _ & _).
    assert (CW : current_width (f_writer f) = base) by (rewrite (rd_gap _ _ _ _ _ _ H4); reflexivity).
    rewrite gap_token by assumption. rewrite CW.
    set (f1 := on_writer (set_spaces (gap_width base g)) f).
    assert (EB : begin_alignment f1 = TOk (set_state ALIGNMENT (push_indentation None f1))).
    { unfold begin_alignment. assert (E : is_line_empty (f_writer f1) = true) by (unfold is_line_empty; cbn; rewrite R1; reflexivity).
      rewrite E. reflexivity. }
    rewrite EB. cbn [tbind]. exists (set_state ALIGNMENT (push_indentation None f1)). split; [reflexivity|].
    destruct (push_hung f1 0 (base + gap_width base g) base) as (P1 & P2 & P3 & P4 & P5 & P6).
    + exact (rd_width _ _ _ _ _ _ H4).
    + exact (rd_indent _ _ _ _ _ _ H4).
    + exact (rd_col _ _ _ _ _ _ H4).
    + unfold f1, current_width. cbn. rewrite (rd_col _ _ _ _ _ _ H4), (rd_indent _ _ _ _ _ _ H4). reflexivity.
    + split; [constructor|].
      * exact H1.
      * right. split; [reflexivity|]. eexists. cbn. rewrite H3. reflexivity.
      * constructor.
        -- exact P2.
        -- exact P1.
        -- exact P3.
        -- unfold current_width. cbn [set_state f_writer]. rewrite P1, P3, P4. simpl. lia.
        -- intros _. cbn [set_state f_writer]. rewrite P4, P5. cbn. auto.
        -- discriminate.
      * unfold fshown, wshown. cbn [set_state f_writer]. rewrite P5, P6. reflexivity.
  - exists f. split; [reflexivity|]. split; [|reflexivity]. constructor; [exact H1| |exact H4]. left. auto.
Qed.

(** The first word. *)
Lemma first_put : forall indent word rest f, begun indent f -> good_word word -> ~ is_marker word ->
  starts_white rest ->
  exists f' out e, write_words (word ++ rest) f = write_words rest f' /\
    put rules width indent word true 0 indent [] word out e /\ fshown f' = fshown f ++ out /\ after_word indent e f'.
Proof.
  intros indent word rest f [H1 H2 H3] Gw Nm HR. rewrite good_word_token by assumption.
  assert (EU : update_alignment word f = f).
  { unfold update_alignment. destruct (is_list_marker word) eqn:E; [exfalso; apply Nm, marker_ok, E|].
    rewrite andb_false_r. reflexivity. }
  rewrite EU. destruct Gw as (Nw & Hw & n & Uw).
  destruct (append_word_put rules width indent word HU HT f true 0 indent n Nw Uw H1 H3)
    as (w' & out & e & -> & P1 & Sh & St). cbn [tbind].
  exists (on_writer (fun _ => w') f), out, e. split; [reflexivity|]. split; [exact P1|]. split; [exact Sh|].
  constructor; [exact H1| |exact St]. exact H2.
Qed.

(** A marker and the gap after it. *)
Lemma marker_put : forall indent m g rest f, begun indent f -> base <= indent -> is_marker m -> good_gap g ->
  starts_word rest ->
  exists f' out e hang, write_words (m ++ gap_text g ++ rest) f = write_words rest f' /\
    put rules width indent m true 0 indent [] m out e /\ hang = hung width base (e + gap_width e g) /\
    fshown f' = fshown f ++ out /\
    add_words [] rules = TOk (f_rules f') /\ f_state f' = ALIGNMENT /\ (exists x, f_indents f' = x :: base :: stack) /\
    ready width hang false e (hang - e) (f_writer f').
Proof.
  intros indent m g rest f [H1 H2 H3] Lb Hm Hg HR.
  destruct (marker_good m Hm) as (Nm & Wm & n & Um).
  assert (SW : starts_white (gap_text g ++ rest)).
  { right. destruct g as [[|k]|]; cbn [good_gap] in Hg; [lia| |]; eexists _, _; (split; [reflexivity|reflexivity]). }
  rewrite good_word_token by (first [exact SW|exact (marker_good m Hm)]).
  destruct (rd_fresh _ _ _ _ _ _ H3 eq_refl) as (R1 & R2 & _ & _).
  set (st := match f_state f with ALIGNMENT => ALIGNED_MARKER | _ => UNALIGNED_MARKER end).
  assert (EU : update_alignment m f = set_state st f).
  { unfold update_alignment. rewrite (marker_conv m Hm). unfold is_line_empty. rewrite R1. reflexivity. }
  rewrite EU.
  destruct (append_word_put rules width indent m HU HT (set_state st f) true 0 indent n Nm Um H1 H3)
    as (w' & out & e & -> & P1 & Sh & St). cbn [tbind].
  set (f1 := on_writer (fun _ => w') (set_state st f)).
  destruct St as [S1 S2 S3 S4 S5 S6].
  assert (CW : current_width (f_writer f1) = e) by (cbn; unfold current_width; rewrite S2, S3, S4; lia).
  rewrite gap_token by assumption. rewrite CW.
  set (f2 := on_writer (set_spaces (gap_width e g)) f1).
  assert (EL : is_line_empty (f_writer f2) = false) by (apply is_empty_false; exact S5).
  (* the formatter to which the indentation is added *)
  assert (EB : exists f3, begin_alignment f2 = TOk (set_state ALIGNMENT (push_indentation None f3)) /\
    f_rules f3 = f_rules f /\ f_indents f3 = base :: stack /\ w_line_width (f_writer f3) = width /\
    w_indent (f_writer f3) = base /\ w_current (f_writer f3) = e /\
    current_width (f_writer f3) = e + gap_width e g /\ w_line (f_writer f3) = w_line w' /\ w_out (f_writer f3) = w_out w').
  { unfold begin_alignment. rewrite EL. cbn [orb]. change (f_state f2) with st. unfold st.
    destruct H2 as [(Es & Ei & Eb)|(Es & x & Ei)]; rewrite Es.
    - exists f2. split; [reflexivity|]. cbn. unfold current_width. cbn.
      rewrite S1, S2, S3, Ei. replace (Nat.max e indent) with e by lia. auto 10.
    - unfold pop_indentation. change (f_indents f2) with (f_indents f). rewrite Ei. cbn [tbind].
      eexists. split; [reflexivity|]. cbn. unfold set_indentation. cbn. rewrite S1.
      destruct (Nat.leb_spec width base) as [X|_]; [lia|]. cbn. unfold current_width. cbn.
      rewrite S3. replace (Nat.max e base) with e by lia. auto 10. }
  destruct EB as (f3 & -> & G1 & G2 & G3 & G4 & G5 & G6 & G7 & G8). cbn [tbind].
  destruct (push_hung f3 e (gap_width e g) base G3 G4 G5 G6) as (Q1 & Q2 & Q3 & Q4 & Q5 & Q6).
  exists (set_state ALIGNMENT (push_indentation None f3)), out, e, (hung width base (e + gap_width e g)).
  split; [reflexivity|]. split; [exact P1|]. split; [reflexivity|]. split.
  { unfold fshown, wshown. cbn [set_state f_writer]. rewrite Q5, Q6, G7, G8. exact Sh. }
  split; [cbn; rewrite G1; exact H1|]. split; [reflexivity|]. split; [eexists; cbn; rewrite G2; reflexivity|].
  constructor; cbn [set_state f_writer].
  - exact Q2.
  - exact Q1.
  - exact Q3.
  - unfold current_width. rewrite Q1, Q3, Q4. lia.
  - discriminate.
  - intros _. rewrite Q5, G7. exact S5.
Qed.

Lemma lead_le : forall lead, base <= lead_indent lead.
Proof. intros [g|]; cbn [lead_indent]; unfold hung; [destruct (_ <? _); lia|lia]. Qed.

(** A word that follows on a line. *)
Lemma beside_put : forall indent col gap0 word rest f, add_words [] rules = TOk (f_rules f) ->
  (f_state f = NO_ALIGNMENT /\ f_indents f = base :: stack /\ indent = base) \/
  (f_state f = ALIGNMENT /\ exists x, f_indents f = x :: base :: stack) ->
  ready width indent false col gap0 (f_writer f) -> good_word word -> starts_white rest ->
  exists f' out e, write_words (word ++ rest) f = write_words rest f' /\
    put rules width indent word false col gap0 [] word out e /\ fshown f' = fshown f ++ out /\ after_word indent e f'.
Proof.
  intros indent col gap0 word rest f H1 H2 H3 Gw HR. rewrite good_word_token by assumption.
  rewrite update_used by (exact (rd_used _ _ _ _ _ _ H3 eq_refl)). destruct Gw as (Nw & Hw & n & Uw).
  destruct (append_word_put rules width indent word HU HT f false col gap0 n Nw Uw H1 H3)
    as (w' & out & e & -> & P1 & Sh & St). cbn [tbind].
  exists (on_writer (fun _ => w') f), out, e. split; [reflexivity|]. split; [exact P1|]. split; [exact Sh|].
  constructor; [exact H1|exact H2|exact St].
Qed.

Lemma line_put : forall l f rest, at_start f -> good_line l -> starts_white rest ->
  exists f' out, write_words (line_text l ++ rest) f = write_words rest f' /\
    put_line rules width base l out /\ fshown f' = fshown f ++ out /\ at_end f' /\ (l <> Empty -> w_line (f_writer f') <> []).
Proof.
  intros [|lead marker word more] f rest HS HG HR.
  - exists f, []. split; [reflexivity|]. split; [constructor|]. split; [symmetry; apply app_nil_r|]. split; [|congruence].
    destruct HS as [H1 H2 H3 H4]. constructor; [exact H1| |exact (rd_width _ _ _ _ _ _ H4)].
    left. split; [exact H2|]. split; [exact H3|]. exact (rd_indent _ _ _ _ _ _ H4).
  - destruct HG as (G1 & G2 & G3 & G4).
    pose proof (more_white more rest G4 HR) as MW.
    destruct marker as [[m g]|].
    + destruct G2 as (Gm & Gg).
      change (line_text (Line lead (Some (m, g)) word more))
        with (lead_text lead ++ (m ++ gap_text g) ++ word ++ more_text more).
      rewrite <- !app_assoc.
      destruct (lead_put lead (m ++ gap_text g ++ word ++ more_text more ++ rest) f HS G1
                  (word_starts _ _ (marker_good m Gm))) as (f1 & -> & B1 & Sh1).
      destruct (marker_put (lead_indent lead) m g (word ++ more_text more ++ rest) f1 B1 (lead_le lead) Gm Gg
                  (word_starts _ _ G3)) as (f2 & out0 & e0 & hang & -> & P0 & Eh & Sh2 & R2 & St2 & Ix2 & Rd2).
      destruct (beside_put hang e0 (hang - e0) word (more_text more ++ rest) f2 R2 (or_intror (conj St2 Ix2)) Rd2 G3 MW)
        as (f3 & out & e & -> & P3 & Sh3 & A3).
      destruct (more_put more hang e f3 rest A3 G4 HR) as (f4 & out' & e' & -> & P4 & Sh4 & A4).
      exists f4, (out0 ++ out ++ out'). split; [reflexivity|]. split.
      { eapply pl_marker; [reflexivity|exact P0|exact Eh|exact P3|exact P4]. }
      split; [rewrite Sh4, Sh3, Sh2, Sh1, <- !app_assoc; reflexivity|].
      split; [eapply after_end; exact A4|intros _; exact (st_line _ _ _ _ (aw_writer _ _ _ A4))].
    + change (line_text (Line lead None word more)) with (lead_text lead ++ word ++ more_text more).
      rewrite <- !app_assoc.
      destruct (lead_put lead (word ++ more_text more ++ rest) f HS G1 (word_starts _ _ G3)) as (f1 & -> & B1 & Sh1).
      destruct (first_put (lead_indent lead) word (more_text more ++ rest) f1 B1 G3 G2 MW)
        as (f3 & out & e & -> & P3 & Sh3 & A3).
      destruct (more_put more _ e f3 rest A3 G4 HR) as (f4 & out' & e' & -> & P4 & Sh4 & A4).
      exists f4, (out ++ out'). split; [reflexivity|]. split.
      { eapply pl_line; [reflexivity|exact P3|exact P4]. }
      split; [rewrite Sh4, Sh3, Sh1, <- !app_assoc; reflexivity|].
      split; [eapply after_end; exact A4|intros _; exact (st_line _ _ _ _ (aw_writer _ _ _ A4))].
Qed.

(** The end of a line. *)
Lemma end_put : forall f, at_end f -> exists f', end_alignment f = TOk f' /\ fshown f' = fshown f /\
  w_line (f_writer f') = w_line (f_writer f) /\
  add_words [] rules = TOk (f_rules f') /\ f_state f' = NO_ALIGNMENT /\ f_indents f' = base :: stack /\
  w_indent (f_writer f') = base /\ w_line_width (f_writer f') = width.
Proof.
  intros f [H1 H2 H3]. unfold end_alignment. destruct H2 as [(Es & Ei & Ew)|(Es & x & Ei)]; rewrite Es.
  - exists f. auto 10.
  - unfold pop_indentation. rewrite Ei. cbn [tbind]. eexists. split; [reflexivity|].
    unfold fshown, wshown. cbn. unfold set_indentation. rewrite H3.
    destruct (Nat.leb_spec width base) as [X|_]; [lia|]. cbn. auto 10.
Qed.

Lemma newline_put : forall rest f, at_end f ->
  exists f', write_words (c_lf :: rest) f = write_words rest f' /\ at_start f' /\ fshown f' = fshown f ++ [c_lf].
Proof.
  intros rest f HF. destruct (end_put f HF) as (f1 & E1 & Sh & El & H1 & H2 & H3 & H4 & H5).
  rewrite (words_step (c_lf :: rest) TkNewline [c_lf] rest); [|discriminate|reflexivity].
  cbn [write_token]. rewrite E1. cbn [tbind].
  destruct (next_ready _ _ _ H5 H4) as (Rn & Sn).
  exists (on_writer (set_spaces 0) (on_writer writer_newline f1)). split; [reflexivity|]. split.
  - constructor; [exact H1|exact H2|exact H3|exact Rn].
  - rewrite <- Sh. exact Sn.
Qed.

Lemma text_put : forall ls f, at_start f -> ls <> [] -> (forall l, In l ls -> good_line l) ->
  exists f' out, write_words (text_of ls) f = TOk f' /\ put_text rules width base ls out /\
    fshown f' = fshown f ++ out /\
    add_words [] rules = TOk (f_rules f') /\ f_state f' = NO_ALIGNMENT /\ f_indents f' = base :: stack /\
    w_indent (f_writer f') = base /\ w_line_width (f_writer f') = width.
Proof.
  induction ls as [|l ls IH]; intros f HS Nl HG; [congruence|].
  assert (Gl := HG l (or_introl eq_refl)).
  destruct ls as [|l' ls].
  - cbn [text_of]. rewrite <- (app_nil_r (line_text l)).
    destruct (line_put l f [] HS Gl (or_introl eq_refl)) as (f1 & out & -> & P & Sh & AE & _).
    destruct (end_put f1 AE) as (f2 & E2 & Sh2 & _ & H). exists f2, out. split; [exact E2|].
    split; [constructor; exact P|]. split; [rewrite Sh2; exact Sh|exact H].
  - change (text_of (l :: l' :: ls)) with (line_text l ++ c_lf :: text_of (l' :: ls)).
    destruct (line_put l f (c_lf :: text_of (l' :: ls)) HS Gl) as (f1 & out & -> & P & Sh & AE & _).
    { right. exists c_lf, (text_of (l' :: ls)). split; reflexivity. }
    destruct (newline_put (text_of (l' :: ls)) f1 AE) as (f2 & -> & AS & Sh2).
    destruct (IH f2 AS) as (f3 & out' & -> & P' & Sh3 & H); [discriminate|intros x Hx; apply HG; right; exact Hx|].
    exists f3, (out ++ c_lf :: out'). split; [reflexivity|]. split; [constructor; assumption|].
    split; [|exact H]. rewrite Sh3, Sh2, Sh, <- !app_assoc. reflexivity.
Qed.
End Lines.
