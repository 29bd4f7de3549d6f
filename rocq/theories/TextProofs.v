(** Proofs about writing words (C48, C49): how a word is put on lines. *)
From Verif Require Import Base BaseProofs MStrings MText SStrings SText StrProofs SplitProofs RuleProofs.
Open Scope nat_scope.

Definition good_rules (m : splitter) : Prop :=
  exists rules, utf8_rules rules /\ add_words [] rules = TOk m.

(** What [newline] of the formatter does to the writer. *)
Definition next (w : writer) : writer := set_spaces 0 (writer_newline w).

Definition opt_write (h : option ascii) (w : writer) : writer :=
  match h with Some c => snd (write [c] false w) | None => w end.

Lemma remaining_eq : forall w, Nat.max (current_width w) (w_line_width w) - current_width w = remaining_width w.
Proof. intros w. unfold remaining_width. lia. Qed.

Lemma write_fits : forall s w, count_code_points s <= remaining_width w -> fst (write s false w) = true.
Proof.
  intros s w H. unfold write. rewrite remaining_eq. simpl.
  destruct (Nat.ltb_spec (remaining_width w) (count_code_points s)); [lia|reflexivity].
Qed.

Lemma write_fails : forall s w, fst (write s false w) = false -> remaining_width w < count_code_points s.
Proof.
  intros s w. unfold write. rewrite remaining_eq. simpl.
  destruct (Nat.ltb_spec (remaining_width w) (count_code_points s)); [auto|discriminate].
Qed.

(** The writer after a write that has succeeded. *)
Definition written (s : str) (w : writer) : writer :=
  mk_writer (w_out w) (w_line w ++ repeat c_space (current_width w - w_current w) ++ s)
    (w_line_width w) (current_width w + count_code_points s) (w_indent w) 0.

Lemma current_le : forall w, w_current w <= current_width w.
Proof. intros w. unfold current_width. lia. Qed.

Lemma write_ok : forall s force w, force = true \/ count_code_points s <= remaining_width w ->
  write s force w = (true, written s w).
Proof.
  intros s force w H. unfold write. rewrite remaining_eq.
  assert (E : negb force && (remaining_width w <? count_code_points s) = false).
  { destruct H as [->|H]; [reflexivity|]. destruct (Nat.ltb_spec (remaining_width w) (count_code_points s)); [lia|].
    apply andb_false_r. }
  rewrite E. unfold written. f_equal. f_equal. pose proof (current_le w). lia.
Qed.

Lemma write_cases : forall s w, write s false w = (true, written s w) /\ count_code_points s <= remaining_width w \/
  (exists w', write s false w = (false, w')) /\ remaining_width w < count_code_points s.
Proof.
  intros s w. destruct (Nat.le_gt_cases (count_code_points s) (remaining_width w)) as [L|L].
  - left. split; [apply write_ok; right; exact L|exact L].
  - right. split; [|exact L]. unfold write. rewrite remaining_eq. simpl.
    destruct (Nat.ltb_spec (remaining_width w) (count_code_points s)); [eauto|lia].
Qed.

Lemma remaining_written : forall s w, count_code_points s <= remaining_width w ->
  remaining_width (written s w) = remaining_width w - count_code_points s.
Proof.
  intros s w H. unfold remaining_width in *. unfold current_width at 1. simpl.
  pose proof (current_le w). assert (w_indent w <= current_width w) by (unfold current_width; lia). lia.
Qed.

Definition hyphen_text (h : option ascii) : str := match h with Some c => [c] | None => [] end.

(** The induction principle of [append_word]. [P c w]: the part [c] of the word has been
    written and the writer is [w]. *)
Section Append.
Variables (word : str) (P : str -> writer -> Prop).

(** A part of the word is a piece of UTF-8 text if the word is. *)
Definition part_ok (x : str) : Prop := forall n, utf8_text word n -> exists k, utf8_text x k.

Hypothesis Hwrite : forall c x r w, P c w -> word = c ++ x ++ r -> x <> [] -> part_ok x ->
  count_code_points x <= remaining_width w -> P (c ++ x) (written x w).
Hypothesis Hbreak : forall c r h w, P c w -> word = c ++ r -> c <> [] -> r <> [] -> w_line w <> [] ->
  (h = None \/ h = Some c_dash) -> length (hyphen_text h) <= remaining_width w -> w_spaces w = 0 ->
  P c (next (match h with Some x => written [x] w | None => w end)).
Hypothesis Hnext : forall w, P [] w -> w_line w <> [] -> word <> [] -> P [] (next w).
Hypothesis Hspaces : forall c w, P c w -> w_line w = [] -> P c (set_spaces 0 w).
Hypothesis Hforce : forall c r w, P c w -> word = c ++ r -> r <> [] -> part_ok r -> w_line w = [] ->
  w_spaces w = 0 -> remaining_width w <= 2 -> remaining_width w < count_code_points r ->
  P word (written r w).

Definition measure (r : str) (w : writer) : nat :=
  length r + (if is_line_empty w then (if w_spaces w =? 0 then 0 else 1) else 1).

Lemma append_loop_proof : forall fuel c r f, measure r (f_writer f) < fuel ->
  good_rules (f_rules f) -> P c (f_writer f) -> word = c ++ r -> r <> [] -> part_ok r -> part_ok c ->
  (c = [] \/ w_line (f_writer f) = []) ->
  exists w', append_loop fuel word r f = TOk (on_writer (fun _ => w') f) /\ P word w'.
Proof.
  induction fuel as [|fuel IH]; intros c r f Hm (rules & HR & HA) HP Ew Nr Vr Vc Hc; [lia|].
  cbn [append_loop].
  destruct (write_cases r (f_writer f)) as [(-> & L)|((w0 & ->) & L)].
  { exists (written r (f_writer f)). split; [reflexivity|]. rewrite Ew.
    apply (Hwrite c r [] (f_writer f)); auto. rewrite app_nil_r. exact Ew. }
  assert (Es : length word - length r = length c) by (rewrite Ew, app_length; lia).
  assert (Er : skipn (length c) word = r) by (rewrite Ew, skipn_app, skipn_all, Nat.sub_diag; reflexivity).
  assert (Ef : firstn (length c) word = c) by (rewrite Ew, firstn_app, firstn_all, Nat.sub_diag; apply app_nil_r).
  rewrite Es.
  destruct (split_proof rules (f_rules f) word (length c) (remaining_width (f_writer f))
    (is_line_empty (f_writer f)) HR HA) as (w & h & r' & -> & G).
  { split; [rewrite Ew, app_length; lia|]. rewrite Ef. exact Vc. }
  { rewrite Er. exact L. }
  cbn [tbind]. rewrite Er in G. destruct G as [(-> & -> & Hmust)|(Ewr & Nw & Nr' & Lw & Hh & Vw)].
  - cbn [is_empty negb]. destruct (is_line_empty (f_writer f)) eqn:El.
    + assert (El' : w_line (f_writer f) = []) by (apply is_empty_true; exact El).
      destruct (Nat.eqb_spec (w_spaces (f_writer f)) 0) as [Z|Z]; cbn [negb].
      * exists (written r (f_writer f)).
        split; [unfold on_writer; rewrite write_ok by (left; reflexivity); reflexivity|].
        destruct Hmust as [X|X]; [discriminate|]. apply (Hforce c r (f_writer f)); assumption.
      * apply (IH c r (on_writer (set_spaces 0) f)); try assumption.
        -- unfold measure in *. rewrite El in Hm. destruct (Nat.eqb_spec (w_spaces (f_writer f)) 0); [lia|].
           unfold is_line_empty in *. simpl in *. rewrite El. lia.
        -- exists rules. auto.
        -- apply Hspaces; assumption.
    + assert (Nl : w_line (f_writer f) <> []) by (apply is_empty_false; exact El).
      destruct Hc as [->|Hc]; [|congruence].
      apply (IH [] r (on_writer (set_spaces 0) (newline f))); try assumption.
      * unfold measure in *. rewrite El in Hm. simpl. lia.
      * exists rules. auto.
      * apply (Hnext (f_writer f)); [exact HP|exact Nl|]. simpl in Ew. congruence.
      * left. reflexivity.
  - assert (Ew' : is_empty w = false) by (apply is_empty_false; exact Nw). rewrite Ew'. cbn [negb].
    assert (Lw1 : count_code_points w <= remaining_width (f_writer f)) by lia.
    assert (Ewd : word = c ++ w ++ r') by (rewrite Ewr; exact Ew).
    assert (Vw' : part_ok w /\ part_ok r').
    { split; intros n Hn; destruct (Vr n Hn) as (k & Hk); destruct (Vw k Hk) as (a & b & Ha & Hb); eauto. }
    destruct Vw' as (Vw1 & Vr1).
    set (w1 := written w (f_writer f)).
    assert (P1 : P (c ++ w) w1) by (apply (Hwrite c w r'); assumption).
    assert (R1 : remaining_width w1 = remaining_width (f_writer f) - count_code_points w)
      by (apply remaining_written; exact Lw1).
    assert (Nl1 : w_line w1 <> []).
    { simpl. intros X. apply app_eq_nil in X. destruct X as (_ & X). apply app_eq_nil in X. destruct X; auto. }
    assert (P2 : P (c ++ w) (next (match h with Some x => written [x] w1 | None => w1 end))).
    { apply (Hbreak (c ++ w) r' h w1); auto.
      - rewrite <- app_assoc. exact Ewd.
      - intros X. apply app_eq_nil in X. destruct X; auto.
      - destruct h; simpl in *; lia. }
    set (f1 := on_writer (fun x => snd (write w false x)) f).
    set (f2 := match h with Some c0 => on_writer (fun x => snd (write [c0] false x)) f1 | None => f1 end).
    assert (E1 : f1 = on_writer (fun _ => w1) f).
    { unfold f1, on_writer. rewrite write_ok by (right; exact Lw1). reflexivity. }
    assert (E2 : newline f2 = on_writer (fun _ => next (match h with Some x => written [x] w1 | None => w1 end)) f).
    { unfold f2. rewrite E1. destruct h as [x|]; [|reflexivity]. unfold newline, on_writer, next.
      cbn [f_writer f_indents f_rules f_state]. rewrite write_ok; [reflexivity|]. right.
      assert (Ec : count_code_points [x] <= 1) by apply (count_le_length_proof [x]). lia. }
    rewrite E2.
    destruct (IH (c ++ w) r' (on_writer (fun _ => next (match h with Some x => written [x] w1 | None => w1 end)) f))
      as (w' & -> & HP'); try assumption.
    + assert (Lr : length r' < length r).
      { rewrite <- Ewr, app_length. destruct w; [congruence|simpl; lia]. }
      assert (M1 : measure r' (f_writer (on_writer (fun _ => next (match h with Some x => written [x] w1 | None => w1 end)) f)) = length r').
      { unfold measure. cbn. lia. }
      rewrite M1. unfold measure in Hm. lia.
    + exists rules. auto.
    + rewrite <- app_assoc. exact Ewd.
    + intros n Hn. destruct (Vc n Hn) as (a & Ha). destruct (Vw1 n Hn) as (b & Hb).
      exists (a + b). apply utf8_app; assumption.
    + right. reflexivity.
    + exists w'. split; [reflexivity|exact HP'].
Qed.

Lemma append_word_proof : forall f, good_rules (f_rules f) -> word <> [] -> P [] (f_writer f) ->
  exists w', append_word word f = TOk (on_writer (fun _ => w') f) /\ P word w'.
Proof.
  intros f HG Nw HP. unfold append_word. apply (append_loop_proof _ [] word f).
  - unfold measure. destruct (is_line_empty (f_writer f)); [destruct (_ =? 0)|]; lia.
  - exact HG.
  - exact HP.
  - reflexivity.
  - exact Nw.
  - intros n Hn. eauto.
  - intros n _. exists 0. apply utf8_nil.
  - left. reflexivity.
Qed.
End Append.
