(** Texts that meet the conditions of C79. *)
From Verif Require Import Base BaseProofs MStrings MData MText MHelp MApi SStrings SDef SText SFormat SWrap SHelp SHelpWrap StrProofs
  SplitProofs RuleProofs PlaceProofs LayoutProofs LayoutProofs2 WidthProofs TextApi WrapProofs WrapProofs2 WrapProofs3 WrapProofs4 HelpProofs HelpProofs2
  HelpProofs3 HelpExact HelpApi HelpWrap HelpWrap2.
Open Scope nat_scope.

Lemma blanks_off : forall s, exists n r, s = blanks n ++ r /\ hd "x"%char r <> c_space.
Proof.
  induction s as [|c s (n & r & -> & H)]; [exists 0, []; split; [reflexivity|discriminate]|].
  destruct (Ascii.eqb_spec c c_space) as [->|N0]; [exists (S n), r; auto|]. exists 0, (c :: blanks n ++ r). auto.
Qed.

Lemma word_off : forall s, exists w r, s = w ++ r /\ ~ In c_space w /\ (r = [] \/ exists x, r = c_space :: x).
Proof.
  induction s as [|c s (w & r & -> & H & Hr)]; [exists [], []; auto|].
  destruct (Ascii.eqb_spec c c_space) as [->|N0].
  - exists [], (c_space :: w ++ r). split; [reflexivity|]. split; [intros []|eauto].
  - exists (c :: w), r. split; [reflexivity|]. split; [|exact Hr]. intros [X|X]; [congruence|exact (H X)].
Qed.

Lemma space_between : byte_between 0 127 c_space.
Proof. unfold byte_between. vm_compute. lia. Qed.

Lemma utf8_after_blanks : forall n r, utf8 (blanks n ++ r) -> utf8 r.
Proof.
  induction n as [|n IH]; intros r H; [exact H|]. apply IH. destruct H as (k & H). change (blanks (S n) ++ r) with ([] ++ c_space :: (blanks n ++ r)) in H.
  destruct (utf8_ascii_split _ _ _ _ space_between H) as (_ & m & _ & U). exists m. exact U.
Qed.

Lemma not_white : forall c, c <> c_tab /\ c <> c_lf /\ c <> c_cr -> c <> c_space -> is_white c = false.
Proof.
  intros c (H1 & H2 & H3) H4. destruct (is_white c) eqn:E; [|reflexivity]. exfalso. apply white_set in E.
  destruct E as [<-|[<-|[<-|[<-|[]]]]]; congruence.
Qed.

Lemma last_blanks : forall w n, last_char (w ++ blanks (S n)) = Some c_space.
Proof.
  intros w n. assert (E : blanks (S n) = blanks n ++ [c_space]).
  { unfold blanks. change (repeat c_space (S n)) with (c_space :: repeat c_space n). apply repeat_cons. }
  rewrite E, app_assoc. apply last_char_app.
Qed.

Lemma spaced_words : forall k s, length s <= k -> s <> [] -> spaced s -> hd c_space s <> c_space ->
  exists w more, s = w ++ more_text more /\ good_word w /\ good_more more.
Proof.
  induction k as [|k IH]; intros s L Ns Hs Hh; [destruct s; [congruence|simpl in L; lia]|].
  destruct Hs as (U & HC & HL). destruct (word_off s) as (w & r & E & Hw & Hr).
  assert (Nw : w <> []). { intros ->. cbn [app] in E. destruct Hr as [->|(x & ->)]; [congruence|]. subst s. apply Hh. reflexivity. }
  assert (Ww : forall c, In c w -> is_white c = false).
  { intros c Hc. apply not_white; [apply HC; rewrite E; apply in_or_app; auto|]. intros ->. exact (Hw Hc). }
  destruct Hr as [->|(x & Er)].
  - rewrite app_nil_r in E. subst w. exists s, []. split; [symmetry; apply app_nil_r|]. split; [|intros g w0 []].
    split; [exact Nw|]. split; [exact Ww|exact U].
  - destruct (blanks_off r) as (n & t & Et & Ht).
    destruct n as [|n]; [cbn [blanks repeat app] in Et; subst t; rewrite Er in Ht; exfalso; apply Ht; reflexivity|].
    assert (Uw : utf8 w /\ utf8 t).
    { destruct U as (m & U). rewrite E, Er in U. destruct (utf8_ascii_split _ _ _ _ space_between U) as (a & b & Ua & Ub).
      split; [exists a; exact Ua|]. rewrite Er in Et. injection Et as Et. rewrite Et in Ub. apply (utf8_after_blanks n). exists b. exact Ub. }
    destruct Uw as (Uw & Ut).
    assert (Nt : t <> []). { intros ->. rewrite app_nil_r in Et. apply HL. rewrite E, Et. apply last_blanks. }
    destruct (IH t) as (w' & more & Ew & Gw & Gm).
    + apply (f_equal (@length ascii)) in E. rewrite Et, !app_length in E. destruct w; [congruence|]. cbn [length] in E. lia.
    + exact Nt.
    + split; [exact Ut|]. split; [intros c Hc; apply HC; rewrite E, Et; apply in_or_app; right; apply in_or_app; auto|].
      intros X. apply HL. rewrite E, Et, app_assoc, last_char_app2 by exact Nt. exact X.
    + destruct t; [congruence|exact Ht].
    + exists w, ((Spaces (S n), w') :: more). split; [|split].
      * rewrite E, Et, Ew. unfold more_text. cbn [map concat fst snd gap_text]. rewrite <- !app_assoc. reflexivity.
      * split; [exact Nw|]. split; [exact Ww|exact Uw].
      * intros g v [X|X]; [injection X as <- <-; split; [simpl; lia|exact Gw]|apply Gm, X].
Qed.

Lemma marker_dec : forall w, is_marker w \/ ~ is_marker w.
Proof.
  intros w. destruct (is_list_marker w) eqn:E; [left; apply marker_ok, E|]. right. intros X. apply marker_conv in X. congruence.
Qed.

Lemma simple_good : forall l, simple_line l -> exists x, good_line x /\ line_text x = l.
Proof.
  intros l [->|(Hs & Hm)]; [exists Empty; split; [exact I|reflexivity]|]. pose proof Hs as (U & HC & HL).
  destruct (blanks_off l) as (n & r & E & Hr).
  destruct (list_eq_dec Ascii.ascii_dec l []) as [->|Nl]; [exists Empty; split; [exact I|reflexivity]|].
  assert (Nr : r <> []). { intros ->. rewrite app_nil_r in E. destruct n; [apply Nl; exact E|]. apply HL. rewrite E. apply (last_blanks []). }
  destruct (spaced_words (length r) r (le_n _) Nr) as (w & more & Ew & Gw & Gm).
  { split; [apply (utf8_after_blanks n); rewrite <- E; exact U|]. split; [intros c Hc; apply HC; rewrite E; apply in_or_app; auto|].
    intros X. apply HL. rewrite E, last_char_app2 by exact Nr. exact X. }
  { destruct r; [congruence|exact Hr]. }
  set (lead := match n with O => None | _ => Some (Spaces n) end).
  assert (Gl : match lead with Some g => good_gap g | None => True end) by (unfold lead; destruct n; simpl; [exact I|lia]).
  assert (El : match lead with Some g => gap_text g | None => [] end = blanks n) by (unfold lead; destruct n; reflexivity). clearbody lead.
  destruct (marker_dec w) as [M|M].
  - destruct more as [|[g w'] more].
    + exfalso. apply (Hm n w M). rewrite E, Ew. unfold more_text. cbn. rewrite app_nil_r. reflexivity.
    + destruct (Gm g w' (or_introl eq_refl)) as (Gg & Gw').
      exists (Line lead (Some (w, g)) w' more). split.
      * split; [exact Gl|]. split; [split; [exact M|exact Gg]|]. split; [exact Gw'|]. intros a b Hab. apply Gm. right. exact Hab.
      * transitivity (blanks n ++ (w ++ gap_text g) ++ w' ++ more_text more); [rewrite <- El; reflexivity|].
        rewrite E, Ew. unfold more_text. cbn [map concat fst snd]. rewrite <- !app_assoc. reflexivity.
  - exists (Line lead None w more). split; [split; [exact Gl|split; [exact M|split; [exact Gw|exact Gm]]]|].
    rewrite E, Ew, <- El. reflexivity.
Qed.

Lemma first_line : forall s : str, (~ In c_lf s) \/ exists l r, s = l ++ c_lf :: r /\ ~ In c_lf l.
Proof.
  induction s as [|c s [H|(l & r & -> & H)]]; [left; intros []| |]; (destruct (Ascii.eqb_spec c c_lf) as [->|N0]; [right; eexists [], _; split; [reflexivity|intros []]|]).
  - left. intros [X|X]; [congruence|exact (H X)].
  - right. exists (c :: l), r. split; [reflexivity|]. intros [X|X]; [congruence|exact (H X)].
Qed.

Lemma simple_lines : forall k u, length u <= k -> (forall l, In l (lines_of u) -> simple_line l) ->
  exists ls, ls <> [] /\ (forall l, In l ls -> good_line l) /\ u = text_of ls.
Proof.
  induction k as [|k IH]; intros u L H.
  - destruct u; [|simpl in L; lia]. exists [Empty]. split; [discriminate|]. split; [intros l [<-|[]]; exact I|reflexivity].
  - destruct (first_line u) as [N0|(l & r & E & N0)].
    + rewrite lines_of_last in H by exact N0. destruct (simple_good u (H u (or_introl eq_refl))) as (x & Gx & Ex).
      exists [x]. split; [discriminate|]. split; [intros l [<-|[]]; exact Gx|symmetry; exact Ex].
    + subst u. rewrite lines_of_app in H by exact N0. destruct (simple_good l (H l (or_introl eq_refl))) as (x & Gx & Ex).
      destruct (IH r) as (ls & Nl & Gl & El); [rewrite app_length in L; simpl in L; lia|intros y Hy; apply H; right; exact Hy|].
      exists (x :: ls). split; [discriminate|]. split; [intros y [<-|Hy]; auto|].
      destruct ls as [|y ls]; [congruence|]. rewrite text_of_cons, <- El, Ex. reflexivity.
Qed.

Lemma C79_text_proof : forall s, simple_text s -> good_text s.
Proof. intros s H. destruct (simple_lines _ (unix s) (le_n _) H) as (ls & N0 & G & E). exists ls. split; auto. Qed.

Lemma C79_side_proof : forall s, simple_side s -> good_side s.
Proof.
  intros s H. unfold simple_side in H. destruct (first_line (unix s)) as [N0|(l & r & E & N0)].
  - rewrite lines_of_last in H by exact N0. destruct (H _ _ eq_refl) as (Nu & Hs & Hh & _).
    destruct (spaced_words _ _ (le_n _) Nu Hs Hh) as (w & more & Ew & Gw & Gm).
    exists [Line None None w more]. split; [split; [exact Gw|split; [exact Gm|intros x []]]|exact Ew].
  - rewrite E, lines_of_app in H by exact N0. destruct (H _ _ eq_refl) as (Nu & Hs & Hh & Hl).
    destruct (spaced_words _ _ (le_n _) Nu Hs Hh) as (w & more & Ew & Gw & Gm).
    destruct (simple_lines _ r (le_n _) Hl) as (ls & Nl & Gl & El).
    exists (Line None None w more :: ls). split; [split; [exact Gw|split; [exact Gm|exact Gl]]|].
    destruct ls as [|y ls]; [congruence|]. rewrite E, text_of_cons, <- El. cbn [line_text app]. rewrite Ew. reflexivity.
Qed.

Lemma C79_name_proof : forall s, simple_name s -> good_name s.
Proof.
  intros s (N0 & Hs & Hh & Hm). destruct (spaced_words _ _ (le_n _) N0 Hs Hh) as (w & more & Ew & Gw & Gm).
  exists w, more. split; [exact Ew|]. split; [exact Gw|]. split; [|exact Gm]. intros M.
  destruct more as [|[[[|n]|] v] more].
  - apply (proj1 (Hm w [] M)). rewrite Ew. apply app_nil_r.
  - destruct (Gm _ _ (or_introl eq_refl)) as (X & _). simpl in X. lia.
  - apply (proj2 (Hm w (blanks n ++ v ++ more_text more) M)). rewrite Ew. unfold more_text. cbn [map concat fst snd gap_text].
    rewrite <- app_assoc. reflexivity.
  - destruct Hs as (_ & HC & _). apply (proj1 (HC c_tab ltac:(rewrite Ew; apply in_or_app; right; left; reflexivity))). reflexivity.
Qed.

(** ** The API *)

Lemma fresh_start : forall console d, help_ok console d -> exists f, help_formatter console d = TOk f /\
  WrapProofs2.at_start (d_word_rules d) (help_width console d) 0 [] f /\ fshown f = [] /\ w_line (f_writer f) = [].
Proof.
  intros console d Ho. pose proof Ho as (Hc & Hw & Hu & Hr). destruct (fmt_start console d Ho) as (m & Em). exists (HelpExact.at_start (help_width console d) m 0 [] []).
  split; [exact Em|]. split; [|split; reflexivity].
  destruct (proj1 (add_words_proof (d_word_rules d) []) Hr) as (m' & Em').
  assert (m = m').
  { unfold help_formatter, new_formatter in Em. destruct (Nat.leb_spec console 2); [lia|]. cbn [tbind] in Em.
    destruct (d_line_width d =? 0)%N.
    - cbn [tbind f_rules] in Em. rewrite Em' in Em.
      apply (f_equal (fun r => match r with TOk f => f_rules f | _ => m end)) in Em. cbn in Em. congruence.
    - unfold set_line_width in Em. destruct (N.to_nat (d_line_width d) <=? 2); [discriminate|]. cbn [tbind on_writer f_rules] in Em.
      rewrite Em' in Em.
      apply (f_equal (fun r => match r with TOk f => f_rules f | _ => m end)) in Em. cbn in Em. congruence. }
  subst m'. constructor; try reflexivity; [exact Em'|].
  constructor; try reflexivity; try discriminate. intros _. auto.
Qed.

Lemma C79_exact_proof : forall console d q path c, help_ok console d -> 8 < help_width console d -> trimmed_rules (d_word_rules d) ->
  counts_ok (d_command d) -> finish_parser (make_copy d) = Val q ->
  find_path (s_case_insensitive (d_settings q)) (d_command q) path = Val c ->
  readable_help (help_width console d) c ->
  exists out, write_subcommand_help_text console (Some d) path = HText out /\
    help_printed (d_word_rules d) (help_width console d) c out.
Proof.
  intros console d q path c Ho HW HT Hc E1 E2 Hp. destruct (api_help console d q path c E1 E2 Hc Ho) as (S0 & Oq & Wq & E).
  assert (Rq : d_word_rules q = d_word_rules d) by (destruct (finish_parser_rest _ _ E1) as (_ & X); exact X).
  rewrite <- Wq in *. rewrite <- Rq in *.
  destruct (fresh_start console q Oq) as (f & Ef & A & Sh & _). pose proof Oq as (_ & _ & HU & _).
  destruct (lays_help _ _ HU HT c HW S0 Hp [] f A) as (f1 & out & Ek & A1 & P & S1).
  exists out. split; [|exact P]. rewrite E. unfold write_help_text. rewrite Ef. cbn [tbind]. cbv zeta in *. rewrite Ek. f_equal.
  destruct (rd_fresh _ _ _ _ _ _ (as_writer _ _ _ _ _ A1) eq_refl) as (X & _). rewrite Sh in S1. unfold fshown, wshown in S1. rewrite X, app_nil_r in S1.
  exact S1.
Qed.

Lemma C79_error_proof : forall console p q c msg, finish_parser p = Val q -> counts_ok (d_command p) -> within (d_command q) c ->
  help_ok console q -> trimmed_rules (d_word_rules q) -> readable_usage c -> good_name (c_full_name c ++ $":") -> good_side msg ->
  exists f, write_error_message console q c msg = TOk f /\ w_line (f_writer f) = [] /\
    error_printed (d_word_rules q) (help_width console q) c msg (w_out (f_writer f)).
Proof.
  intros console p q c msg E Hc Hw Oq HT Hp Hn Hm. pose proof (finished_shapes _ _ _ E Hc Hw) as S0.
  destruct (fresh_start console q Oq) as (f & Ef & A & Sh & _). pose proof Oq as (_ & HW & HU & _).
  destruct (lays_error _ _ HU HT c msg HW S0 Hp Hn Hm [] f A) as (f1 & out & Ek & A1 & P & S1).
  exists f1. unfold write_error_message. rewrite Ef. cbn [tbind]. rewrite Ek. split; [reflexivity|].
  destruct (rd_fresh _ _ _ _ _ _ (as_writer _ _ _ _ _ A1) eq_refl) as (X & _). split; [exact X|].
  rewrite Sh in S1. unfold fshown, wshown in S1. rewrite X, app_nil_r in S1. rewrite S1. exact P.
Qed.

Lemma C79_determined_proof : forall console d c out out', help_ok console d -> trimmed_rules (d_word_rules d) ->
  help_printed (d_word_rules d) (help_width console d) c out -> help_printed (d_word_rules d) (help_width console d) c out' -> out = out'.
Proof. intros console d c out out' (_ & _ & _ & HB) HT. apply single_help; assumption. Qed.

Lemma C79_error_determined_proof : forall console d c msg out out', help_ok console d -> trimmed_rules (d_word_rules d) ->
  error_printed (d_word_rules d) (help_width console d) c msg out -> error_printed (d_word_rules d) (help_width console d) c msg out' -> out = out'.
Proof. intros console d c msg out out' (_ & _ & _ & HB) HT. apply single_error; assumption. Qed.
