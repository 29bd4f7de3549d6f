(** The specification of C79 determines the texts. *)
From Verif Require Import Base BaseProofs MStrings MData MText SStrings SText SFormat SWrap SHelp SHelpWrap StrProofs
  SplitProofs RuleProofs PlaceProofs LayoutProofs2 WrapProofs2 WrapProofs3 WrapProofs4.
Open Scope nat_scope.

(** ** The lines of a text *)

Lemma word_split : forall w w' r r', good_word w -> good_word w' -> starts_white r -> starts_white r' -> w ++ r = w' ++ r' ->
  w = w' /\ r = r'.
Proof.
  intros w w' r r' (N1 & H1 & _) (N2 & H2 & _) S1 S2 E.
  pose proof (token_word w r N1 H1 S1) as T1. pose proof (token_word w' r' N2 H2 S2) as T2.
  rewrite E, T2 in T1. injection T1 as -> ->. auto.
Qed.

Definition starts_word (r : str) : Prop := exists c s, r = c :: s /\ is_white c = false.

Lemma word_starts : forall w r, good_word w -> starts_word (w ++ r).
Proof. intros [|c w] r (N1 & H1 & _); [congruence|]. exists c, (w ++ r). split; [reflexivity|apply H1; left; reflexivity]. Qed.

Lemma gap_split : forall g g' r r', good_gap g -> good_gap g' -> starts_word r -> starts_word r' -> gap_text g ++ r = gap_text g' ++ r' ->
  g = g' /\ r = r'.
Proof.
  assert (T : forall g r, good_gap g -> starts_word r ->
    next_token (gap_text g ++ r) = (match g with Spaces _ => TkSpace | Tab => TkTab end, gap_text g, r)).
  { intros [n|] r Hg (c & s & -> & Hc).
    - apply token_spaces2; [exact Hg|]. intros x X. injection X as -> _. discriminate Hc.
    - reflexivity. }
  intros g g' r r' Hg Hg' Hr Hr' E. pose proof (T g r Hg Hr) as T1. pose proof (T g' r' Hg' Hr') as T2. rewrite E, T2 in T1.
  destruct g as [n|], g' as [m|]; try discriminate T1.
  - injection T1 as E1 ->. split; [|reflexivity]. f_equal. apply (f_equal (@length ascii)) in E1. unfold gap_text, blanks in E1.
    rewrite !repeat_length in E1. symmetry. exact E1.
  - injection T1 as ->. auto.
Qed.

Definition line_end (r : str) : Prop := r = [] \/ exists x, r = c_lf :: x.

Lemma end_white : forall r, line_end r -> starts_white r.
Proof. intros r [->|(x & ->)]; [left; reflexivity|]. right. exists c_lf, x. split; reflexivity. Qed.

Lemma gap_no_end : forall g r x, good_gap g -> gap_text g ++ r = x -> ~ line_end x.
Proof.
  intros [[|n]|] r x Hg E; [cbn in Hg; lia| |]; intros [->|(y & ->)]; discriminate E.
Qed.

Lemma word_no_end : forall x, starts_word x -> ~ line_end x.
Proof. intros x (c & s & -> & Hc) [X|(y & X)]; [discriminate X|]. injection X as -> _. discriminate Hc. Qed.

Definition good_more (more : list (SWrap.gap * str)) : Prop := forall g w, In (g, w) more -> good_gap g /\ good_word w.

Lemma more_split : forall more more' r r', good_more more -> good_more more' -> line_end r -> line_end r' ->
  more_text more ++ r = more_text more' ++ r' -> more = more' /\ r = r'.
Proof.
  induction more as [|[g w] more IH]; intros [|[g' w'] more'] r r' H H' Hr Hr' E.
  - auto.
  - exfalso. destruct (H' g' w' (or_introl eq_refl)) as (Gg & _). unfold more_text in E. cbn [map concat fst snd app] in E.
    rewrite <- !app_assoc in E. exact (gap_no_end g' _ _ Gg (eq_sym E) Hr).
  - exfalso. destruct (H g w (or_introl eq_refl)) as (Gg & _). unfold more_text in E. cbn [map concat fst snd app] in E.
    rewrite <- !app_assoc in E. exact (gap_no_end g _ _ Gg E Hr').
  - destruct (H g w (or_introl eq_refl)) as (Gg & Gw). destruct (H' g' w' (or_introl eq_refl)) as (Gg' & Gw').
    assert (HM : good_more more) by (intros a b Hab; apply H; right; exact Hab).
    assert (HM' : good_more more') by (intros a b Hab; apply H'; right; exact Hab).
    change (more_text ((g, w) :: more)) with ((gap_text g ++ w) ++ more_text more) in E.
    change (more_text ((g', w') :: more')) with ((gap_text g' ++ w') ++ more_text more') in E. rewrite <- !app_assoc in E.
    destruct (gap_split _ _ _ _ Gg Gg' (word_starts _ _ Gw) (word_starts _ _ Gw') E) as (<- & E1).
    destruct (word_split _ _ _ _ Gw Gw' (more_white more r HM (end_white _ Hr)) (more_white more' r' HM' (end_white _ Hr')) E1) as (<- & E2).
    destruct (IH more' r r' HM HM' Hr Hr' E2) as (<- & <-). auto.
Qed.

Lemma rest_split : forall w w' more more' r r', good_word w -> good_word w' -> good_more more -> good_more more' -> line_end r -> line_end r' ->
  w ++ more_text more ++ r = w' ++ more_text more' ++ r' -> w = w' /\ more = more' /\ r = r'.
Proof.
  intros w w' more more' r r' Gw Gw' HM HM' Hr Hr' E.
  destruct (word_split _ _ _ _ Gw Gw' (more_white more r HM (end_white _ Hr)) (more_white more' r' HM' (end_white _ Hr')) E) as (<- & E2).
  destruct (more_split _ _ _ _ HM HM' Hr Hr' E2) as (<- & <-). auto.
Qed.

Lemma name_split : forall s w more w' more', name_words s w more -> name_words s w' more' -> w = w' /\ more = more'.
Proof.
  intros s w more w' more' (E & Gw & _ & HM) (E' & Gw' & _ & HM').
  assert (X : w ++ more_text more ++ [] = w' ++ more_text more' ++ []) by (rewrite !app_nil_r; congruence).
  destruct (rest_split _ _ _ _ _ _ Gw Gw' HM HM' (or_introl eq_refl) (or_introl eq_refl) X) as (<- & <- & _). auto.
Qed.

(** The part of a line after the blanks at its beginning. *)
Definition body (marker : option (str * SWrap.gap)) (word : str) (more : list (SWrap.gap * str)) (r : str) : str :=
  match marker with Some (m, g) => m ++ gap_text g | None => [] end ++ word ++ more_text more ++ r.

Lemma gap_white : forall g r, good_gap g -> starts_white (gap_text g ++ r).
Proof.
  intros [[|n]|] r Hg; [cbn in Hg; lia| |]; right; eexists _, _; (split; [reflexivity|reflexivity]).
Qed.

Lemma body_starts : forall marker word more r, match marker with Some (m, g) => is_marker m /\ good_gap g | None => ~ is_marker word end ->
  good_word word -> starts_word (body marker word more r).
Proof.
  intros [[m g]|] word more r HM HW; unfold body.
  - destruct HM as (Hm & _). rewrite <- app_assoc. apply word_starts, marker_good, Hm.
  - apply (word_starts word (more_text more ++ r)), HW.
Qed.

Lemma body_split : forall marker word more r marker' word' more' r',
  match marker with Some (m, g) => is_marker m /\ good_gap g | None => ~ is_marker word end ->
  match marker' with Some (m, g) => is_marker m /\ good_gap g | None => ~ is_marker word' end ->
  good_word word -> good_word word' -> good_more more -> good_more more' -> line_end r -> line_end r' ->
  body marker word more r = body marker' word' more' r' -> marker = marker' /\ word = word' /\ more = more' /\ r = r'.
Proof.
  intros [[m g]|] word more r [[m' g']|] word' more' r' H1 H2 Gw Gw' HM HM' Hr Hr' E; unfold body in E.
  - destruct H1 as (Hm & Gg), H2 as (Hm' & Gg'). rewrite <- !app_assoc in E.
    destruct (word_split _ _ _ _ (marker_good _ Hm) (marker_good _ Hm') (gap_white _ _ Gg) (gap_white _ _ Gg') E) as (<- & E1).
    destruct (gap_split _ _ _ _ Gg Gg' (word_starts _ _ Gw) (word_starts _ _ Gw') E1) as (<- & E2).
    destruct (rest_split _ _ _ _ _ _ Gw Gw' HM HM' Hr Hr' E2) as (<- & <- & <-). auto.
  - exfalso. destruct H1 as (Hm & Gg). rewrite <- !app_assoc in E. cbn [app] in E.
    destruct (word_split _ _ _ _ (marker_good _ Hm) Gw' (gap_white _ _ Gg) (more_white more' r' HM' (end_white _ Hr')) E) as (<- & _).
    exact (H2 Hm).
  - exfalso. destruct H2 as (Hm & Gg). rewrite <- !app_assoc in E. cbn [app] in E.
    destruct (word_split _ _ _ _ Gw (marker_good _ Hm) (more_white more r HM (end_white _ Hr)) (gap_white _ _ Gg) E) as (<- & _).
    exact (H1 Hm).
  - cbn [app] in E. destruct (rest_split _ _ _ _ _ _ Gw Gw' HM HM' Hr Hr' E) as (<- & <- & <-). auto.
Qed.

Lemma white_word : forall g r x, good_gap g -> starts_word x -> gap_text g ++ r <> x.
Proof.
  intros [[|n]|] r x Hg (c & s & -> & Hc) X; [cbn in Hg; lia| |]; injection X as <- _; discriminate Hc.
Qed.

Lemma line_split : forall l l' r r', good_line l -> good_line l' -> line_end r -> line_end r' ->
  line_text l ++ r = line_text l' ++ r' -> l = l' /\ r = r'.
Proof.
  assert (B : forall lead marker word more r, line_text (Line lead marker word more) ++ r =
    match lead with Some g => gap_text g | None => [] end ++ body marker word more r).
  { intros lead marker word more r. unfold body. cbn [line_text]. rewrite <- !app_assoc. reflexivity. }
  assert (Z : forall lead marker word more r x, good_line (Line lead marker word more) -> line_end x ->
    line_text (Line lead marker word more) ++ r <> x).
  { intros lead marker word more r x (G1 & G2 & G3 & G4) Hx E. rewrite B in E. destruct lead as [g|].
    - exact (gap_no_end g _ _ G1 E Hx).
    - subst x. exact (word_no_end _ (body_starts _ _ _ _ G2 G3) Hx). }
  intros [|lead marker word more] [|lead' marker' word' more'] r r' HG HG' Hr Hr' E.
  - auto.
  - exfalso. exact (Z _ _ _ _ _ _ HG' Hr (eq_sym E)).
  - exfalso. exact (Z _ _ _ _ _ _ HG Hr' E).
  - rewrite !B in E. destruct HG as (G1 & G2 & G3 & G4), HG' as (K1 & K2 & K3 & K4).
    assert (F : lead = lead' /\ body marker word more r = body marker' word' more' r').
    { destruct lead as [g|], lead' as [g'|].
      - destruct (gap_split _ _ _ _ G1 K1 (body_starts _ _ _ _ G2 G3) (body_starts _ _ _ _ K2 K3) E) as (<- & E1). auto.
      - exfalso. exact (white_word _ _ _ G1 (body_starts _ _ _ _ K2 K3) E).
      - exfalso. exact (white_word _ _ _ K1 (body_starts _ _ _ _ G2 G3) (eq_sym E)).
      - auto. }
    destruct F as (<- & F). destruct (body_split _ _ _ _ _ _ _ _ G2 K2 G3 K3 G4 K4 Hr Hr' F) as (<- & <- & <- & <-). auto.
Qed.

Lemma text_of_cons : forall x y l, text_of (x :: y :: l) = line_text x ++ c_lf :: text_of (y :: l).
Proof. reflexivity. Qed.

Lemma text_split : forall ls ls', ls <> [] -> ls' <> [] -> (forall l, In l ls -> good_line l) -> (forall l, In l ls' -> good_line l) ->
  text_of ls = text_of ls' -> ls = ls'.
Proof.
  induction ls as [|x ls IH]; intros [|x' ls'] N1 N2 H H' E; try congruence.
  assert (Gx := H x (or_introl eq_refl)). assert (Gx' := H' x' (or_introl eq_refl)).
  assert (E' : line_text x ++ (match ls with [] => [] | _ => c_lf :: text_of ls end) =
               line_text x' ++ (match ls' with [] => [] | _ => c_lf :: text_of ls' end)).
  { destruct ls as [|y ls], ls' as [|y' ls']; rewrite ?app_nil_r; exact E. }
  assert (L1 : line_end (match ls with [] => [] | _ => c_lf :: text_of ls end)) by (destruct ls; [left|right]; eauto).
  assert (L2 : line_end (match ls' with [] => [] | _ => c_lf :: text_of ls' end)) by (destruct ls'; [left|right]; eauto).
  destruct (line_split _ _ _ _ Gx Gx' L1 L2 E') as (<- & E2). f_equal.
  destruct ls as [|y ls], ls' as [|y' ls']; try discriminate E2; [reflexivity|].
  apply IH; try discriminate.
  - intros l Hl. apply H. right. exact Hl.
  - intros l Hl. apply H'. right. exact Hl.
  - injection E2 as E2. exact E2.
Qed.

Lemma lines_unique : forall s ls ls', text_lines s ls -> text_lines s ls' -> ls = ls'.
Proof. intros s ls ls' (N1 & H1 & E1) (N2 & H2 & E2). apply text_split; try assumption. congruence. Qed.

Lemma side_unique : forall s ls ls', side_lines s ls -> side_lines s ls' -> ls = ls'.
Proof.
  intros s ls ls' (H1 & E1) (H2 & E2). rewrite E1 in E2. clear E1.
  destruct ls as [|[|[g|] [m|] word more] l]; try (destruct H1; fail).
  destruct ls' as [|[|[g|] [m|] word' more'] l']; try (destruct H2; fail). cbn [good_beside] in *.
  destruct H1 as (Gw & Gm & Gl), H2 as (Gw' & Gm' & Gl').
  assert (E' : word ++ more_text more ++ (match l with [] => [] | _ => c_lf :: text_of l end) =
               word' ++ more_text more' ++ (match l' with [] => [] | _ => c_lf :: text_of l' end)).
  { destruct l as [|y l], l' as [|y' l']; rewrite ?text_of_cons in E2; cbn [text_of line_text app] in E2;
      rewrite ?app_nil_r; rewrite <- ?app_assoc in E2; exact E2. }
  assert (L1 : line_end (match l with [] => [] | _ => c_lf :: text_of l end)) by (destruct l; [left|right]; eauto).
  assert (L2 : line_end (match l' with [] => [] | _ => c_lf :: text_of l' end)) by (destruct l'; [left|right]; eauto).
  destruct (rest_split _ _ _ _ _ _ Gw Gw' Gm Gm' L1 L2 E') as (<- & <- & E3). f_equal.
  destruct l as [|y l], l' as [|y' l']; try discriminate E3; [reflexivity|].
  apply text_split; try discriminate; try assumption. injection E3 as E3. exact E3.
Qed.

(** ** The parts *)

Definition single (p : printed) : Prop := forall a b, p a -> p b -> a = b.

Lemma single_followed : forall p q, single p -> single q -> single (followed p q).
Proof.
  intros p q Hp Hq a b (x & y & Px & Qy & ->) (x' & y' & Px' & Qy' & ->). rewrite (Hp _ _ Px Px'), (Hq _ _ Qy Qy'). reflexivity.
Qed.

Lemma single_nothing : single nothing.
Proof. intros a b -> ->. reflexivity. Qed.
Lemma single_empty_line : single empty_line.
Proof. intros a b -> ->. reflexivity. Qed.

Lemma single_order : forall l, Forall single l -> single (in_order l).
Proof.
  intros l H. induction H as [|p l Hp _ IH]; [apply single_nothing|]. apply single_followed; assumption.
Qed.

Lemma single_map : forall A (p : A -> printed) l, (forall x, In x l -> single (p x)) -> Forall single (map p l).
Proof. intros A p l H. apply Forall_forall. intros q Hq. apply in_map_iff in Hq. destruct Hq as (x & <- & Hx). apply H, Hx. Qed.

Section Single.
Variables (rules : list str) (width : nat).
Hypothesis HB : forall r, In r rules -> ~ bad_rule r.
Hypothesis HT : trimmed_rules rules.

Lemma single_text : forall s, single (text_printed rules width s).
Proof.
  intros s a b (ls & o & L & P & ->) (ls' & o' & L' & P' & ->). rewrite <- (lines_unique _ _ _ L L') in *.
  rewrite (put_text_unique rules width HT HB 0 ls o P o' P'). reflexivity.
Qed.

Lemma single_title : forall s, single (title_printed rules width s).
Proof.
  intros s a b (ls & o & L & P & ->) (ls' & o' & L' & P' & ->). rewrite <- (lines_unique _ _ _ L L') in *.
  rewrite (put_text_unique rules width HT HB 0 ls o P o' P'). reflexivity.
Qed.

Lemma name_unique : forall base s a e b e', name_printed rules width base s a e -> name_printed rules width base s b e' -> a = b /\ e = e'.
Proof.
  intros base s a e b e' (w & more & o1 & e1 & o2 & N1 & P1 & P2 & ->) (w' & more' & o1' & e1' & o2' & N1' & P1' & P2' & ->).
  destruct (name_split _ _ _ _ _ N1 N1') as (<- & <-).
  destruct (put_unique rules width HT HB _ _ _ _ _ _ _ _ _ P1 _ _ P1') as (<- & <-).
  destruct (put_words_unique rules width HT HB _ _ _ _ _ P2 _ _ P2') as (<- & <-). auto.
Qed.

Lemma single_usage_line : forall name ws, single (usage_line rules width name ws).
Proof.
  intros name ws a b (o1 & e1 & hang & o2 & e2 & N1 & -> & P & ->) (o1' & e1' & hang' & o2' & e2' & N1' & -> & P' & ->).
  destruct (name_unique _ _ _ _ _ _ N1 N1') as (<- & <-).
  destruct (put_words_unique rules width HT HB _ _ _ _ _ P _ _ P') as (<- & <-). reflexivity.
Qed.

Lemma single_usage : forall c, single (usage_printed rules width c).
Proof.
  intros c. apply single_order, Forall_app. split; [|constructor; [apply single_usage_line|constructor]].
  apply single_map. intros o _. apply single_usage_line.
Qed.

Lemma single_usage_title : forall t, single (usage_title rules width t).
Proof. intros [[|c s]|]; [apply single_nothing|apply single_text|apply single_title]. Qed.

Lemma single_usage_parts : forall c, Forall single (usage_parts rules width c).
Proof.
  intros c. unfold usage_parts. destruct (find_text (c_texts c) TX_USAGE) as [[|x s]|]; [constructor| |];
    (constructor; [|constructor]); (apply single_followed; [apply single_usage_title|]); [apply single_text|apply single_usage].
Qed.

Lemma single_entry : forall l e, single (entry_printed rules width l e).
Proof.
  intros l e a b (o1 & e1 & N1 & H) (o1' & e1' & N1' & H'). destruct (name_unique _ _ _ _ _ _ N1 N1') as (<- & <-).
  destruct (en_text e) as [|t0 t]; [congruence|]. destruct H as (ls & o2 & H), H' as (ls' & o2' & H').
  destruct (side_by_side width l).
  - destruct H as (L & P & ->), H' as (L' & P' & ->). rewrite <- (side_unique _ _ _ L L') in *.
    rewrite (put_beside_unique rules width HT HB _ _ _ _ _ P _ P'). reflexivity.
  - destruct H as (L & P & ->), H' as (L' & P' & ->). rewrite <- (lines_unique _ _ _ L L') in *.
    rewrite (put_text_unique rules width HT HB _ _ _ P _ P'). reflexivity.
Qed.

Lemma single_section : forall l t, single (section_printed rules width l t).
Proof.
  intros l t. apply single_followed; [apply single_title|]. apply single_order, single_map. intros e _. apply single_entry.
Qed.

Lemma single_text_parts : forall t, Forall single (text_parts rules width t).
Proof. intros [[|c s]|]; [constructor| |constructor]. constructor; [apply single_text|constructor]. Qed.

Lemma single_help : forall c, single (help_printed rules width c).
Proof.
  intros c. apply single_order, Forall_app. split.
  - assert (F : Forall single (text_parts rules width (find_text (c_texts c) TX_INITIAL_TEXT) ++ usage_parts rules width c ++
      about_parts rules width c ++ map (section_printed rules width (entries c)) (titles (entries c)))).
    { apply Forall_app. split; [apply single_text_parts|]. apply Forall_app. split; [apply single_usage_parts|].
      apply Forall_app. split.
      - unfold about_parts. pose proof (single_text_parts (find_text (c_texts c) TX_ABOUT)) as X.
        destruct (text_parts rules width (find_text (c_texts c) TX_ABOUT)); [apply single_text_parts|exact X].
      - apply single_map. intros t _. apply single_section. }
    destruct F as [|p l Hp Hl]; [constructor|]. cbn [map join app]. constructor; [exact Hp|]. rewrite map_map.
    induction Hl as [|q l Hq _ IH]; [constructor|]. cbn [map concat app]. constructor; [apply single_empty_line|]. constructor; [exact Hq|exact IH].
  - pose proof (single_text_parts (find_text (c_texts c) TX_FINAL_TEXT)) as F. induction F as [|p l Hp _ IH]; [constructor|].
    cbn [map concat app]. constructor; [apply single_empty_line|]. constructor; [exact Hp|exact IH].
Qed.

Lemma single_error : forall c msg, single (error_printed rules width c msg).
Proof.
  intros c msg. apply single_followed.
  - intros a b (o1 & e1 & ls & o2 & N1 & L & P & ->) (o1' & e1' & ls' & o2' & N1' & L' & P' & ->).
    destruct (name_unique _ _ _ _ _ _ N1 N1') as (<- & <-). rewrite <- (side_unique _ _ _ L L') in *.
    rewrite (put_beside_unique rules width HT HB _ _ _ _ _ P _ P'). reflexivity.
  - apply single_order. destruct (find_text (c_texts c) TX_ERROR_USAGE) as [s|]; [apply single_text_parts|apply single_usage_parts].
Qed.
End Single.
