(** Proofs about the layout of formatted text (C49): whole texts. *)
From Verif Require Import Base BaseProofs MStrings MText SStrings SText SFormat StrProofs SplitProofs
  RuleProofs TextProofs LayoutProofs.
Open Scope nat_scope.

(** ** Tokens *)

Lemma unix_app : forall x y, ~ In c_cr x -> unix (x ++ y) = x ++ unix y.
Proof.
  induction x as [|c x IH]; intros y H; [reflexivity|]. cbn [app unix].
  destruct (Ascii.eqb_spec c c_cr) as [->|_]; [exfalso; apply H; left; reflexivity|].
  f_equal. apply IH. intros X. apply H. right. exact X.
Qed.

Lemma find_first_of_spec : forall set s n, find_first_of set s = Some n ->
  exists x c y, s = x ++ c :: y /\ length x = n /\ In c set /\ forall d, In d x -> ~ In d set.
Proof.
  intros set. induction s as [|c s IH]; intros n H; simpl in H; [discriminate|].
  destruct (existsb (Ascii.eqb c) set) eqn:E.
  - injection H as <-. apply existsb_eqb_in in E. exists [], c, s.
    split; [reflexivity|]. split; [reflexivity|]. split; [exact E|intros d []].
  - destruct (find_first_of set s) as [m|]; [|discriminate]. injection H as <-.
    destruct (IH m eq_refl) as (x & d & y & -> & <- & Hd & Hx). exists (c :: x), d, y.
    split; [reflexivity|]. split; [reflexivity|]. split; [exact Hd|].
    intros e [<-|He]; [|auto]. intros X. apply existsb_eqb_in in X. congruence.
Qed.

Lemma find_first_not_of_spec : forall set s n, find_first_not_of set s = Some n ->
  exists x c y, s = x ++ c :: y /\ length x = n /\ ~ In c set /\ forall d, In d x -> In d set.
Proof.
  intros set. induction s as [|c s IH]; intros n H; simpl in H; [discriminate|].
  destruct (existsb (Ascii.eqb c) set) eqn:E.
  - destruct (find_first_not_of set s) as [m|]; [|discriminate]. injection H as <-.
    destruct (IH m eq_refl) as (x & d & y & -> & <- & Hd & Hx). exists (c :: x), d, y.
    split; [reflexivity|]. split; [reflexivity|]. split; [exact Hd|].
    intros e [<-|He]; [|auto]. apply existsb_eqb_in. exact E.
  - injection H as <-. exists [], c, s. split; [reflexivity|]. split; [reflexivity|].
    split; [|intros d []]. intros X. apply existsb_eqb_in in X. congruence.
Qed.

Lemma find_first_not_of_none : forall set s, find_first_not_of set s = None -> forall c, In c s -> In c set.
Proof.
  intros set. induction s as [|c s IH]; intros H d Hd; simpl in H; [destruct Hd|].
  destruct (existsb (Ascii.eqb c) set) eqn:E; [|discriminate].
  destruct (find_first_not_of set s); [discriminate|]. destruct Hd as [<-|Hd]; [apply existsb_eqb_in; exact E|auto].
Qed.

Lemma all_spaces : forall x, (forall d, In d x -> In d [c_space]) -> x = repeat c_space (length x).
Proof.
  induction x as [|c x IH]; intros H; [reflexivity|]. simpl. f_equal.
  - destruct (H c (or_introl eq_refl)) as [E|[]]. auto.
  - apply IH. intros d Hd. apply H. right. exact Hd.
Qed.

Lemma items_spaces : forall n, map word_item (repeat c_space n) = repeat Blank n.
Proof. induction n as [|n IH]; [reflexivity|]. simpl. f_equal. exact IH. Qed.

Lemma items_solid : forall x, (forall c, In c x -> is_white c = false) -> map word_item x = map Solid x.
Proof.
  intros x H. apply map_ext_in. intros c Hc. specialize (H c Hc). unfold is_white in H.
  unfold word_item. destruct (Ascii.eqb c c_space), (Ascii.eqb c c_tab), (Ascii.eqb c c_lf); try reflexivity;
    destruct (Ascii.eqb c c_cr); discriminate.
Qed.

Lemma white_set : forall c, is_white c = true <-> In c [c_tab; c_cr; c_lf; c_space].
Proof.
  intros c. unfold is_white. rewrite !orb_true_iff, !Ascii.eqb_eq. simpl.
  split; intros H; repeat destruct H as [H|H]; subst; auto; try contradiction; tauto.
Qed.

Definition starts_white (s : str) : Prop := s = [] \/ exists c s', s = c :: s' /\ is_white c = true.

Lemma next_token_spec : forall text k token rest, text <> [] -> next_token text = (k, token, rest) ->
  text = token ++ rest /\ token <> [] /\
  map word_item (unix text) = token_items k token ++ map word_item (unix rest) /\
  match k with
  | TkEnd => False
  | TkWord => (forall c, In c token -> is_white c = false) /\ starts_white rest
  | _ => exists x c, token = x ++ [c] /\ is_white c = true
  end.
Proof.
  intros text k token rest Nt E. destruct text as [|c t]; [congruence|]. unfold next_token in E.
  destruct (Ascii.eqb_spec c c_tab) as [->|N1].
  { injection E as <- <- <-. split; [reflexivity|]. split; [discriminate|]. split; [reflexivity|].
    exists [], c_tab. auto. }
  destruct (Ascii.eqb_spec c c_cr) as [->|N2].
  { destruct t as [|d t].
    - injection E as <- <- <-. split; [reflexivity|]. split; [discriminate|]. split; [reflexivity|].
      exists [], c_cr. auto.
    - destruct (Ascii.eqb_spec d c_lf) as [->|N3]; injection E as <- <- <-.
      + split; [reflexivity|]. split; [discriminate|]. split; [reflexivity|]. exists [c_cr], c_lf. auto.
      + split; [reflexivity|]. split; [discriminate|]. split; [|exists [], c_cr; auto].
        change (unix (c_cr :: d :: t)) with (c_lf :: if Ascii.eqb d c_lf then unix t else unix (d :: t)).
        destruct (Ascii.eqb_spec d c_lf); [congruence|]. reflexivity. }
  destruct (Ascii.eqb_spec c c_lf) as [->|N3].
  { injection E as <- <- <-. split; [reflexivity|]. split; [discriminate|]. split; [reflexivity|].
    exists [], c_lf. auto. }
  destruct (Ascii.eqb_spec c c_space) as [->|N4].
  { destruct (find_first_not_of [c_space] (c_space :: t)) as [n|] eqn:F; injection E as <- <- <-.
    - destruct (find_first_not_of_spec _ _ _ F) as (x & d & y & Ex & <- & Nd & Hx).
      rewrite Ex, firstn_app, firstn_all, Nat.sub_diag, app_nil_r, skipn_app, skipn_all, Nat.sub_diag.
      simpl (skipn 0 _). split; [reflexivity|].
      destruct x as [|x0 x]; [injection Ex as <- _; exfalso; apply Nd; left; reflexivity|].
      split; [discriminate|].
      assert (Ncr : ~ In c_cr (x0 :: x)) by (intros X; destruct (Hx _ X) as [Y|[]]; discriminate).
      split.
      + rewrite unix_app by exact Ncr. rewrite map_app. f_equal.
        rewrite (all_spaces _ Hx) at 1. apply items_spaces.
      + rewrite (all_spaces _ Hx). exists (repeat c_space (length x)), c_space. split; [|reflexivity].
        simpl. clear. induction (length x) as [|n IH]; [reflexivity|]. simpl. f_equal. exact IH.
    - pose proof (find_first_not_of_none _ _ F) as Hx. split; [symmetry; apply app_nil_r|]. split; [discriminate|].
      assert (Ncr : ~ In c_cr (c_space :: t)) by (intros X; destruct (Hx _ X) as [Y|[]]; discriminate).
      split.
      + rewrite <- (app_nil_r (c_space :: t)) at 1. rewrite unix_app by exact Ncr. rewrite map_app. f_equal.
        rewrite (all_spaces _ Hx) at 1. apply items_spaces.
      + rewrite (all_spaces _ Hx). exists (repeat c_space (length t)), c_space. split; [|reflexivity].
        simpl. clear. induction (length t) as [|n IH]; [reflexivity|]. simpl. f_equal. exact IH. }
  destruct (find_first_of [c_tab; c_cr; c_lf; c_space] (c :: t)) as [n|] eqn:F; injection E as <- <- <-.
  - destruct (find_first_of_spec _ _ _ F) as (x & d & y & Ex & <- & Hd & Hx).
    rewrite Ex, firstn_app, firstn_all, Nat.sub_diag, app_nil_r, skipn_app, skipn_all, Nat.sub_diag.
    simpl (skipn 0 _). split; [reflexivity|].
    destruct x as [|x0 x].
    { injection Ex as <- _. exfalso. destruct Hd as [H|[H|[H|[H|[]]]]]; congruence. }
    split; [discriminate|].
    assert (Hw : forall z, In z (x0 :: x) -> is_white z = false).
    { intros z Hz. destruct (is_white z) eqn:W; [|reflexivity]. apply white_set in W. exfalso. eapply Hx; eassumption. }
    assert (Ncr : ~ In c_cr (x0 :: x)) by (intros X; apply Hw in X; discriminate).
    split; [|split; [exact Hw|right; exists d, y; split; [reflexivity|apply white_set; exact Hd]]].
    rewrite unix_app by exact Ncr. rewrite map_app. f_equal. apply items_solid. exact Hw.
  - pose proof (proj1 (find_first_of_none _ _) F) as Hx. split; [symmetry; apply app_nil_r|]. split; [discriminate|].
    assert (Hw : forall z, In z (c :: t) -> is_white z = false).
    { intros z Hz. destruct (is_white z) eqn:W; [|reflexivity]. apply white_set in W. exfalso. eapply Hx; eassumption. }
    assert (Ncr : ~ In c_cr (c :: t)) by (intros X; apply Hw in X; discriminate).
    split; [|split; [exact Hw|left; reflexivity]].
    rewrite <- (app_nil_r (c :: t)) at 1. rewrite unix_app by exact Ncr. rewrite map_app. f_equal.
    apply items_solid. exact Hw.
Qed.

Lemma marker_ok : forall m, is_list_marker m = true -> is_marker m.
Proof.
  intros m H. destruct m as [|a [|b m]]; [discriminate| |].
  - unfold is_list_marker in H. apply orb_true_iff in H. rewrite !Ascii.eqb_eq in H.
    destruct H as [H|H]; subst; [left|right; left]; reflexivity.
  - right. right. unfold is_list_marker in H.
    destruct (last_char (a :: b :: m)) as [c|] eqn:E; [|discriminate].
    apply andb_true_iff in H. destruct H as (H1 & H2). apply Ascii.eqb_eq in H1. subst c.
    assert (Ne : a :: b :: m <> []) by discriminate.
    pose proof (app_removelast_last "."%char Ne) as R. exists (removelast (a :: b :: m)).
    assert (L : last (a :: b :: m) "."%char = "."%char).
    { rewrite R in E. rewrite last_char_app in E. injection E as E. exact E. }
    rewrite L in R. split; [exact R|]. split; [destruct m; discriminate|].
    intros c Hc. rewrite forallb_forall in H2. specialize (H2 c Hc). unfold isdigit in H2.
    apply andb_true_iff in H2. destruct H2 as (A & B). apply N.leb_le in A, B. unfold u8 in *.
    unfold nat_of_ascii. lia.
Qed.

(** ** Texts *)

Section Texts.
Variable glue : Prop.

Lemma words_ok : forall fuel a text t p f, length text <= fuel -> finv glue t p f ->
  (has_marker (a ++ text) -> glue) ->
  (a = [] \/ (exists a' c, a = a' ++ [c] /\ is_white c = true) \/ starts_white text) ->
  exists f1 p1, words_loop fuel text f = TOk f1 /\ finv glue (t ++ map word_item (unix text)) p1 f1 /\
    ~ is_aligned (f_state f1).
Proof.
  induction fuel as [|fuel IH]; intros a text t p f L H Hm Ha.
  - destruct text; [|simpl in L; lia]. destruct (end_ok glue t p f H) as (f1 & E & F1 & Nf).
    exists f1, p. cbn. rewrite app_nil_r. auto.
  - destruct text as [|c text].
    { destruct (end_ok glue t p f H) as (f1 & E & F1 & Nf). exists f1, p. cbn. rewrite app_nil_r. auto. }
    remember (c :: text) as s eqn:Es. assert (Ns : s <> []) by (subst; discriminate).
    cbn [words_loop]. destruct (next_token s) as ((k & token) & rest) eqn:E.
    destruct (next_token_spec _ _ _ _ Ns E) as (E1 & Nt & E2 & Hk).
    assert (Hok : match k with
      | TkEnd => False
      | TkWord => token <> [] /\ ~ In c_lf token /\ (is_list_marker token = true -> glue)
      | TkSpace => token <> []
      | _ => True end).
    { destruct k; auto. destruct Hk as (Hw & Hr). split; [exact Nt|]. split; [intros X; apply Hw in X; discriminate|].
      intros Hmk. apply Hm. exists a, token, rest. rewrite E1. split; [reflexivity|].
      split; [apply marker_ok; exact Hmk|]. split; [|exact Hr].
      destruct Ha as [Ha|[Ha|Ha]]; [left; exact Ha|right; exact Ha|].
      exfalso. destruct token as [|x token]; [congruence|]. specialize (Hw x (or_introl eq_refl)).
      destruct Ha as [Ha|(c0 & s' & Ha & W)]; [congruence|]. rewrite E1 in Ha. injection Ha as -> _. congruence. }
    destruct (token_ok glue t p f k token H Hok) as (f1 & p1 & Ew & F1).
    assert (Lr : length rest <= fuel).
    { rewrite E1, app_length in L. destruct token; [congruence|]. simpl in L. lia. }
    destruct (IH (a ++ token) rest (t ++ token_items k token) p1 f1 Lr F1) as (f2 & p2 & El & F2 & Nf).
    + rewrite <- app_assoc, <- E1. exact Hm.
    + right. destruct k.
      * destruct Hk.
      * destruct Hk as (x & d & -> & W). left. exists (a ++ x), d. rewrite app_assoc. auto.
      * destruct Hk as (x & d & -> & W). left. exists (a ++ x), d. rewrite app_assoc. auto.
      * destruct Hk as (x & d & -> & W). left. exists (a ++ x), d. rewrite app_assoc. auto.
      * right. apply Hk.
    + exists f2, p2. rewrite Es. rewrite <- Es. rewrite Ew. cbn [tbind]. split; [exact El|]. split; [|exact Nf].
      rewrite E2, app_assoc. exact F2.
Qed.

(** Lines. *)
Definition ends_newline (s : str) : bool :=
  match last_char s with Some c => Ascii.eqb c c_lf || Ascii.eqb c c_cr | None => false end.

Lemma next_line_spec : forall text, text <> [] -> last_char text <> Some c_cr ->
  exists line rem, next_line text = TOk (line, rem) /\ ~ In c_lf line /\ ~ In c_cr line /\
    last_char rem <> Some c_cr /\ length rem < length text /\
    ((rem = [] /\ text = line) \/
     (map line_item (unix text) = map Solid line ++ Break :: map line_item (unix rem) /\
      (rem = [] -> ends_newline text = true) /\ (rem <> [] -> ends_newline text = ends_newline rem))).
Proof.
  intros text Nt Nc. unfold next_line. destruct (find_first_of [c_lf; c_cr] text) as [pos|] eqn:F.
  2:{ pose proof (proj1 (find_first_of_none _ _) F) as Hx. exists text, []. split; [reflexivity|].
      split; [intros X; apply (Hx _ X); left; reflexivity|].
      split; [intros X; apply (Hx _ X); right; left; reflexivity|]. split; [discriminate|].
      split; [destruct text; [congruence|simpl; lia]|left; auto]. }
  destruct (find_first_of_spec _ _ _ F) as (x & d & y & -> & <- & Hd & Hx).
  assert (Nlf : ~ In c_lf x) by (intros X; apply (Hx _ X); left; reflexivity).
  assert (Ncr : ~ In c_cr x) by (intros X; apply (Hx _ X); right; left; reflexivity).
  assert (Ix : map line_item x = map Solid x).
  { apply map_ext_in. intros c Hc. unfold line_item. destruct (Ascii.eqb_spec c c_lf) as [->|_]; [contradiction|reflexivity]. }
  rewrite nth_error_app2, Nat.sub_diag by lia. rewrite (nth_error_app2 x (d :: y) (n := length x + 1)) by lia.
  replace (length x + 1 - length x) with 1 by lia. cbn [nth_error].
  rewrite firstn_app, firstn_all, Nat.sub_diag, app_nil_r.
  assert (K1 : skipn (length x + 1) (x ++ d :: y) = y).
  { rewrite skipn_app, skipn_all2 by lia. replace (length x + 1 - length x) with 1 by lia. reflexivity. }
  assert (K2 : skipn (length x + 2) (x ++ d :: y) = skipn 1 y).
  { rewrite skipn_app, skipn_all2 by lia. replace (length x + 2 - length x) with 2 by lia. reflexivity. }
  rewrite K1, K2. rewrite !app_length. cbn [length].
  destruct Hd as [<-|[<-|[]]].
  - rewrite Ascii.eqb_refl. cbn [orb]. exists x, y. split; [reflexivity|]. split; [exact Nlf|]. split; [exact Ncr|].
    destruct y as [|e y].
    + split; [discriminate|]. split; [simpl; lia|]. right. rewrite unix_app, map_app, Ix by exact Ncr.
      split; [reflexivity|]. split; [|congruence]. intros _. unfold ends_newline. rewrite last_char_app. reflexivity.
    + assert (El : last_char (x ++ c_lf :: e :: y) = last_char (e :: y)).
      { rewrite last_char_app2 by discriminate. reflexivity. }
      rewrite El in Nc. split; [exact Nc|]. split; [simpl; lia|]. right. rewrite unix_app, map_app, Ix by exact Ncr.
      split; [reflexivity|]. split; [discriminate|]. intros _. unfold ends_newline. rewrite El. reflexivity.
  - change (Ascii.eqb c_cr c_lf) with false. cbn [orb].
    destruct y as [|e y].
    { exfalso. apply Nc. apply last_char_app. }
    cbn [nth_error length]. replace (length x + 1 =? length x + S (S (length y))) with false
      by (symmetry; apply Nat.eqb_neq; lia). cbn [negb andb].
    assert (El : last_char (x ++ c_cr :: e :: y) = last_char (e :: y)).
    { rewrite last_char_app2 by discriminate. reflexivity. }
    destruct (Ascii.eqb_spec e c_lf) as [->|Ne]; cbn [negb].
    + destruct (Nat.ltb_spec (length x + S (S (length y))) (length x + 2)); [lia|].
      exists x, y. split; [reflexivity|]. split; [exact Nlf|]. split; [exact Ncr|].
      assert (Iu : map line_item (unix (x ++ c_cr :: c_lf :: y)) = map Solid x ++ Break :: map line_item (unix y)).
      { rewrite unix_app, map_app, Ix by exact Ncr. reflexivity. }
      rewrite El in Nc. destruct y as [|g y].
      * split; [discriminate|]. split; [simpl; lia|]. right. split; [exact Iu|]. split; [|congruence].
        intros _. unfold ends_newline. rewrite El. reflexivity.
      * split; [exact Nc|]. split; [simpl; lia|]. right. split; [exact Iu|]. split; [discriminate|].
        intros _. unfold ends_newline. rewrite El. reflexivity.
    + exists x, (e :: y). split; [reflexivity|]. split; [exact Nlf|]. split; [exact Ncr|].
      rewrite El in Nc. split; [exact Nc|]. split; [simpl; lia|]. right. split; [|split; [discriminate|]].
      * rewrite unix_app, map_app, Ix by exact Ncr. f_equal.
        change (unix (c_cr :: e :: y)) with (c_lf :: if Ascii.eqb e c_lf then unix y else unix (e :: y)).
        destruct (Ascii.eqb_spec e c_lf); [congruence|]. reflexivity.
      * intros _. unfold ends_newline. rewrite El. reflexivity.
Qed.

Lemma lines_loop_ok : forall fuel text t p f, length text <= fuel -> last_char text <> Some c_cr ->
  finv glue t p f ->
  exists f1 p1 X, lines_loop fuel text f = TOk f1 /\ finv glue (t ++ X) p1 f1 /\ f_state f1 = f_state f /\
    map line_item (unix text) = X ++ (if ends_newline text then [Break] else []).
Proof.
  induction fuel as [|fuel IH]; intros text t p f L Nc H.
  - destruct text; [|simpl in L; lia]. exists f, p, []. rewrite app_nil_r. auto.
  - destruct text as [|c text]; [exists f, p, []; rewrite app_nil_r; auto|].
    remember (c :: text) as s eqn:Es. assert (Ns : s <> []) by (subst; discriminate).
    destruct (next_line_spec s Ns Nc) as (line & rem & En & N1 & N2 & Nr & Lr & Hs).
    assert (Hl : exists f1 p1, (if negb (is_empty line) then append_word line f else TOk f) = TOk f1 /\
      finv glue (t ++ map Solid line) p1 f1 /\ f_state f1 = f_state f).
    { destruct line as [|x line]; cbn [is_empty negb].
      - exists f, p. simpl. rewrite app_nil_r. auto.
      - destruct (word_ok glue t p f (x :: line) H ltac:(discriminate) N1) as (f1 & E & F1 & S1).
        exists f1, Inside. auto. }
    destruct Hl as (f1 & p1 & E1 & F1 & S1).
    assert (Eq : lines_loop (S fuel) s f = lines_loop fuel rem (if negb (is_empty rem) then newline f1 else f1)).
    { rewrite Es. cbn [lines_loop]. rewrite <- Es, En. cbn [tbind]. rewrite E1. reflexivity. }
    rewrite Eq. destruct Hs as [(-> & ->)|(Ei & He1 & He2)].
    + exists f1, p1, (map Solid line). split; [destruct fuel; reflexivity|]. split; [exact F1|]. split; [exact S1|].
      assert (Ee : ends_newline line = false).
      { unfold ends_newline. destruct (last_char line) as [z|] eqn:Ez; [|reflexivity]. apply last_in in Ez.
        destruct (Ascii.eqb_spec z c_lf) as [->|_]; [contradiction|].
        destruct (Ascii.eqb_spec z c_cr) as [->|_]; [contradiction|reflexivity]. }
      rewrite Ee, app_nil_r. rewrite <- (app_nil_r line) at 1. rewrite unix_app by exact N2. rewrite app_nil_r.
      apply map_ext_in. intros z Hz. unfold line_item. destruct (Ascii.eqb_spec z c_lf) as [->|_]; [contradiction|reflexivity].
    + destruct rem as [|x rem].
      * exists f1, p1, (map Solid line). split; [destruct fuel; reflexivity|]. split; [exact F1|]. split; [exact S1|].
        rewrite Ei, (He1 eq_refl). reflexivity.
      * cbn [is_empty negb].
        destruct (IH (x :: rem) ((t ++ map Solid line) ++ [Break]) Gap (newline f1) ltac:(lia) Nr (newline_ok glue _ _ _ F1))
          as (f2 & p2 & X & E2 & F2 & S2 & EX).
        exists f2, p2, (map Solid line ++ Break :: X). split; [exact E2|]. split.
        { rewrite <- !app_assoc in F2. exact F2. }
        split; [rewrite S2; exact S1|].
        rewrite Ei, (He2 ltac:(discriminate)), EX, <- app_assoc. reflexivity.
Qed.

Lemma lines_ok : forall text t p f, last_char text <> Some c_cr -> finv glue t p f ->
  exists f1 p1, write_lines text f = TOk f1 /\ finv glue (t ++ map line_item (unix text)) p1 f1 /\ f_state f1 = f_state f.
Proof.
  intros text t p f Nc H. unfold write_lines.
  destruct (lines_loop_ok (length text) text t p f (le_n _) Nc H) as (f1 & p1 & X & -> & F1 & S1 & ->).
  cbn [tbind]. unfold ends_newline. destruct (last_char text) as [c|].
  - destruct (Ascii.eqb c c_lf || Ascii.eqb c c_cr).
    + exists (newline f1), Gap. split; [reflexivity|]. split; [|exact S1]. rewrite app_assoc.
      apply newline_ok with (p := p1). exact F1.
    + exists f1, p1. rewrite app_nil_r. auto.
  - exists f1, p1. rewrite app_nil_r. auto.
Qed.

(** A text that ends with CR is not accepted by [write_lines]. *)
Lemma lines_cr : forall fuel text f, last_char text = Some c_cr -> forall f1, lines_loop fuel text f <> TOk f1.
Proof.
  induction fuel as [|fuel IH]; intros text f H f1 E.
  - destruct text; [discriminate|]. discriminate E.
  - destruct text as [|c text]; [discriminate H|]. remember (c :: text) as s eqn:Es.
    assert (E' : lines_loop (S fuel) s f = tbind (next_line s) (fun lr => let (line, rem) := lr in
      tbind (if negb (is_empty line) then append_word line f else TOk f) (fun f1 =>
              lines_loop fuel rem (if negb (is_empty rem) then newline f1 else f1))))
      by (rewrite Es; reflexivity).
    rewrite E' in E. clear E'. unfold next_line in E.
    destruct (find_first_of [c_lf; c_cr] s) as [pos|] eqn:F.
    2:{ pose proof (proj1 (find_first_of_none _ _) F) as Hx. apply last_in in H. apply (Hx _ H). right. left. reflexivity. }
    destruct (find_first_of_spec _ _ _ F) as (x & d & y & Ey & <- & Hd & Hx). rewrite Ey in *. clear c text Es.
    rewrite nth_error_app2, Nat.sub_diag in E by lia.
    rewrite (nth_error_app2 x (d :: y) (n := length x + 1)) in E by lia.
    replace (length x + 1 - length x) with 1 in E by lia. cbn [nth_error] in E.
    assert (K1 : skipn (length x + 1) (x ++ d :: y) = y).
    { rewrite skipn_app, skipn_all2 by lia. replace (length x + 1 - length x) with 1 by lia. reflexivity. }
    assert (K2 : skipn (length x + 2) (x ++ d :: y) = skipn 1 y).
    { rewrite skipn_app, skipn_all2 by lia. replace (length x + 2 - length x) with 2 by lia. reflexivity. }
    rewrite K1, K2 in E. rewrite !app_length in E. cbn [length] in E.
    assert (Step : forall rem ln, last_char rem = Some c_cr ->
      tbind (TOk (ln, rem)) (fun lr : str * str => let (line, rem) := lr in
        tbind (if negb (is_empty line) then append_word line f else TOk f) (fun f1 =>
              lines_loop fuel rem (if negb (is_empty rem) then newline f1 else f1))) = TOk f1 -> False).
    { intros rem ln Hr Eb. cbn [tbind] in Eb. destruct (if negb (is_empty ln) then _ else _); try discriminate.
      cbn [tbind] in Eb. apply IH in Eb; assumption. }
    destruct y as [|e y].
    + rewrite last_char_app in H. injection H as ->. change (Ascii.eqb c_cr c_lf) with false in E. cbn [orb] in E.
      rewrite Nat.eqb_refl in E. cbn [negb andb] in E. cbn [length] in E. destruct (Nat.ltb_spec (length x + 1) (length x + 2)); [discriminate E|lia].
    + assert (El : last_char (x ++ d :: e :: y) = last_char (e :: y)).
      { rewrite last_char_app2 by discriminate. reflexivity. }
      rewrite El in H. cbn [nth_error length] in E.
      destruct (Ascii.eqb d c_lf); cbn [orb] in E; [eapply Step; [exact H|exact E]|].
      destruct (_ && _) eqn:B; [eapply Step; [exact H|exact E]|].
      destruct (_ <? _); [discriminate E|]. cbn [skipn] in E.
      destruct y as [|g y]; [|apply (Step (g :: y) _ H E)].
      simpl in H. injection H as ->. change (Ascii.eqb c_cr c_lf) with false in B. cbn [negb] in B.
      rewrite andb_true_r in B. apply negb_false_iff, Nat.eqb_eq in B. simpl in B. lia.
Qed.

Lemma lines_cr_text : forall text f f1, write_lines text f = TOk f1 -> last_char text <> Some c_cr.
Proof.
  intros text f f1 E X. unfold write_lines in E.
  destruct (lines_loop (length text) text f) as [f2| | |] eqn:El; try discriminate.
  apply lines_cr in El; assumption.
Qed.
End Texts.

(** ** Sequences of calls *)

Lemma run_layout : forall glue ops t p f f1, finv glue t p f -> ~ is_aligned (f_state f) ->
  (ops_marker ops -> glue) -> run_ops ops f = TOk f1 ->
  exists p1, finv glue (t ++ ops_items ops) p1 f1 /\ ~ is_aligned (f_state f1).
Proof.
  intros glue. induction ops as [|o ops IH]; intros t p f f1 H Na Hm E.
  - simpl in E. injection E as <-. exists p. unfold ops_items. simpl. rewrite app_nil_r. auto.
  - cbn [run_ops] in E. destruct (run_op o f) as [f0| | |] eqn:Eo; try discriminate. cbn [tbind] in E.
    assert (Hm' : ops_marker ops -> glue).
    { intros (s & Hs & X). apply Hm. exists s. split; [right; exact Hs|exact X]. }
    assert (Step : exists p0, finv glue (t ++ op_items o) p0 f0 /\ ~ is_aligned (f_state f0)).
    { destruct o as [s|s| |n|]; cbn [run_op] in Eo; cbn [op_items].
      - destruct (words_ok glue (length s) [] s t p f (le_n _) H) as (f2 & p2 & E2 & F2 & N2).
        + intros X. apply Hm. exists s. split; [left; reflexivity|exact X].
        + left. reflexivity.
        + unfold write_words in Eo. rewrite E2 in Eo. injection Eo as <-. eauto.
      - pose proof (lines_cr_text _ _ _ Eo) as Nc.
        destruct (lines_ok glue s t p f Nc H) as (f2 & p2 & E2 & F2 & N2).
        rewrite E2 in Eo. injection Eo as <-. exists p2. split; [exact F2|]. rewrite N2. exact Na.
      - injection Eo as <-. exists Gap. split; [apply newline_ok with (p := p); exact H|exact Na].
      - injection Eo as <-. exists Either.
        assert (Ns : f_state (push_indentation n f) = f_state f) by (destruct n; reflexivity).
        split; [|rewrite Ns; exact Na].
        destruct H as [[H1 H2 H3 H4 H5] G2 G3 G4 G5 G6 G7].
        assert (W : forall k, winv glue (t ++ [Maybe]) Either (set_spaces k (f_writer f)) /\
                              winv glue (t ++ [Maybe]) Either (f_writer f)).
        { intros k. split; constructor; try assumption; try exact I; apply lay_maybe with (p := p); exact H1. }
        destruct n as [n|]; cbn [push_indentation].
        + destruct (set_indentation_width n (f_writer f)) as (E1 & E2).
          constructor; cbn [f_writer f_indents f_rules f_state set_indents on_writer].
          * apply winv_indent; [apply (W 0)|discriminate|left; discriminate].
          * exact G2.
          * discriminate.
          * intros m l X. injection X as <- _. rewrite E1, E2. intros L.
            destruct (Nat.leb_spec (w_line_width (f_writer f)) n); [lia|reflexivity].
          * intros X. contradiction.
          * exact G6.
          * discriminate.
        + set (n := current_width (f_writer f)).
          destruct (set_indentation_width n (set_spaces 0 (f_writer f))) as (E1 & E2).
          cbn [w_line_width w_indent set_spaces] in E1, E2.
          constructor; cbn [f_writer f_indents f_rules f_state set_indents on_writer].
          * apply winv_indent; [apply (W 0)|discriminate|left; discriminate].
          * exact G2.
          * discriminate.
          * intros m l X. injection X as <- _. rewrite E1, E2. intros L.
            destruct (Nat.leb_spec (w_line_width (f_writer f)) n); [lia|reflexivity].
          * intros X. contradiction.
          * exact G6.
          * discriminate.
      - unfold pop_indentation in Eo. destruct (f_indents f) as [|m [|n l]] eqn:El; try discriminate.
        injection Eo as <-. exists Either. split; [|exact Na].
        destruct H as [[H1 H2 H3 H4 H5] G2 G3 G4 G5 G6 G7].
        destruct (set_indentation_width n (f_writer f)) as (E1 & E2).
        constructor; cbn [f_writer f_indents f_rules f_state set_indents on_writer].
        + apply winv_indent; [|discriminate|left; discriminate].
          constructor; try assumption; try exact I. apply lay_maybe with (p := p). exact H1.
        + exact G2.
        + discriminate.
        + intros k l' X. injection X as <- _. rewrite E1, E2. intros L.
          destruct (Nat.leb_spec (w_line_width (f_writer f)) n); [lia|reflexivity].
        + intros X. contradiction.
        + exact G6.
        + discriminate. }
    destruct Step as (p0 & F0 & N0).
    destruct (IH (t ++ op_items o) p0 f0 f1 F0 N0 Hm' E) as (p1 & F1 & N1).
    exists p1. unfold ops_items in *. simpl. rewrite <- app_assoc in F1. auto.
Qed.

Lemma new_finv : forall glue width rules f, utf8_rules rules -> text_formatter width rules = TOk f ->
  finv glue [] Gap f /\ f_state f = NO_ALIGNMENT.
Proof.
  intros glue width rules f HR E. unfold text_formatter, new_formatter in E.
  destruct (width <=? 2) eqn:Ew; [discriminate|]. cbn [tbind f_rules] in E.
  destruct (add_words [] rules) as [m| | |] eqn:Em; try discriminate. cbn [tbind] in E. injection E as <-.
  split; [|reflexivity]. constructor; cbn.
  - constructor; cbn; try discriminate; auto; [apply lay_nil|left; reflexivity].
  - exists rules. auto.
  - discriminate.
  - intros n l X. injection X as <- _. reflexivity.
  - intros X. exfalso. exact (no_align_none X).
  - intros [X|X]; discriminate.
  - intros _. left. reflexivity.
Qed.

Lemma layout_proof : forall width rules f ops f1, utf8_rules rules -> text_formatter width rules = TOk f ->
  run_ops ops f = TOk f1 ->
  exists p, layout (ops_marker ops) (ops_items ops) (shown f1) p.
Proof.
  intros width rules f ops f1 HR Ef Er. destruct (new_finv (ops_marker ops) _ _ _ HR Ef) as (F & Es).
  destruct (run_layout (ops_marker ops) ops [] Gap f f1 F) as (p1 & F1 & _); auto.
  - rewrite Es. apply no_align_none.
  - exists p1. destruct F1 as [[W _ _ _ _] _ _ _ _ _ _]. exact W.
Qed.

(** ** Characters *)

Lemma reflowed_app : forall a b x y, reflowed a x -> reflowed b y -> reflowed (a ++ b) (x ++ y).
Proof.
  intros a b x y H K. induction H; simpl.
  - exact K.
  - apply rf_same. exact IHreflowed.
  - apply rf_white; assumption.
  - apply rf_hyphen. exact IHreflowed.
Qed.

Definition item_visible (i : item) : str :=
  match i with Solid c => if is_white c then [] else [c] | _ => [] end.

Lemma blanks_reflowed : forall k, reflowed [] (blanks k).
Proof. induction k as [|k IH]; [constructor|]. apply rf_white; [reflexivity|exact IH]. Qed.

Lemma layout_reflowed : forall glue t o p, layout glue t o p -> reflowed (concat (map item_visible t)) o.
Proof.
  intros glue t o p H. induction H.
  - constructor.
  - rewrite map_app, concat_app. simpl. rewrite app_nil_r. apply reflowed_app; [exact IHlayout|].
    apply (reflowed_app [] _ (blanks k) [c]); [apply blanks_reflowed|].
    destruct (is_white c) eqn:W; [apply rf_white; [exact W|constructor]|apply rf_same; constructor].
  - rewrite map_app, concat_app. simpl. rewrite app_nil_r. exact IHlayout.
  - rewrite map_app, concat_app. simpl. apply reflowed_app; [exact IHlayout|].
    apply rf_white; [reflexivity|constructor].
  - rewrite map_app, concat_app. simpl. rewrite app_nil_r. exact IHlayout.
  - rewrite <- (app_nil_r (concat (map item_visible t))). apply reflowed_app; [exact IHlayout|].
    apply rf_white; [reflexivity|constructor].
  - rewrite <- (app_nil_r (concat (map item_visible t))). apply reflowed_app; [exact IHlayout|].
    destruct H0 as [->| ->]; simpl; [apply rf_white; [reflexivity|constructor]|apply rf_hyphen; constructor].
Qed.

Lemma visible_unix : forall s, visible (unix s) = visible s.
Proof.
  assert (X : forall n s, length s <= n -> visible (unix s) = visible s).
  { induction n as [|n IH]; intros s L; [destruct s; [reflexivity|simpl in L; lia]|].
    destruct s as [|c s]; [reflexivity|]. simpl in L. cbn [unix].
    destruct (Ascii.eqb_spec c c_cr) as [->|_].
    - change (visible (c_cr :: s)) with (visible s).
      change (visible (c_lf :: match s with [] => [] | d :: s'' => if Ascii.eqb d c_lf then unix s'' else unix s end))
        with (visible (match s with [] => [] | d :: s'' => if Ascii.eqb d c_lf then unix s'' else unix s end)).
      destruct s as [|d s]; [reflexivity|]. destruct (Ascii.eqb_spec d c_lf) as [->|_].
      + change (visible (c_lf :: s)) with (visible s). apply IH. simpl in L. lia.
      + apply IH. lia.
    - unfold visible in *. simpl. rewrite (IH s) by lia. reflexivity. }
  intros s. apply (X (length s)). lia.
Qed.

Lemma item_char : forall c, item_visible (word_item c) = (if is_white c then [] else [c]) /\
  item_visible (line_item c) = (if is_white c then [] else [c]).
Proof.
  intros c. pose proof (all_bytes_1 (fun c => str_eqb (item_visible (word_item c)) (if is_white c then [] else [c]) &&
    str_eqb (item_visible (line_item c)) (if is_white c then [] else [c])) ltac:(vm_compute; reflexivity) c) as H.
  cbv beta in H. apply andb_true_iff in H. rewrite !str_eqb_eq in H. exact H.
Qed.

Lemma op_visible : forall o, concat (map item_visible (op_items o)) = visible (op_text o).
Proof.
  intros o. destruct o as [s|s| |n|]; try reflexivity; cbn [op_items op_text]; rewrite <- visible_unix;
    induction (unix s) as [|c u IH]; try reflexivity; cbn [map concat]; rewrite IH;
    destruct (item_char c) as (A & B); rewrite ?A, ?B; unfold visible; cbn [filter];
    destruct (is_white c); reflexivity.
Qed.

Lemma ops_visible : forall ops, concat (map item_visible (ops_items ops)) = visible (ops_text ops).
Proof.
  induction ops as [|o ops IH]; [reflexivity|]. unfold ops_items, ops_text in *. simpl.
  rewrite map_app, concat_app, IH, op_visible. unfold visible. rewrite filter_app. reflexivity.
Qed.

Lemma reflow_proof : forall width rules f ops f1, utf8_rules rules -> text_formatter width rules = TOk f ->
  run_ops ops f = TOk f1 -> reflowed (visible (ops_text ops)) (shown f1).
Proof.
  intros width rules f ops f1 HR Ef Er.
  destruct (layout_proof _ _ _ _ _ HR Ef Er) as (p & L). rewrite <- ops_visible.
  eapply layout_reflowed. exact L.
Qed.
