(** What a whole command line means (C71). *)
From Verif Require Import Base BaseProofs MStrings MOptIter MData MCounter MValues MParser
  SStrings STok SIndex SDef SValues SCounter SParser SStep SLook SEquiv SApi SLine SIgnore
  StrProofs TokProofs IndexProofs DefProofs FinishProofs ValuesProofs CounterProofs CounterInv
  MonadProofs FrameProofs InvProofs NextProofs ParseProofs StepProofs StepProofs2
  SimProofs3 EquivProofs LookProofs AcceptProofs ItemProofs.
Open Scope nat_scope.

(* ------------------------------------------------------------------------ *)
(** ** Places *)

Definition kind_of (style : option_style) : iter_kind :=
  match style with STANDARD => KStandard | SLASH => KPrefix c_slash | DASH => KPrefix c_dash end.

Inductive at_place (style : option_style) : opt_iter -> place -> Prop :=
| ap_fresh : forall args, at_place style (mk_iter (kind_of style) args (At 0)) (Fresh args)
| ap_after : forall a rest, at_place style (mk_iter (kind_of style) (a :: rest) Npos) (After rest)
| ap_group : forall a c j rest, style = STANDARD -> nth_error a 1 = Some c -> c <> "-"%char ->
    0 < j < length a ->
    at_place style (mk_iter (kind_of style) (a :: rest) (At j)) (Group (skipn j a) rest)
| ap_attached : forall a j rest, (style = STANDARD -> nth_error a 1 = Some "-"%char) ->
    0 < j <= length a ->
    at_place style (mk_iter (kind_of style) (a :: rest) (At j)) (Attached (skipn j a) rest).

Lemma skipn_cons : forall (a : str) j, j < length a ->
  exists x, nth_error a j = Some x /\ skipn j a = x :: skipn (S j) a.
Proof.
  induction a as [|y a IH]; intros j L; [simpl in L; lia|]. destruct j as [|j]; [exists y; auto|].
  simpl in L. destruct (IH j) as (x & E & F); [lia|]. exists x. split; [exact E|]. simpl. rewrite F. reflexivity.
Qed.

Lemma find_char_cut : forall c (a b : str), ~ In c a -> find_char c (a ++ c :: b) = Some (length a).
Proof.
  intros c. induction a as [|x a IH]; intros b N0; cbn [find_char app length].
  - rewrite Ascii.eqb_refl. reflexivity.
  - destruct (Ascii.eqb x c) eqn:E; [apply Ascii.eqb_eq in E; subst; exfalso; apply N0; left; reflexivity|].
    rewrite IH by (intros X; apply N0; right; exact X). reflexivity.
Qed.

Lemma find_char_none : forall c (a : str), ~ In c a -> find_char c a = None.
Proof.
  intros c. induction a as [|x a IH]; intros N0; cbn [find_char]; [reflexivity|].
  destruct (Ascii.eqb x c) eqn:E; [apply Ascii.eqb_eq in E; subst; exfalso; apply N0; left; reflexivity|].
  rewrite IH by (intros X; apply N0; right; exact X). reflexivity.
Qed.

Definition first_token (style : option_style) (args : list str) : res (option str * opt_iter) :=
  match style with STANDARD => std_first args | SLASH => pre_first c_slash args | DASH => pre_first c_dash args end.

Lemma first_done : forall style, first_token style [] = Ok (None, mk_iter (kind_of style) [] (At 0)).
Proof. intros []; reflexivity. Qed.

Lemma first_short : forall style a rest, length a <= 2 ->
  first_token style (a :: rest) = Ok (Some a, mk_iter (kind_of style) (a :: rest) Npos).
Proof.
  intros style a rest L. apply Nat.leb_le in L.
  destruct style; unfold first_token, std_first, pre_first; rewrite L; reflexivity.
Qed.

Lemma first_plain : forall style a rest, hd_error a <> Some (style_prefix style) ->
  first_token style (a :: rest) = Ok (Some a, mk_iter (kind_of style) (a :: rest) Npos).
Proof.
  intros style a rest Hd. destruct (le_lt_dec (length a) 2) as [L|L]; [apply first_short; exact L|].
  destruct a as [|x [|y a]]; simpl in L; try lia.
  assert (E : Ascii.eqb x (style_prefix style) = false).
  { apply Ascii.eqb_neq. intros ->. apply Hd. reflexivity. }
  destruct style; unfold first_token, std_first, pre_first; cbn [style_prefix] in E;
    (replace (length (x :: y :: a) <=? 2) with false by (symmetry; apply Nat.leb_gt; simpl; lia));
    cbn [nth_error]; unfold c_dash, c_slash; rewrite E; reflexivity.
Qed.

Lemma not_in_prefix : forall style n, ~ In "="%char n -> ~ In "="%char (long_prefix style ++ n).
Proof.
  intros style n N0 I. apply in_app_or in I. destruct I as [I|I]; [|exact (N0 I)].
  destruct style; simpl in I; repeat (destruct I as [I|I]; [discriminate I|]); exact I.
Qed.

Lemma first_long : forall style n rest, ~ In "="%char n ->
  first_token style ((long_prefix style ++ n) :: rest) =
    Ok (Some (long_prefix style ++ n), mk_iter (kind_of style) ((long_prefix style ++ n) :: rest) Npos).
Proof.
  intros style n rest N0. destruct (le_lt_dec (length (long_prefix style ++ n)) 2) as [L|L]; [apply first_short; exact L|].
  pose proof (find_char_none "="%char _ (not_in_prefix style n N0)) as F.
  apply Nat.leb_gt in L.
  destruct style; unfold first_token, std_first, pre_first; rewrite L; unfold c_eq; rewrite F;
    try reflexivity; destruct n as [|x n]; cbn [nth_error long_prefix app] in *; try discriminate L; reflexivity.
Qed.

Lemma first_long_value : forall style n v rest, ~ In "="%char n ->
  2 < length (long_prefix style ++ n ++ "="%char :: v) ->
  exists it, first_token style ((long_prefix style ++ n ++ "="%char :: v) :: rest) =
    Ok (Some (long_prefix style ++ n ++ ["="%char]), it) /\ at_place style it (Attached v rest).
Proof.
  intros style n v rest N0 L. set (a := long_prefix style ++ n ++ "="%char :: v) in *.
  set (j := S (length (long_prefix style ++ n))).
  assert (Ea : a = (long_prefix style ++ n) ++ c_eq :: v) by (unfold a; rewrite <- app_assoc; reflexivity).
  exists (mk_iter (kind_of style) (a :: rest) (At j)).
  assert (F : find_char c_eq a = Some (length (long_prefix style ++ n))).
  { rewrite Ea. apply find_char_cut. apply not_in_prefix. exact N0. }
  assert (Et : firstn j a = long_prefix style ++ n ++ ["="%char]).
  { unfold j. rewrite Ea, firstn_cut, <- app_assoc. reflexivity. }
  split.
  - apply Nat.leb_gt in L. rewrite <- Et.
    destruct style; unfold first_token, std_first, pre_first; rewrite L, F; reflexivity.
  - replace v with (skipn j a) by (unfold j; rewrite Ea; apply skipn_cut).
    apply ap_attached.
    + intros ->. reflexivity.
    + unfold j. rewrite Ea. pose proof (length_cut (long_prefix style ++ n) v). lia.
Qed.

Lemma first_group : forall x g rest, x <> "-"%char -> g <> [] ->
  exists it, first_token STANDARD (("-"%char :: x :: g) :: rest) = Ok (Some ["-"%char; x], it) /\
    at_place STANDARD it (Group g rest).
Proof.
  intros x g rest Nx Ng. exists (mk_iter KStandard (("-"%char :: x :: g) :: rest) (At 2)). split.
  - apply (group_tokens x g rest Ng Nx).
  - destruct g as [|y g]; [contradiction|].
    apply (ap_group STANDARD ("-"%char :: x :: y :: g) x 2 rest); [reflexivity|reflexivity|exact Nx|simpl; lia].
Qed.

Lemma first_ok : forall style args t pl, token style (After args) t pl ->
  exists it, first_token style args = Ok (Some t, it) /\ at_place style it pl.
Proof.
  intros style args t pl T. inversion T as [|a r L|a r Hd|n r N0|n v r N0 L|x g r St Nx Ng| | |]; subst.
  - eexists. split; [apply first_short; exact L|apply ap_after].
  - eexists. split; [apply first_plain; exact Hd|apply ap_after].
  - eexists. split; [apply first_long; exact N0|apply ap_after].
  - apply first_long_value; assumption.
  - apply first_group; assumption.
Qed.

Lemma next_fresh : forall style args, it_next (mk_iter (kind_of style) args (At 0)) = first_token style args.
Proof. intros [] args; reflexivity. Qed.
Lemma next_after : forall style a rest, it_next (mk_iter (kind_of style) (a :: rest) Npos) = first_token style rest.
Proof. intros [] a rest; reflexivity. Qed.
Lemma next_attached : forall style a j rest, (style = STANDARD -> nth_error a 1 = Some "-"%char) -> 0 < j <= length a ->
  it_next (mk_iter (kind_of style) (a :: rest) (At j)) = first_token style rest.
Proof.
  intros style a j rest D L. destruct j as [|j]; [lia|]. destruct style; try reflexivity.
  specialize (D eq_refl). unfold it_next, std_next. cbn [kind_of it_kind it_args it_pos pos_nonzero].
  destruct (S j <? length a) eqn:Lj; [|reflexivity]. apply Nat.ltb_lt in Lj. rewrite D.
  destruct (skipn_cons a (S j) Lj) as (x & -> & _). reflexivity.
Qed.

Lemma token_ok : forall style it pl t pl', at_place style it pl -> token style pl t pl' ->
  exists it', it_next it = Ok (Some t, it') /\ at_place style it' pl'.
Proof.
  intros style it pl t pl' A T. destruct A as [args|a rest|a c j rest St Nc Cd L|a j rest D L].
  - rewrite next_fresh. apply first_ok. inversion T; subst; assumption.
  - rewrite next_after. apply first_ok. exact T.
  - subst style. destruct (skipn_cons a j ltac:(lia)) as (x & Ex & Es). rewrite Es in T.
    remember (skipn (S j) a) as g0 eqn:Eg.
    unfold it_next, std_next. cbn [kind_of it_kind it_args it_pos].
    replace (pos_nonzero (At j)) with true by (destruct j; [lia|reflexivity]).
    replace (j <? length a) with true by (symmetry; apply Nat.ltb_lt; lia). rewrite Nc, Ex.
    replace (Ascii.eqb c c_dash) with false by (symmetry; apply Ascii.eqb_neq; exact Cd). cbn [negb].
    inversion T as [| | | | | |y g r Ng|y r|]; subst y; try subst g; subst r pl' t.
    + eexists. split; [reflexivity|]. assert (Lj : S j < length a).
      { destruct (Nat.eq_dec (S j) (length a)) as [E|E]; [|lia]. exfalso. apply Ng. rewrite Eg. apply skipn_all2. lia. }
      replace (S j =? length a) with false by (symmetry; apply Nat.eqb_neq; lia).
      rewrite Eg. eapply ap_group; [reflexivity|exact Nc|exact Cd|lia].
    + eexists. split; [reflexivity|]. assert (Lj : S j = length a).
      { apply (f_equal (@length ascii)) in Eg. rewrite skipn_length in Eg.
        match goal with E : [] = g0 |- _ => rewrite <- E in Eg end. simpl in Eg. lia. }
      rewrite Lj, Nat.eqb_refl. apply (ap_after STANDARD).
  - rewrite next_attached by assumption. apply first_ok. inversion T; subst. assumption.
Qed.

Lemma no_token_ok : forall style it pl, at_place style it pl -> no_token pl ->
  it_next it = Ok (None, mk_iter (kind_of style) [] (At 0)).
Proof.
  intros style it pl A N0.
  destruct A as [args|a rest|a c j rest St Nc Cd L|a j rest D L];
    destruct N0 as [[E|E]|(v & E)]; try discriminate E; injection E; intros; subst.
  - rewrite next_fresh. apply first_done.
  - rewrite next_after. apply first_done.
  - rewrite next_attached by assumption. apply first_done.
Qed.

Lemma text_ok : forall style it pl t pl', at_place style it pl -> text style pl t pl' ->
  exists it', it_next_value it = Ok (Some t, it') /\ at_place style it' pl'.
Proof.
  intros style it pl t pl' A T. destruct A as [args|a rest|a c j rest St Nc Cd L|a j rest D L].
  - inversion T; subst. eexists. split; [|apply ap_after]. destruct style; reflexivity.
  - inversion T as [|b r St|b r St Nb|r St| |]; subst.
    + eexists. split; [reflexivity|apply (ap_after STANDARD)].
    + exists (mk_iter (kind_of style) (t :: r) (At (length t))). split; [destruct style; [congruence|reflexivity|reflexivity]|].
      replace (@nil ascii) with (skipn (length t) t) by apply skipn_all. apply ap_attached; [intros X; congruence|].
      destruct t; [congruence|simpl; lia].
    + exists (mk_iter (kind_of style) ([] :: r) (At 0)). split; [destruct style; [congruence|reflexivity|reflexivity]|].
      apply ap_fresh.
  - inversion T; subst. eexists. split; [|apply (ap_after STANDARD)].
    unfold it_next_value, std_next_value. cbn [kind_of it_kind it_args it_pos].
    replace (j <=? length a) with true by (symmetry; apply Nat.leb_le; lia). reflexivity.
  - inversion T; subst. eexists. split; [|apply ap_after].
    assert (E : (j <=? length a) = true) by (apply Nat.leb_le; lia).
    destruct style; unfold it_next_value, std_next_value, pre_next_value; cbn [kind_of it_kind it_args it_pos]; rewrite E; reflexivity.
Qed.

Lemma no_text_ok : forall style it pl, at_place style it pl -> no_text pl ->
  exists it', it_next_value it = Ok (None, it') /\ at_place style it' (Fresh []).
Proof.
  intros style it pl A [E|E]; destruct A; try discriminate E; injection E; intros; subst;
    (eexists; split; [|apply ap_fresh]); destruct style; reflexivity.
Qed.

(** What is left of the arguments is the end of them. *)
Definition ends_with (l args : list str) : Prop := exists pre, args = pre ++ l.
Lemma ends_refl : forall l, ends_with l l.
Proof. intros l. exists []. reflexivity. Qed.
Lemma ends_tl : forall a l m, ends_with l m -> ends_with l (a :: m).
Proof. intros a l m (p & ->). exists (a :: p). reflexivity. Qed.
Lemma ends_nil : forall l, ends_with [] l.
Proof. intros l. exists l. symmetry. apply app_nil_r. Qed.
Lemma ends_tran : forall a b c, ends_with a b -> ends_with b c -> ends_with a c.
Proof. intros a b c (p & ->) (r & ->). exists (r ++ p). apply app_assoc. Qed.


(** The rest of the arguments consists of arguments. *)
Ltac branch E :=
  repeat match type of E with
  | (if ?b then _ else _) = _ => destruct b
  | match ?x with _ => _ end = _ => destruct x
  | Ok _ = Ok _ => injection E; intros; subst; apply ends_refl
  | _ => discriminate E
  end.
Lemma std_first_args : forall args t it, std_first args = Ok (t, it) -> ends_with (it_args it) args.
Proof. intros [|a r] t it E; unfold std_first in E; branch E. Qed.
Lemma pre_first_args : forall c args t it, pre_first c args = Ok (t, it) -> ends_with (it_args it) args.
Proof. intros c [|a r] t it E; unfold pre_first in E; branch E. Qed.

Lemma next_args : forall it t it', it_next it = Ok (t, it') -> ends_with (it_args it') (it_args it).
Proof.
  intros it t it' E. unfold it_next in E. destruct (it_kind it) as [|pr].
  - unfold std_next in E. destruct (pos_nonzero (it_pos it)); [|exact (std_first_args _ _ _ E)].
    destruct (it_args it) as [|a r]; [discriminate|].
    assert (G : std_first r = Ok (t, it') -> ends_with (it_args it') (a :: r)).
    { intros X. apply ends_tl. exact (std_first_args _ _ _ X). }
    destruct (it_pos it) as [k|]; [|exact (G E)]. destruct (k <? length a); [|exact (G E)].
    destruct (nth_error a 1); [|discriminate]. destruct (nth_error a k); [|discriminate].
    destruct (negb _); [|exact (G E)]. injection E as <- <-. apply ends_refl.
  - unfold pre_next in E. destruct (pos_nonzero (it_pos it)); [|exact (pre_first_args _ _ _ _ E)].
    destruct (it_args it) as [|a r]; [discriminate|]. apply ends_tl. exact (pre_first_args _ _ _ _ E).
Qed.

Lemma value_args : forall it t it', it_next_value it = Ok (t, it') -> ends_with (it_args it') (it_args it).
Proof.
  intros it t it' E. unfold it_next_value, std_next_value, pre_next_value in E.
  destruct (it_args it) as [|a r] eqn:Ea.
  { destruct (it_kind it); injection E as <- <-; rewrite Ea; apply ends_refl. }
  destruct (it_kind it); destruct (it_pos it); try (destruct (_ <=? _); [|discriminate]); try (destruct r);
    injection E as <- <-; cbn; try apply ends_nil; try apply ends_refl; apply ends_tl, ends_refl.
Qed.

Lemma left_head : forall style pl t it pl' a r, token style pl t pl' -> at_place style it pl' ->
  it_args it = a :: r ->
  left_at pl' = r \/ exists x g, a = x ++ g /\ x <> [] /\ g <> [] /\ left_at pl' = ("-"%char :: g) :: r.
Proof.
  intros style pl t it pl' a r Tk A E. assert (N : forall l, pl' <> Fresh l) by (clear - Tk; induction Tk; auto; discriminate).
  destruct A as [args|a' rest|a' c j rest St Nc Cd L|a' j rest D L]; cbn [it_args left_at] in *; [destruct (N _ eq_refl)| | |];
    injection E as -> ->; [left; reflexivity| |left; reflexivity].
  right. exists (firstn j a), (skipn j a). split; [symmetry; apply firstn_skipn|].
  split; [intros X; apply (f_equal (@length _)) in X; rewrite firstn_length in X; cbn in X; lia|].
  split; [|reflexivity]. intros X. apply (f_equal (@length _)) in X. rewrite skipn_length in X. cbn in X. lia.
Qed.

Lemma left_ok : forall style it pl, at_place style it pl ->
  exists it', it_remaining it = Ok (left_at pl, it').
Proof.
  intros style it pl A. destruct A as [args|a rest|a c j rest St Nc Cd L|a j rest D L].
  - destruct style; eexists; reflexivity.
  - destruct style; eexists; reflexivity.
  - subst style. unfold it_remaining, std_remaining, split_concatenated_flags. cbn [kind_of it_kind it_args it_pos].
    replace (pos_nonzero (At j)) with true by (destruct j; [lia|reflexivity]).
    replace (length a <=? j) with false by (symmetry; apply Nat.leb_gt; lia). rewrite Nc.
    replace (Ascii.eqb c c_dash) with false by (symmetry; apply Ascii.eqb_neq; exact Cd).
    unfold remaining_tail. cbn [it_args it_pos]. replace (pos_nonzero (At j)) with true by (destruct j; [lia|reflexivity]).
    eexists. reflexivity.
  - destruct j as [|j]; [lia|]. destruct style; try (eexists; reflexivity).
    unfold it_remaining, std_remaining, split_concatenated_flags. cbn [kind_of it_kind it_args it_pos pos_nonzero].
    rewrite (D eq_refl). cbn. destruct (length a <=? S j); eexists; reflexivity.
Qed.

(** The argument that a token is the beginning of. *)
Ltac same E :=
  repeat match type of E with
  | (if ?b then _ else _) = _ => destruct b
  | match ?x with _ => _ end = _ => destruct x
  | Ok _ = Ok _ => injection E; intros; subst; reflexivity
  | _ => discriminate E
  end.
Lemma first_args : forall style args t it, first_token style args = Ok (Some t, it) -> it_args it = args.
Proof.
  intros style args t it E. destruct style; unfold first_token in E; cbn in E; destruct args as [|a r];
    unfold std_first, pre_first in E; try discriminate E; same E.
Qed.
Lemma first_begins : forall style args t it, first_token style args = Ok (Some t, it) ->
  exists cur, it_current it = Some cur /\ begins_with cur t.
Proof.
  intros style args t it E. destruct style; unfold first_token in E; cbn in E;
    [exact (std_first_begins _ _ _ E)|exact (pre_first_begins _ _ _ _ E)|exact (pre_first_begins _ _ _ _ E)].
Qed.

Lemma token_argument : forall style it0 pl t pl' it a, at_place style it0 pl -> token style pl t pl' ->
  it_next it0 = Ok (Some t, it) -> at_place style it pl' ->
  match pl with Group _ _ => False | _ => True end -> left_at pl = a :: left_at pl' ->
  it_current it = Some a /\ starts_with_cs a t = true.
Proof.
  intros style it0 pl t pl' it a A Tk Nx A1 Ng Lf.
  assert (E : first_token style (left_at pl) = Ok (Some t, it)).
  { destruct A as [args|b rest|b c j rest St Nc Cd L|b j rest D L]; cbn [left_at].
    - rewrite next_fresh in Nx. exact Nx.
    - rewrite next_after in Nx. exact Nx.
    - contradiction.
    - rewrite next_attached in Nx by assumption. exact Nx. }
  destruct (first_begins _ _ _ _ E) as (cur & Ec & B). pose proof (first_args _ _ _ _ E) as Ea.
  assert (cur = a) as -> by (unfold it_current in Ec; rewrite Ea, Lf in Ec; cbn in Ec; congruence).
  split; [exact Ec|]. apply starts_with_cs_iff. exact B.
Qed.

Lemma place_wf : forall style it pl, at_place style it pl -> wf_iter it.
Proof.
  intros style it pl A. destruct A as [args|a rest|a c j rest St Nc Cd L|a j rest D L]; unfold wf_iter; cbn [it_pos it_args].
  - exact Logic.I.
  - discriminate.
  - destruct j as [|j]; [exact Logic.I|]. exists a, rest. split; [reflexivity|lia].
  - destruct j as [|j]; [exact Logic.I|]. exists a, rest. split; [reflexivity|lia].
Qed.

(* ------------------------------------------------------------------------ *)
(** ** Steps *)

Definition noted (st : pstate) (n : nat) (evs : list event) : pstate :=
  mk_ps (ps_command st) (ps_cur st) (ps_parents st) (ps_iter st) (ps_counter st) (ps_mode st)
    (ps_calls st + n) (ps_events st ++ evs).

Lemma noted_none : forall st, noted st 0 [] = st.
Proof. intros []. unfold noted. cbn. rewrite Nat.add_0_r, app_nil_r. reflexivity. Qed.
Lemma noted_twice : forall st n m e f, noted (noted st n e) m f = noted st (n + m) (e ++ f).
Proof. intros. unfold noted. cbn. rewrite Nat.add_assoc, app_assoc. reflexivity. Qed.

Section Line.
Variables (p q : parser_data).
Hypothesis H : finish_parser p = Val q.
Let cfg := d_settings q.
Let top := d_command q.
Hypothesis Sd : sound top.
Hypothesis Hn : no_insertions cfg top.
Hypothesis Hi : no_interference cfg top.

Lemma callback_runs : forall cb ev v st, (forall f, cb = Some f -> callback_of cfg top f) -> quiet ev ->
  exists n evs, run_callback cfg cb ev v st = Ret tt (noted st n evs) /\ Forall quiet evs.
Proof.
  intros [f|] ev v st Cb Ev.
  - destruct (Hi f (Cb f eq_refl) (ps_calls st) v (l_values (ps_cur st))) as (I1 & I2).
    pose proof (Hn f (Cb f eq_refl) (ps_calls st) v (l_values (ps_cur st))) as I3.
    exists 1, (ev :: map EvText (eff_out (f (ps_calls st) v (l_values (ps_cur st))))). split.
    + unfold run_callback. rewrite bind_emit, bind_gets, bind_modify. cbn [ps_calls ps_cur add_event].
      unfold bind at 1. rewrite emit_texts_eq, fold_events. rewrite I1, I2, I3.
      cbn. unfold noted. rewrite Nat.add_1_r, <- app_assoc. reflexivity.
    + constructor; [exact Ev|]. apply Forall_forall. intros e He. apply in_map_iff in He.
      destruct He as (x & <- & _). exact Logic.I.
  - exists 0, []. split; [rewrite noted_none; reflexivity|constructor].
Qed.

Lemma two_run : forall cb1 cb2 e1 e2 v st, (forall f, cb1 = Some f -> callback_of cfg top f) ->
  (forall f, cb2 = Some f -> callback_of cfg top f) -> quiet e1 -> quiet e2 ->
  exists n evs, (run_callback cfg cb1 e1 v ;;; run_callback cfg cb2 e2 v) st = Ret tt (noted st n evs) /\
    Forall quiet evs.
Proof.
  intros cb1 cb2 e1 e2 v st C1 C2 E1 E2.
  destruct (callback_runs cb1 e1 v st C1 E1) as (n1 & v1 & R1 & F1).
  destruct (callback_runs cb2 e2 v (noted st n1 v1) C2 E2) as (n2 & v2 & R2 & F2).
  exists (n1 + n2), (v1 ++ v2). split; [|apply Forall_app; auto].
  unfold bind. rewrite R1, R2, noted_twice. reflexivity.
Qed.

(** An option, up to the effect of its type. *)
Lemma option_acts : forall c o v st, within top c -> In o (c_options c) ->
  exists n evs, Forall quiet evs /\
    act cfg o v st = (r <- apply_type o ;; ret (r, v)) (noted st n evs).
Proof.
  intros c o v st Wi Io.
  destruct (two_run (o_callback o) (option_cb cfg o) (EvOptionCallback false (o_argument_id o) v)
    (EvOptionCallback true (o_argument_id o) v) v st) as (n & evs & R & F).
  - intros f E. eapply cb_option_own; eassumption.
  - intros f E. eapply cb_option_global; eassumption.
  - exact Logic.I.
  - exact Logic.I.
  - exists n, evs. split; [exact F|]. unfold act. unfold bind in R |- *.
    destruct (run_callback cfg (o_callback o) _ v st) as [[] s1| | | |]; try discriminate R.
    rewrite R. reflexivity.
Qed.

Lemma reads_taken : forall style o it pl v pl', at_place style it pl -> takes style o pl v pl' ->
  exists it', reads_value o it v it' /\ at_place style it' pl'.
Proof.
  intros style o it pl v pl' A [(T & X)|(T & -> & ->)].
  - destruct (text_ok _ _ _ _ _ A X) as (it' & E & A'). exists it'. split; [left; auto|exact A'].
  - exists it. split; [right; auto|exact A].
Qed.

(** The place of the parser. *)
Definition stands (st : pstate) (pl : place) : Prop := at_place (s_style cfg) (ps_iter st) pl.

Lemma chosen_in : forall c t o, chooses cfg c t o -> In o (c_options c).
Proof.
  assert (D : forall opts s o, names (s_case_insensitive cfg) (s_abbreviations cfg) opts s o -> In o opts).
  { intros opts s o [(f & (I & _) & _)|(_ & f & (I & _) & _)]; exact I. }
  intros c t o (_ & [N0|(_ & s & _ & _ & N0 & _)]); exact (D _ _ _ N0).
Qed.

Lemma flag_next : forall st pl t o pl' v pl'', shape cfg top st -> ps_mode st = ARGUMENTS_AND_OPTIONS ->
  stands st pl -> flag cfg (ps_command st) pl t o pl' -> takes (s_style cfg) o pl' v pl'' ->
  exists it it' n evs, it_next (ps_iter st) = Ok (Some t, it) /\ wf_iter it /\
    find_option (ps_command st) t (s_abbreviations cfg) (s_case_insensitive cfg) = Some o /\
    In o (c_options (ps_command st)) /\ reads_value o it v it' /\
    at_place (s_style cfg) it' pl'' /\ Forall quiet evs /\
    next cfg st = bind (r <- apply_type o ;; ret (r, v)) (concludes cfg o) (noted (started o st v it') n evs).
Proof.
  intros st pl t o pl' v pl'' Sh M At (Tk & Lk & Ch) Ta.
  destruct (token_ok _ _ _ _ _ At Tk) as (it & E & A1). destruct (reads_taken _ _ _ _ _ _ A1 Ta) as (it' & Rv & A2).
  pose proof (place_wf _ _ _ A1) as W1.
  pose proof (shape_lookups p q H st Sh t o Ch) as Fo.
  assert (Wi : within top (ps_command st)).
  { rewrite (sh_command _ _ _ Sh). eapply chain_within. apply (sh_chain _ _ _ Sh). }
  pose proof (chosen_in _ _ _ Ch) as Io.
  destruct (option_acts (ps_command st) o v (started o st v it') Wi Io) as (n & evs & F & Ac).
  exists it, it', n, evs. split; [exact E|]. split; [exact W1|]. split; [exact Fo|]. split; [exact Io|]. split; [exact Rv|].
  split; [exact A2|]. split; [exact F|].
  rewrite (next_option_eq cfg st t it M E Lk), (option_runs cfg o t st it v it' W1 Fo Rv).
  unfold bind at 1. rewrite Ac. reflexivity.
Qed.

(* ------------------------------------------------------------------------ *)
(** ** Commands *)

(** A level that holds the changes [h] of command [c]. *)
Definition level_is (ch : cmd_data * list change) (l : level) : Prop :=
  l_command l = fst ch /\ l_values l = fold_left apply_change (snd ch) [] /\
  l_subs l = [] /\ l_result l = RC_NONE /\ l_stop l = None.

(** What has been left unprocessed by each level, innermost first, and the same when more
    is left by the innermost one. *)
Definition kept (st : pstate) : list (list str) := map l_unprocessed (ps_cur st :: ps_parents st).
Definition more (us : list (list str)) (l : list str) : list (list str) :=
  match us with u :: r => (u ++ l) :: r | [] => [] end.

Lemma meant_app : forall ws1 ws2 g1 g2, length g1 = length (positionals ws1) ->
  meant (g1 ++ g2) (ws1 ++ ws2) = meant g1 ws1 ++ meant g2 ws2.
Proof.
  induction ws1 as [|w ws1 IH]; intros ws2 g1 g2 L; [destruct g1; [reflexivity|discriminate]|].
  destruct w as [o v|t]; cbn [app meant].
  - rewrite IH by exact L. apply app_assoc.
  - destruct g1 as [|a g1]; [discriminate|]. cbn [app]. f_equal. apply IH.
    cbn [positionals flat_map app length] in L. injection L as L. exact L.
Qed.

Lemma positionals_app : forall a b, positionals (a ++ b) = positionals a ++ positionals b.
Proof. intros. unfold positionals. apply flat_map_app. Qed.

Lemma op_values_fold : forall o v vs, op_values o v vs =
  fold_left apply_change (match option_change o v with Some ch => [ch] | None => [] end) vs.
Proof. intros o v vs. unfold op_values. destruct (option_change o v); reflexivity. Qed.

Lemma proceeds_app : forall st rs st1 r st2, proceeds cfg st rs st1 -> next cfg st1 = Ret r st2 ->
  ir_code r <> IC_ERROR -> ~ last_item r st2 -> proceeds cfg st (rs ++ [r]) st2.
Proof.
  intros st rs st1 r st2 P0 E Ne La. induction P0 as [st|st r0 s1 rs s2 E0 Ne0 La0 P0 IH].
  - econstructor; [exact E|exact Ne|exact La|constructor].
  - econstructor; [exact E0|exact Ne0|exact La0|apply IH; exact E].
Qed.

Hypothesis Ig : s_ignore_arguments cfg = false.
Hypothesis One : one_at_a_time top.

Record line_inv (args : list str) (us : list (list str)) (init : list change) (outer : list (cmd_data * list change))
  (c : cmd_data) (done : list word) (only : bool) (pl : place) (st0 : pstate) (rs : list iter_result)
  (st : pstate) : Prop := {
  li_entered : entered cfg top args st0;
  li_command : ps_command st0 = c;
  li_proceeds : proceeds cfg st0 rs st;
  li_foreseeable : Forall (foreseeable cfg c) rs;
  li_count : length (received rs) = length (positionals done);
  li_mode : ps_mode st = if only then ARGUMENTS_ONLY else ARGUMENTS_AND_OPTIONS;
  li_place : stands st pl;
  li_outer : Forall2 level_is outer (ps_parents st);
  li_level : level_is (c, init ++ meant (received rs) done) (ps_cur st);
  li_calm : Forall quiet (ps_events st);
  li_plain : c_commands c <> [] -> positionals done = [];
  li_from : ends_with (it_args (ps_iter st)) args;
  li_kept : kept st = us
}.

Lemma inv_facts : forall args us init outer c done only pl st0 rs st,
  line_inv args us init outer c done only pl st0 rs st ->
  shape cfg top st /\ ps_command st = c /\ within top c /\ (exists m, reached cfg top args st m) /\
  ps_parents st = ps_parents st0 /\ in_progress (ps_mode st).
Proof.
  intros args us init outer c done only pl st0 rs st [En Ec Pc Fs Cn Md Pl Ou Le Ca Pn Fr Us]. subst c.
  destruct (counters p q H Sd Hn Ig args st0 rs st En Pc Fs) as ((S1 & S2) & Pm & (m & Rc) & Wi & _).
  split; [exact (reached_shape p q H args st m Rc)|]. eauto 10.
Qed.

Lemma reads_args : forall o it v it', reads_value o it v it' -> ends_with (it_args it') (it_args it).
Proof.
  intros o it v it' [(_ & E)|(_ & _ & ->)]; [exact (value_args _ _ _ E)|apply ends_refl].
Qed.
Lemma read_args : forall st t it, reads st t it -> ends_with (it_args it) (it_args (ps_iter st)).
Proof.
  intros st t it R. unfold reads in R. destruct (ps_mode st); try contradiction;
    [exact (next_args _ _ _ R)|exact (value_args _ _ _ R)].
Qed.

Lemma option_goes_on : forall args us init outer c done pl st0 rs st t o pl' v pl'',
  line_inv args us init outer c done false pl st0 rs st -> flag cfg c pl t o pl' ->
  takes (s_style cfg) o pl' v pl'' -> o_type o = OT_NORMAL \/ o_type o = OT_LAST_OPTION ->
  foreseen cfg c (Optional o v) ->
  exists st', next cfg st = Ret (mk_ir IC_OPTION (ItOption o) v) st' /\
    line_inv args us init outer c (done ++ [Optional o v])
      (match o_type o with OT_LAST_OPTION => true | _ => false end) pl'' st0
      (rs ++ [mk_ir IC_OPTION (ItOption o) v]) st'.
Proof.
  intros args us init outer c done pl st0 rs st t o pl' v pl'' I0 Fl Ta Ty Fo.
  destruct (inv_facts _ _ _ _ _ _ _ _ _ _ _ I0) as (Sh & Ec & Wi & _). subst c. destruct I0 as [En Ec Pc Fs Cn Md Pl Ou Le Ca Pn Fr Us].
  destruct (flag_next st pl t o pl' v pl'' Sh Md Pl Fl Ta) as (it & it' & n & evs & Nx & _ & _ & Io & Rv & A2 & Fe & E).
  assert (G : exists st', next cfg st = Ret (mk_ir IC_OPTION (ItOption o) v) st' /\
    st' = set_mode (noted (started o st v it') n evs)
            (match o_type o with OT_LAST_OPTION => ARGUMENTS_ONLY | _ => ARGUMENTS_AND_OPTIONS end)).
  { eexists. split; [|reflexivity]. rewrite E. destruct Ty as [Ty|Ty]; unfold apply_type; rewrite Ty; cbn; [|reflexivity].
    rewrite <- Md. destruct st. reflexivity. }
  destruct G as (st' & Es & Est). exists st'. split; [exact Es|].
  assert (Md' : ps_mode st' = if match o_type o with OT_LAST_OPTION => true | _ => false end then ARGUMENTS_ONLY else ARGUMENTS_AND_OPTIONS).
  { rewrite Est. cbn. destruct Ty as [Ty|Ty]; rewrite Ty; reflexivity. }
  assert (Er : received (rs ++ [mk_ir IC_OPTION (ItOption o) v]) = received rs).
  { unfold received. rewrite flat_map_app. cbn. apply app_nil_r. }
  constructor.
  - exact En.
  - exact Ec.
  - apply (proceeds_app st0 rs st); [exact Pc|exact Es|discriminate|].
    intros [D|[D|(o2 & D & T)]].
    + rewrite Md' in D. destruct (o_type o); discriminate D.
    + discriminate D.
    + cbn in D. injection D as <-. destruct Ty as [X|X]; rewrite X in T; discriminate T.
  - apply Forall_app. split; [exact Fs|]. constructor; [|constructor]. cbn. split; [|exact Fo].
    destruct Ty as [X|X]; rewrite X; discriminate.
  - rewrite Er, positionals_app. cbn. rewrite app_nil_r. exact Cn.
  - exact Md'.
  - unfold stands. rewrite Est. exact A2.
  - rewrite Est. exact Ou.
  - rewrite Est. destruct Le as (L1 & L2 & L3). unfold level_is. cbn.
    split; [exact L1|]. split; [|exact L3].
    cbn [snd] in L2. rewrite op_values_fold, L2, Er, <- fold_left_app, <- app_assoc. do 2 f_equal.
    pose proof (meant_app done [Optional o v] (received rs) [] Cn) as X. rewrite app_nil_r in X. rewrite X.
    cbn [meant]. rewrite app_nil_r. reflexivity.
  - rewrite Est. cbn. apply Forall_app. auto.
  - intros X. rewrite positionals_app, (Pn X). reflexivity.
  - rewrite Est. exact (ends_tran _ _ _ (reads_args _ _ _ _ Rv) (ends_tran _ _ _ (next_args _ _ _ Nx) Fr)).
  - rewrite Est. exact Us.
Qed.

Lemma parent_single : forall st, shape cfg top st -> forall l, In l (ps_parents st) -> c_multi (l_command l) = false.
Proof.
  intros st Sh l Il. apply One. pose proof (sh_chain _ _ _ Sh) as Ch. revert Ch Il. generalize (ps_cur st). clear.
  induction (ps_parents st) as [|x ls IH]; intros cur Ch Il; [contradiction|].
  destruct Ch as (_ & Ch). destruct Il as [->|Il]; [exact (chain_within _ _ _ Ch)|exact (IH x Ch Il)].
Qed.

Lemma no_sibling_alone : forall st t, shape cfg top st -> no_sibling cfg st t.
Proof. intros st t Sh l d Il Ml _ _. rewrite (parent_single st Sh l Il) in Ml. discriminate. Qed.

(** Reading something that is not an option. *)
Lemma plain_reads : forall only st pl t pl', ps_mode st = (if only : bool then ARGUMENTS_ONLY else ARGUMENTS_AND_OPTIONS) ->
  stands st pl -> plain cfg only pl t pl' ->
  exists it, reads st (Some t) it /\ at_place (s_style cfg) it pl' /\
    (ps_mode st = ARGUMENTS_ONLY \/ ~ looks_like_option (s_style cfg) t) /\
    (match ps_mode st with ARGUMENTS_AND_OPTIONS => true | _ => false end) && is_option t (s_style cfg) = false.
Proof.
  intros [] st pl t pl' M A Pn; cbn in Pn; unfold reads; rewrite M.
  - destruct (text_ok _ _ _ _ _ A Pn) as (it & E & A'). exists it. auto.
  - destruct Pn as (Tk & Nl). destruct (token_ok _ _ _ _ _ A Tk) as (it & E & A'). exists it. split; [exact E|].
    split; [exact A'|]. split; [right; exact Nl|]. rewrite <- is_option_iff in Nl. cbn. destruct (is_option t (s_style cfg)); congruence.
Qed.

Lemma positional_goes_on : forall args us init outer c done only pl st0 rs st t pl',
  line_inv args us init outer c done only pl st0 rs st -> plain cfg only pl t pl' -> c_commands c = [] ->
  foreseen cfg c (Positional t) ->
  (N.of_nat (length (positionals done)) < maxima (c_arguments c))%N ->
  exists a st', next cfg st = Ret (mk_ir IC_ARGUMENT (ItArgument a) t) st' /\
    line_inv args us init outer c (done ++ [Positional t]) only pl' st0
      (rs ++ [mk_ir IC_ARGUMENT (ItArgument a) t]) st'.
Proof.
  intros args us init outer c done only pl st0 rs st t pl' I0 Pt Cm Fo Lt.
  destruct (inv_facts _ _ _ _ _ _ _ _ _ _ _ I0) as (Sh & Ec0 & Wi & _). destruct I0 as [En Ec Pc Fs Cn Md Pl Ou Le Ca Pn Fr Us].
  destruct (plain_reads only st pl t pl' Md Pl Pt) as (it & R & A' & Nl & Io).
  pose proof (no_sibling_alone st t Sh) as Ns.
  destruct (accept_ready p q H Sd Hn Ig args st0 rs st t it En Pc) as (a & ac & Na); try (rewrite Ec); try assumption.
  { rewrite Cn. exact Lt. }
  assert (Ia : In a (c_arguments c)).
  { rewrite <- Ec0. pose proof (next_from (ps_counter st)) as (_ & X). rewrite Na in X. apply (sh_from _ _ _ Sh). apply X. reflexivity. }
  set (s1 := set_values (set_counter (set_iter st it) ac)
               (append_value (l_values (ps_cur st)) (a_value_id a) t (a_argument_id a))).
  destruct (two_run (a_callback a) (argument_cb cfg a) (EvArgumentCallback false (a_argument_id a) t)
    (EvArgumentCallback true (a_argument_id a) t) t s1) as (n & evs & Rn & Fe).
  { intros f E. eapply cb_argument_own; eassumption. }
  { intros f E. eapply cb_argument_global; eassumption. }
  { exact Logic.I. } { exact Logic.I. }
  assert (Es : next cfg st = Ret (mk_ir IC_ARGUMENT (ItArgument a) t) (noted s1 n evs)).
  { rewrite (next_eq cfg _ _ _ R). unfold process_token. rewrite bind_gets, Io.
    change (ps_command (set_iter st it)) with (ps_command st). rewrite Ec0, Cm. cbn [is_empty].
    unfold process_argument. rewrite bind_gets. pose proof (no_sibling_none q st t it Ns) as Nst. fold cfg in Nst. rewrite Nst.
    unfold bind at 1, m_next_argument. change (ps_counter (set_iter st it)) with (ps_counter st). rewrite Na.
    rewrite bind_modify. change (set_values _ _) with s1. unfold bind in Rn |- *.
    destruct (run_callback cfg (a_callback a) _ t s1) as [[] s2| | | |]; try discriminate Rn. rewrite Rn. reflexivity. }
  exists a, (noted s1 n evs). split; [exact Es|].
  assert (Er : received (rs ++ [mk_ir IC_ARGUMENT (ItArgument a) t]) = received rs ++ [a]).
  { unfold received. rewrite flat_map_app. reflexivity. }
  constructor.
  - exact En.
  - exact Ec.
  - apply (proceeds_app st0 rs st); [exact Pc|exact Es|discriminate|].
    intros [D|[D|(o2 & D & T)]]; [|discriminate D|discriminate D].
    cbn in D. rewrite Md in D. destruct only; discriminate D.
  - apply Forall_app. split; [exact Fs|]. constructor; [exact Fo|constructor].
  - rewrite Er, positionals_app, !app_length. cbn. rewrite Cn. reflexivity.
  - exact Md.
  - exact A'.
  - exact Ou.
  - destruct Le as (L1 & L2 & L3). unfold level_is. cbn. cbn in L1, L2.
    split; [exact L1|]. split; [|exact L3].
    rewrite Er, (meant_app done [Positional t] (received rs) [a] Cn), app_assoc, fold_left_app, <- L2. reflexivity.
  - cbn. apply Forall_app. auto.
  - intros X. contradiction.
  - exact (ends_tran _ _ _ (read_args _ _ _ R) Fr).
  - exact Us.
Qed.

Lemma first_found : forall c t d, first_named cfg c t d -> find_command c t (s_case_insensitive cfg) = Some d.
Proof.
  intros c t d (b & e & E & Nm & Nb). unfold find_command. rewrite E. clear E. induction b as [|x b IH]; cbn [app find].
  - apply StepProofs.folded_norm in Nm. rewrite Nm. reflexivity.
  - match goal with |- (if ?x then _ else _) = _ => destruct x eqn:F end.
    + exfalso. apply (Nb x (or_introl eq_refl)). apply StepProofs.folded_norm. exact F.
    + apply IH. intros y Iy. apply Nb. right. exact Iy.
Qed.

(** Entering a sub-command. *)
Lemma command_goes_on : forall args us init outer c done only pl st0 rs st t pl' d,
  line_inv args us init outer c done only pl st0 rs st -> plain cfg only pl t pl' -> first_named cfg c t d ->
  exists cur st', next cfg st = Ret (mk_ir IC_COMMAND (ItCommand d) cur) st' /\
    line_inv args ([] :: us) [] ((c, init ++ meant [] done) :: outer) d [] false pl' st' [] st'.
Proof.
  intros args us init outer c done only pl st0 rs st t pl' d I0 Pt Fn.
  destruct (inv_facts _ _ _ _ _ _ _ _ _ _ _ I0) as (Sh & Ec0 & Wi & (m & Rc) & _). destruct I0 as [En Ec Pc Fs Cn Md Pl Ou Le Ca Pn Fr Us].
  destruct (plain_reads only st pl t pl' Md Pl Pt) as (it & R & A' & Nl & Io).
  pose proof (first_found c t d Fn) as Fc.
  assert (Nc : c_commands c <> []) by (destruct Fn as (b & e & -> & _); destruct b; discriminate).
  assert (Wd : within top d).
  { eapply within_sub; [exact Wi|]. destruct Fn as (b & e & -> & _). apply in_or_app. right. left. reflexivity. }
  set (s1 := mk_ps d (new_level d) (ps_cur st :: ps_parents st) it (ps_counter st) (ps_mode st) (ps_calls st) (ps_events st)).
  destruct (start_counter_post cfg top s1 Wd (place_wf _ _ _ A')) as (ac & E1 & _).
  assert (Ne : exists cur, it_current it = Some cur).
  { unfold reads in R. destruct only; rewrite Md in R.
    - apply current_some. eapply next_value_head. exact R.
    - apply current_some. eapply next_head. exact R. }
  destruct Ne as (cur & Ecur). exists cur, (set_mode (set_counter s1 ac) ARGUMENTS_AND_OPTIONS).
  assert (Es : next cfg st = Ret (mk_ir IC_COMMAND (ItCommand d) cur) (set_mode (set_counter s1 ac) ARGUMENTS_AND_OPTIONS)).
  { rewrite (next_eq cfg _ _ _ R). unfold process_token. rewrite bind_gets, Io.
    change (ps_command (set_iter st it)) with (ps_command st). rewrite Ec0.
    destruct (c_commands c) as [|x l] eqn:Ex; [contradiction|]. cbn [is_empty]. rewrite Fc.
    unfold process_command. rewrite bind_modify. change (mk_ps _ _ _ _ _ _ _ _) with s1.
    unfold bind at 1. rewrite E1, bind_modify. unfold bind, m_current. cbn [ps_iter set_mode set_counter].
    change (ps_iter s1) with it. rewrite Ecur. reflexivity. }
  split; [exact Es|].
  assert (Er : received rs = []).
  { apply length_zero_iff_nil. rewrite Cn, (Pn Nc). reflexivity. }
  constructor.
  - eapply entered_command; [exact Rc|exact Es|reflexivity].
  - reflexivity.
  - constructor.
  - constructor.
  - reflexivity.
  - reflexivity.
  - exact A'.
  - constructor; [|exact Ou]. rewrite Er in Le. exact Le.
  - repeat split.
  - exact Ca.
  - reflexivity.
  - exact (ends_tran _ _ _ (read_args _ _ _ R) Fr).
  - rewrite <- Us. reflexivity.
Qed.

(* ------------------------------------------------------------------------ *)
(** ** The end *)

Lemma has_value_history : forall h id, history h id <> [] ->
  exists v aid, In (id, (v, aid)) (fold_left apply_change h []).
Proof.
  intros h id N0. rewrite <- history_proof in N0.
  assert (X : forall vs, get_values vs id <> [] -> exists x, In (id, x) vs).
  { intros vs. unfold get_values. induction vs as [|(k, x) vs IH]; [intros []; reflexivity|].
    cbn [from_lower_bound]. destruct (k <? id)%N.
    - intros N1. destruct (IH N1) as (y & Iy). exists y. right. exact Iy.
    - cbn [take_key]. destruct (N.eqb_spec k id) as [->|Ne]; [|intros []; reflexivity].
      intros _. exists x. left. reflexivity. }
  destruct (X _ N0) as ((v & aid) & Ix). eauto.
Qed.

Lemma counts_ok : forall st c h, within top c -> ps_command st = c -> l_subs (ps_cur st) = [] ->
  l_values (ps_cur st) = fold_left apply_change h [] -> c_require c <> Some true ->
  (forall o, In o (c_options c) -> o_optional o = false -> history h (o_value_id o) <> []) ->
  is_complete (ps_counter st) = true -> check_counts cfg st = Ret true (after_success st).
Proof.
  intros st c h Wi Ec Es Ev Rq Mn Cp. unfold check_counts. rewrite bind_gets, Ec. unfold bind at 1.
  assert (Mo : has_all_mandatory cfg (c_options c) st = Ret true st).
  { apply (mandatory_ok q). intros o Io Op. rewrite Ev. apply has_value_history. exact (Mn o Io Op). }
  rewrite Mo. cbn [negb]. destruct (c_require c) as [req|] eqn:Er.
  2:{ destruct (finish_parser_prepared p q H _ Wi) as (N0 & _). contradiction. }
  rewrite bind_gets, Es. destruct req; [congruence|]. cbn [andb]. rewrite bind_gets, Cp. reflexivity.
Qed.

Lemma fair_between : forall defs k ks, fair defs k ks -> (minima defs <= k <= maxima defs)%N.
Proof.
  clear. induction defs as [|a defs IH]; intros k ks (L & S0 & B & F).
  - destruct ks; [|discriminate]. subst k. unfold minima, maxima. simpl. lia.
  - destruct ks as [|x ks]; [discriminate|]. pose proof (B 0 a x eq_refl eq_refl) as Bx.
    assert (X : fair defs (sum ks) ks).
    { split; [injection L as L; exact L|]. split; [reflexivity|]. split.
      - intros i. exact (B (S i)).
      - intros i j b d y m Lt. exact (F (S i) (S j) b d y m ltac:(lia)). }
    apply IH in X. subst k. unfold minima, maxima in *. simpl. lia.
Qed.

(** What is seen of the result: the levels, innermost first. *)
Definition level_closed (rc : result_code) (stop : option opt_data) (ch : cmd_data * list change)
  (l : level) : Prop :=
  l_command l = fst ch /\ l_values l = fold_left apply_change (snd ch) [] /\
  l_subs l = [] /\ l_result l = rc /\ l_stop l = stop.

Definition closes (orc rc : result_code) (stop : option opt_data) (us : list (list str))
  (hs : list (cmd_data * list change)) (st : pstate) : Prop :=
  kept st = us /\ exists ch r, hs = ch :: r /\ level_closed rc stop ch (ps_cur st) /\
    Forall2 (level_closed orc None) r (ps_parents st).

Lemma close_parents : forall outer ls rc, Forall2 level_is outer ls ->
  Forall2 (level_closed rc None) outer (map (set_result rc) ls).
Proof.
  intros outer ls rc F. induction F as [|ch l outer ls X F IH]; cbn [map]; constructor; [|exact IH].
  destruct l. unfold level_is, level_closed in *. cbn in *. destruct X as (A & B & C & E & G). auto 10.
Qed.

Lemma map_kept : forall ls rc, map l_unprocessed (map (set_result rc) ls) = map l_unprocessed ls.
Proof. induction ls as [|l ls IH]; intros rc; [reflexivity|]. cbn [map]. rewrite IH. destruct l. reflexivity. Qed.
Lemma kept_success : forall st, kept (after_success st) = kept st.
Proof. intros st. unfold kept. cbn. rewrite map_kept. reflexivity. Qed.
Lemma kept_copied : forall st it l us, kept st = us ->
  kept (set_cur (set_iter st it) (add_unprocessed (ps_cur st) l)) = more us l.
Proof. intros st it l us <-. reflexivity. Qed.
Lemma kept_error : forall st m l it, kept (after_error st m l it) = more (kept st) l.
Proof. intros st m l it. unfold kept, more. cbn. rewrite map_kept. reflexivity. Qed.

Lemma ends_well : forall args us init outer c done only pl st0 rs st h,
  line_inv args us init outer c done only pl st0 rs st -> (if only then no_text pl else no_token pl) ->
  acceptable init c done h ->
  exists st', parse_loop cfg 1 st = Ret tt st' /\ ps_events st' = ps_events st /\
    closes RC_SUCCESS RC_SUCCESS None us ((c, h) :: outer) st'.
Proof.
  intros args us init outer c done only pl st0 rs st h I0 Np (Rq & Lu & (ks & Fk & Eh) & Mn).
  destruct (inv_facts _ _ _ _ _ _ _ _ _ _ _ I0) as (Sh & Ec0 & Wi & _). destruct I0 as [En Ec Pc Fs Cn Md Pl Ou Le Ca Pn Fr Us].
  assert (R : exists it, reads st None it).
  { unfold reads. rewrite Md. destruct only.
    - destruct (no_text_ok _ _ _ Pl Np) as (it & E & _). eauto.
    - eexists. exact (no_token_ok _ _ _ Pl Np). }
  destruct R as (it & R). destruct Le as (L1 & L2 & L3 & L5 & L6). cbn in L1, L2.
  rewrite <- Cn in Fk, Lu. pose proof (fair_between _ _ _ Fk) as Bw.
  assert (Cp : is_complete (ps_counter st) = true).
  { apply (complete_ok p q H Sd Hn Ig args st0 rs st it En Pc); rewrite ?Ec; assumption. }
  destruct (distributed_when p q H Sd Hn Ig args st0 rs st En Pc) as (ks' & Fk' & Eg); rewrite ?Ec; try assumption.
  { intros s0 n E1. apply (count_at_end q st st it _ R). rewrite E1. symmetry. exact Ec0. }
  rewrite Ec in Fk', Eg. rewrite (fair_unique_proof _ _ _ _ Fk' Fk) in Eg. rewrite Eg, <- Eh in L2.
  exists (after_success (set_iter st it)). split.
  { cbn [parse_loop]. unfold bind. rewrite (next_eq cfg _ _ _ R). unfold bind.
    rewrite (counts_ok (set_iter st it) c h Wi Ec0 L3 L2 Rq Mn Cp). reflexivity. }
  split; [reflexivity|]. split; [rewrite <- Us; exact (kept_success (set_iter st it))|]. exists (c, h), outer. split; [reflexivity|]. split.
  - unfold level_closed. cbn. auto 10.
  - cbn. apply close_parents. exact Ou.
Qed.

Lemma single_parents : forall ls k, (forall l, In l ls -> c_multi (l_command l) = false) -> multi_parent_loop ls k = None.
Proof.
  induction ls as [|l ls IH]; intros k A; [reflexivity|]. cbn [multi_parent_loop].
  rewrite (A l (or_introl eq_refl)). apply IH. intros x Ix. apply A. right. exact Ix.
Qed.

Lemma ends_last : forall args us init outer c done pl st0 rs st t o pl' v pl'' h,
  line_inv args us init outer c done false pl st0 rs st -> flag cfg c pl t o pl' ->
  takes (s_style cfg) o pl' v pl'' -> o_type o = OT_LAST_ARGUMENT ->
  acceptable init c (done ++ [Optional o v]) h ->
  exists st', parse_loop cfg 2 st = Ret tt st' /\ Forall quiet (ps_events st') /\
    closes RC_SUCCESS RC_SUCCESS None (more us (left_at pl'')) ((c, h) :: outer) st'.
Proof.
  intros args us init outer c done pl st0 rs st t o pl' v pl'' h I0 Fl Ta Ty (Rq & Lu & (ks & Fk & Eh) & Mn).
  destruct (inv_facts _ _ _ _ _ _ _ _ _ _ _ I0) as (Sh & Ec0 & Wi & _). destruct I0 as [En Ec Pc Fs Cn Md Pl Ou Le Ca Pn Fr Us].
  rewrite <- Ec0 in Fl.
  destruct (flag_next st pl t o pl' v pl'' Sh Md Pl Fl Ta) as (it & it' & n & evs & Nx & W1 & Fo & Io & Rv & A2 & Fe & E).
  rewrite Ec0 in Fo. destruct Le as (L1 & L2 & L3 & L5 & L6). cbn in L1, L2.
  assert (Ek : length (positionals (done ++ [Optional o v])) = length (received rs)).
  { rewrite positionals_app. cbn. rewrite app_nil_r. symmetry. exact Cn. }
  rewrite Ek in Fk, Lu. pose proof (fair_between _ _ _ Fk) as Bw.
  assert (Cp : is_complete (ps_counter st) = true).
  { apply (complete_last p q H Sd Hn Ig args st0 rs st t it o v it' En Pc); rewrite ?Ec; assumption. }
  destruct (distributed_when p q H Sd Hn Ig args st0 rs st En Pc) as (ks' & Fk' & Eg); rewrite ?Ec; try assumption.
  { intros s0 m E1. apply (count_at_last q s0 st t it o _ Md Nx W1); [rewrite E1; exact Fo|left; exact Ty|reflexivity]. }
  rewrite Ec in Fk', Eg. rewrite (fair_unique_proof _ _ _ _ Fk' Fk) in Eg.
  set (s1 := set_mode (noted (started o st v it') n evs) ST_DONE).
  assert (V1 : l_values (ps_cur s1) = fold_left apply_change h []).
  { cbn. rewrite op_values_fold, L2, <- fold_left_app, <- app_assoc, Eh. do 2 f_equal. rewrite <- Eg.
    pose proof (meant_app done [Optional o v] (received rs) [] Cn) as X. rewrite app_nil_r in X. rewrite X.
    cbn [meant]. rewrite app_nil_r. reflexivity. }
  pose proof (counts_ok s1 c h Wi Ec0 L3 V1 Rq Mn Cp) as Ck.
  destruct (left_ok _ _ _ A2) as (it2 & Rem).
  assert (Fm : find_first_multi_command_parent (after_success s1) = None).
  { unfold find_first_multi_command_parent. apply single_parents. cbn. intros l Il. apply in_map_iff in Il.
    destruct Il as (x & <- & Ix). pose proof (parent_single st Sh x Ix) as X. destruct x. exact X. }
  set (s2 := after_success s1).
  exists (set_cur (set_iter s2 it2) (add_unprocessed (ps_cur s2) (left_at pl''))).
  split; [|split].
  - cbn [parse_loop]. unfold bind at 1. rewrite E. unfold apply_type. rewrite Ty.
    unfold bind at 1. unfold bind at 1. rewrite bind_modify. cbn [ret]. cbv beta iota.
    unfold concludes, conclude. unfold bind at 1. change (set_mode _ ST_DONE) with s1. rewrite Ck. cbn [negb].
    rewrite bind_gets, Fm. unfold bind at 1, copy_remaining. change (ps_iter (after_success s1)) with it'. rewrite Rem.
    reflexivity.
  - cbn. apply Forall_app. auto.
  - split; [rewrite <- Us; exact (kept_copied (after_success s1) it2 _ (kept st) (kept_success _))|].
    exists (c, h), outer. split; [reflexivity|]. split.
    + unfold level_closed. cbn. auto 10.
    + cbn. apply close_parents. exact Ou.
Qed.

(* ------------------------------------------------------------------------ *)
(** ** The whole line *)

Lemma no_commands_no_subs : forall only c pl ws subs e, reading cfg only c pl ws subs e ->
  c_commands c = [] -> subs = [].
Proof.
  intros only c pl ws subs e Rd. induction Rd; intros Cm; try reflexivity; try (apply IHRd; exact Cm).
  match goal with F : first_named _ _ _ _ |- _ => destruct F as (b & a0 & X & _) end.
  rewrite Cm in X. destruct b; discriminate.
Qed.

Lemma loop_more : forall fuel st st' r s, parse_loop cfg fuel st = Ret tt st' -> next cfg s = Ret r st ->
  ir_code r <> IC_ERROR -> ir_code r <> IC_DONE -> parse_loop cfg (S fuel) s = Ret tt st'.
Proof.
  intros fuel st st' r s L E N1 N2. cbn [parse_loop]. unfold bind. rewrite E. destruct (ir_code r); try congruence; exact L.
Qed.


(* ------------------------------------------------------------------------ *)
(** ** Errors *)

Definition fails_with (k : nat) (st : pstate) (m : errmsg) (us : list (list str)) (hs : list (cmd_data * list change)) : Prop :=
  exists c st' evs, Forall quiet evs /\ hd_error (map fst hs) = Some c /\ ps_events st' = evs ++ [EvError c m] /\
    if s_auto_exit cfg then parse_loop cfg k st = Exits (s_error_exit cfg) st'
    else parse_loop cfg k st = Ret tt st' /\ closes RC_FAILURE RC_FAILURE None us hs st'.

Lemma more_nil : forall st, more (kept st) [] = kept st.
Proof. intros st. unfold kept, more. cbn. rewrite app_nil_r. reflexivity. Qed.

Lemma error_ends : forall st s1 m c h outer pl us (A : Type) (a : A) (k : A -> M iter_result),
  level_is (c, h) (ps_cur s1) -> Forall2 level_is outer (ps_parents s1) -> ps_command s1 = c ->
  at_place (s_style cfg) (ps_iter s1) pl -> Forall quiet (ps_events s1) ->
  next cfg st = bind (bind (error cfg m) (fun _ => ret a)) k s1 ->
  (forall s, exists r, k a s = Ret r s /\ ir_code r = IC_ERROR) ->
  more (kept s1) (left_at pl) = us ->
  fails_with 1 st m us ((c, h) :: outer).
Proof.
  intros st s1 m c h outer pl us A a k (L1 & L2 & L3 & L5 & L6) Ou Ec Pl Ca En Kr <-.
  pose proof (error_eq cfg m s1 (place_wf _ _ _ Pl)) as Er. unfold fails_with. rewrite bind_assoc in En.
  destruct (s_auto_exit cfg) eqn:Au.
  - exists c, (add_event s1 (EvError (ps_command s1) m)), (ps_events s1). split; [exact Ca|]. split; [reflexivity|].
    split; [cbn; rewrite Ec; reflexivity|]. cbn [parse_loop]. unfold bind at 1. rewrite En. unfold bind. rewrite Er. reflexivity.
  - destruct Er as (l & it & Rm & _ & _ & Er). destruct (left_ok _ _ _ Pl) as (it2 & Rm2). rewrite Rm2 in Rm.
    injection Rm as <- <-. exists c, (after_error s1 m (left_at pl) it2), (ps_events s1). split; [exact Ca|]. split; [reflexivity|].
    split; [cbn; rewrite Ec; reflexivity|]. split.
    + cbn [parse_loop]. unfold bind at 1. rewrite En. unfold bind at 1. rewrite Er. cbn [ret]. unfold bind, ret.
      destruct (Kr (after_error s1 m (left_at pl) it2)) as (r & -> & Cr). rewrite Cr. reflexivity.
    + split; [apply kept_error|]. exists (c, h), outer. split; [reflexivity|]. split; [|cbn; apply close_parents; exact Ou].
      unfold level_closed. cbn. auto 10.
Qed.

Lemma lacks_dec : forall h o vs, vs = fold_left apply_change h [] ->
  if negb (o_optional o) && negb (has_value vs (o_value_id o)) then lacks h o else ~ lacks h o.
Proof.
  intros h o vs ->. unfold lacks. destruct (o_optional o); cbn [negb andb]; [intros (X & _); discriminate X|].
  assert (I0 : in_order (fold_left apply_change h [])) by (apply changes_in_order; constructor).
  rewrite has_pick, <- (get_values_pick _ _ I0), history_proof, negb_involutive.
  destruct (history h (o_value_id o)); cbn [is_empty]; [auto|]. intros (_ & X). discriminate X.
Qed.

Lemma commas_join : forall fs, join_flags fs = commas fs.
Proof.
  assert (G : forall fs f, join_flags (f :: fs) = f ++ concat (map (fun f => $", " ++ f) fs)).
  { induction fs as [|g fs IH]; intros f; [cbn; rewrite app_nil_r; reflexivity|].
    change (join_flags (f :: g :: fs)) with (f ++ $", " ++ join_flags (g :: fs)). rewrite IH. reflexivity. }
  intros [|f fs]; [reflexivity|]. rewrite G. reflexivity.
Qed.

Lemma mandatory_cases : forall h opts st, l_values (ps_cur st) = fold_left apply_change h [] ->
  ((forall o, In o opts -> ~ lacks h o) /\ has_all_mandatory cfg opts st = Ret true st) \/
  exists before o after, opts = before ++ o :: after /\ lacks h o /\ (forall b, In b before -> ~ lacks h b) /\
    has_all_mandatory cfg opts st = bind (error cfg (MsgMandatoryMissing (commas (o_flags o)))) (fun _ => ret false) st.
Proof.
  intros h opts st Ev. induction opts as [|o opts IH]; [left; split; [intros o []|reflexivity]|].
  cbn [has_all_mandatory]. rewrite bind_gets. pose proof (lacks_dec h o _ Ev) as D.
  destruct (negb (o_optional o) && negb (has_value (l_values (ps_cur st)) (o_value_id o))).
  - right. exists [], o, opts. split; [reflexivity|]. split; [exact D|]. split; [intros b []|]. rewrite <- commas_join. reflexivity.
  - destruct IH as [(A & E)|(b & x & a & -> & L & B & E)].
    + left. split; [|exact E]. intros y [<-|Iy]; [exact D|exact (A y Iy)].
    + right. exists (o :: b), x, a. split; [reflexivity|]. split; [exact L|]. split; [|exact E].
      intros y [<-|Iy]; [exact D|exact (B y Iy)].
Qed.

Lemma bind_ret_eq : forall A B (m : M A) (f : A -> M B) st a s1, m st = Ret a s1 -> bind m f st = f a s1.
Proof. intros A B m f st a s1 E. unfold bind. rewrite E. reflexivity. Qed.

Lemma counts_cases : forall st c h, within top c -> ps_command st = c -> l_subs (ps_cur st) = [] ->
  l_values (ps_cur st) = fold_left apply_change h [] ->
  (check_counts cfg st = Ret true (after_success st) /\ (forall o, In o (c_options c) -> ~ lacks h o) /\
     c_require c <> Some true /\ is_complete (ps_counter st) = true) \/
  exists m, check_counts cfg st = bind (error cfg m) (fun _ => ret false) st /\
    ((exists before o after, c_options c = before ++ o :: after /\ lacks h o /\
        (forall b, In b before -> ~ lacks h b) /\ m = MsgMandatoryMissing (commas (o_flags o))) \/
     ((forall o, In o (c_options c) -> ~ lacks h o) /\ c_require c = Some true /\ m = MsgNoCommand) \/
     ((forall o, In o (c_options c) -> ~ lacks h o) /\ c_require c <> Some true /\ is_complete (ps_counter st) = false /\
        m = MsgTooFewArguments (minima (c_arguments c) =? maxima (c_arguments c))%N (minima (c_arguments c))
              (ac_counter (ps_counter st)))).
Proof.
  intros st c h Wi Ec Es Ev. unfold check_counts. rewrite bind_gets, Ec.
  destruct (mandatory_cases h (c_options c) st Ev) as [(A & E)|(b & o & a & Eo & L & B & E)].
  2:{ right. eexists. split; [|left; exists b, o, a; auto]. unfold bind in E |- *. rewrite E.
      destruct (error cfg _ st); reflexivity. }
  rewrite !(bind_ret_eq _ _ _ _ _ _ _ E). cbn [negb]. destruct (c_require c) as [req|] eqn:Er.
  2:{ destruct (finish_parser_prepared p q H _ Wi) as (N0 & _). contradiction. }
  rewrite bind_gets, Es. destruct req; cbn [andb is_empty].
  { right. exists MsgNoCommand. split; [reflexivity|]. right. left. auto. }
  rewrite bind_gets. destruct (is_complete (ps_counter st)) eqn:Cp.
  { left. split; [reflexivity|]. split; [exact A|]. split; [discriminate|reflexivity]. }
  right. destruct (Sd _ Wi) as (Pr & Mx & _). rewrite min_max_proof. eexists. split; [reflexivity|]. right. right.
  split; [exact A|]. split; [discriminate|]. split; [reflexivity|]. rewrite N.min_r by lia. reflexivity.
Qed.

Lemma received_counted : forall args us init outer c done only pl st0 rs st,
  line_inv args us init outer c done only pl st0 rs st ->
  ac_counter (ps_counter st) = N.of_nat (length (positionals done)).
Proof.
  intros args us init outer c done only pl st0 rs st [En Ec Pc Fs Cn Md Pl Ou Le Ca Pn Fr Us]. subst c. rewrite <- Cn.
  destruct (counters_full p q H Sd Hn Ig args st0 rs st En Pc Fs) as (_ & _ & _ & _ & [(_ & E & L)|(_ & _ & n & s0 & _ & _ & _ & E & Ll & _ & _)]);
    rewrite E, calls_count.
  - reflexivity.
  - rewrite L, app_length. lia.
  - unfold counted_counter, consume_initial. cbn. reflexivity.
  - exact Ll.
Qed.

Lemma judged : forall args us init outer c done only pl st0 rs st extra s1,
  line_inv args us init outer c done only pl st0 rs st ->
  (forall s0 n, ps_command s0 = c -> ahead cfg s0 n (length (received rs)) st -> N.of_nat (length (received rs)) = n) ->
  (N.of_nat (length (positionals done)) <= maxima (c_arguments c))%N ->
  positionals extra = [] ->
  ps_command s1 = c -> ps_counter s1 = ps_counter st -> l_subs (ps_cur s1) = [] ->
  let h := init ++ meant (received rs) (done ++ extra) in
  l_values (ps_cur s1) = fold_left apply_change h [] ->
  let k := N.of_nat (length (positionals (done ++ extra))) in
  (check_counts cfg s1 = Ret true (after_success s1) /\ acceptable init c (done ++ extra) h) \/
  exists m, check_counts cfg s1 = bind (error cfg m) (fun _ => ret false) s1 /\ shortfall c h k m.
Proof.
  intros args us init outer c done only pl st0 rs st extra s1 I0 Ak Lm Pe Ec1 Cn1 Su h Ev k.
  pose proof (received_counted _ _ _ _ _ _ _ _ _ _ _ I0) as Rc.
  destruct (inv_facts _ _ _ _ _ _ _ _ _ _ _ I0) as (Sh & Ec0 & Wi & _). destruct I0 as [En Ec Pc Fs Cn Md Pl Ou Le Ca Pn Fr Us].
  assert (Ek : k = N.of_nat (length (received rs))).
  { unfold k. rewrite positionals_app, Pe, app_nil_r, Cn. reflexivity. }
  destruct (counts_cases s1 c h Wi Ec1 Su Ev) as [(E & A & Rq & Cp)|(m & E & Sf)].
  - left. split; [exact E|]. rewrite Cn1 in Cp.
    assert (Lk : (N.of_nat (length (received rs)) <= maxima (c_arguments (ps_command st0)))%N) by (rewrite Cn, Ec; exact Lm).
    destruct (complete_then p q H Sd Hn Ig args st0 rs st En Pc) as (Mn & Lu); rewrite ?Ec; try assumption.
    { rewrite <- Ec. exact Lk. }
    destruct (distributed_when p q H Sd Hn Ig args st0 rs st En Pc) as (ks & Fk & Eg); rewrite ?Ec; try assumption.
    { rewrite Ec in Mn, Lk. auto. }
    rewrite Ec in *. split; [exact Rq|]. fold k. rewrite Ek. split; [exact Lu|]. split.
    + exists ks. split; [exact Fk|]. rewrite <- Eg. reflexivity.
    + intros o Io Op Hh. apply (A o Io). split; [exact Op|exact Hh].
  - right. exists m. split; [exact E|]. destruct Sf as [Sf|[Sf|(A & Rq & Ic & Em)]]; [left; exact Sf|right; left; exact Sf|].
    right. right. split; [exact A|]. split; [exact Rq|]. split.
    + intros (Mn & Lu). rewrite Cn1 in Ic. rewrite Ek in Mn, Lu.
      assert (X : is_complete (ps_counter st) = true).
      { apply (complete_when p q H Sd Hn Ig args st0 rs st En Pc); rewrite ?Ec; try assumption.
        split; [exact Mn|]. rewrite Cn. exact Lm. }
      congruence.
    + rewrite Em, Cn1, Rc, Ek, Cn. reflexivity.
Qed.

Definition so_far_h (init : list change) (c : cmd_data) (ws : list word) (h : list change) : Prop :=
  exists got, length got = length (positionals ws) /\ (forall a, In a got -> In a (c_arguments c)) /\
    h = init ++ meant got ws.

Lemma received_in : forall args us init outer c done only pl st0 rs st,
  line_inv args us init outer c done only pl st0 rs st -> forall a, In a (received rs) -> In a (c_arguments c).
Proof.
  intros args us init outer c done only pl st0 rs st [En Ec Pc Fs Cn Md Pl Ou Le Ca Pn Fr Us] a Ia. subst c.
  destruct (counters_full p q H Sd Hn Ig args st0 rs st En Pc Fs) as (_ & _ & _ & Wi & Cs).
  destruct (Sd _ Wi) as (Pr & _).
  assert (X : exists l, map snd l = c_arguments (ps_command st0) /\ In a (order l)).
  { destruct Cs as [(_ & _ & L)|(_ & _ & n & s0 & _ & _ & _ & _ & _ & _ & L)].
    - exists (map (fun a => (a_max a, a)) (c_arguments (ps_command st0))). split; [rewrite map_map; apply map_id|].
      unfold left_over, plain_counter in L. simpl in L.
      rewrite make_counters_order in L by (intros x Hx; apply Pr in Hx; lia).
      rewrite L. apply in_or_app. left. exact Ia.
    - exists (make_counters_n (c_arguments (ps_command st0)) n). split; [apply counted_args|].
      rewrite counted_left in L. cbn in L. rewrite L. apply in_or_app. left. exact Ia. }
  destruct X as (l & <- & Il). exact (order_incl l a Il).
Qed.

Lemma end_judged : forall args us init outer c done only pl st0 rs st,
  line_inv args us init outer c done only pl st0 rs st -> (if only then no_text pl else no_token pl) ->
  (N.of_nat (length (positionals done)) <= maxima (c_arguments c))%N ->
  (exists h, acceptable init c done h) \/
  exists m h, so_far_h init c done h /\ shortfall c h (N.of_nat (length (positionals done))) m /\
    fails_with 1 st m us ((c, h) :: outer).
Proof.
  intros args us init outer c done only pl st0 rs st I0 Np Lm.
  pose proof (received_in _ _ _ _ _ _ _ _ _ _ _ I0) as Ri. pose proof I0 as I1.
  destruct (inv_facts _ _ _ _ _ _ _ _ _ _ _ I0) as (Sh & Ec0 & Wi & _). destruct I0 as [En Ec Pc Fs Cn Md Pl Ou Le Ca Pn Fr Us].
  assert (R : exists it, reads st None it /\ at_place (s_style cfg) it (Fresh [])).
  { unfold reads. rewrite Md. destruct only.
    - destruct (no_text_ok _ _ _ Pl Np) as (it & E & A). eauto.
    - eexists. split; [exact (no_token_ok _ _ _ Pl Np)|apply ap_fresh]. }
  destruct R as (it & R & A). pose proof Le as (L1 & L2 & L3 & L5 & L6). cbn in L1, L2.
  pose proof (judged args us init outer c done only pl st0 rs st [] (set_iter st it) I1) as J. rewrite app_nil_r in J.
  destruct J as [(_ & Ac)|(m & E & Sf)]; try assumption; try reflexivity.
  { intros s0 n E1. apply (count_at_end q st st it _ R). rewrite E1. symmetry. exact Ec0. }
  - left. eauto.
  - right. exists m. eexists. split; [exists (received rs); eauto|]. split; [exact Sf|].
    apply (error_ends st (set_iter st it) m c _ outer (Fresh []) _ bool false
      (fun ok => ret (mk_ir (if ok then IC_DONE else IC_ERROR) ItNone []))); try assumption; try (rewrite <- Us; exact (more_nil (set_iter st it))).
    + rewrite (next_eq cfg _ _ _ R). unfold bind in E |- *. rewrite E. reflexivity.
    + intros s. eexists. split; reflexivity.
Qed.

Lemma last_judged : forall args us init outer c done pl st0 rs st t o pl' v pl'',
  line_inv args us init outer c done false pl st0 rs st -> flag cfg c pl t o pl' ->
  takes (s_style cfg) o pl' v pl'' -> o_type o = OT_LAST_ARGUMENT ->
  (N.of_nat (length (positionals done)) <= maxima (c_arguments c))%N ->
  (exists h, acceptable init c (done ++ [Optional o v]) h) \/
  exists m h, so_far_h init c (done ++ [Optional o v]) h /\
    shortfall c h (N.of_nat (length (positionals (done ++ [Optional o v])))) m /\
    fails_with 1 st m (more us (left_at pl'')) ((c, h) :: outer).
Proof.
  intros args us init outer c done pl st0 rs st t o pl' v pl'' I0 Fl Ta Ty Lm.
  pose proof (received_in _ _ _ _ _ _ _ _ _ _ _ I0) as Ri. pose proof I0 as I1.
  destruct (inv_facts _ _ _ _ _ _ _ _ _ _ _ I0) as (Sh & Ec0 & Wi & _). destruct I0 as [En Ec Pc Fs Cn Md Pl Ou Le Ca Pn Fr Us].
  rewrite <- Ec0 in Fl.
  destruct (flag_next st pl t o pl' v pl'' Sh Md Pl Fl Ta) as (it & it' & n & evs & Nx & W1 & Fo & Io & Rv & A2 & Fe & E).
  rewrite Ec0 in Fo. destruct Le as (L1 & L2 & L3 & L5 & L6). cbn in L1, L2.
  set (s1 := set_mode (noted (started o st v it') n evs) ST_DONE).
  assert (V1 : l_values (ps_cur s1) = fold_left apply_change (init ++ meant (received rs) (done ++ [Optional o v])) []).
  { cbn. rewrite op_values_fold, L2, <- fold_left_app, <- app_assoc. do 2 f_equal.
    pose proof (meant_app done [Optional o v] (received rs) [] Cn) as X. rewrite app_nil_r in X. rewrite X.
    cbn [meant]. rewrite app_nil_r. reflexivity. }
  destruct (judged args us init outer c done false pl st0 rs st [Optional o v] s1 I1) as [(_ & Ac)|(m & E1 & Sf)];
    try assumption; try reflexivity.
  { intros s0 n0 E1. apply (count_at_last q s0 st t it o _ Md Nx W1); [rewrite E1; exact Fo|left; exact Ty|reflexivity]. }
  - left. eauto.
  - right. exists m. eexists. split.
    { exists (received rs). split; [|split; [exact Ri|reflexivity]]. rewrite positionals_app. cbn. rewrite app_nil_r. exact Cn. }
    split; [exact Sf|].
    eapply (error_ends st s1 m c _ outer pl'' _ bool false); try exact Ou; try exact A2; try assumption; try (rewrite <- Us; reflexivity).
    + unfold level_is. cbn. auto 10.
    + cbn. apply Forall_app. auto.
    + rewrite E. unfold apply_type. rewrite Ty. unfold bind at 1. unfold bind at 1. rewrite bind_modify. cbn [ret]. cbv beta iota.
      unfold concludes, conclude. change (set_mode _ ST_DONE) with s1. unfold bind in E1 |- *. rewrite E1. reflexivity.
    + intros s. eexists. split; reflexivity.
Qed.

(** The other endings. *)
Definition stops_so (k : nat) (st : pstate) (o : opt_data) (us : list (list str)) (hs : list (cmd_data * list change)) : Prop :=
  exists c st' evs, Forall quiet evs /\ hd_error (map fst hs) = Some c /\
    ps_events st' = evs ++ match o_type o with OT_HELP => [EvHelp c] | _ => [] end /\
    if s_auto_exit cfg && match o_type o with OT_STOP => false | _ => true end
    then parse_loop cfg k st = Exits (s_normal_exit cfg) st'
    else parse_loop cfg k st = Ret tt st' /\ closes RC_NONE RC_STOP (Some o) us hs st'.

Lemma open_parents : forall outer ls, Forall2 level_is outer ls -> Forall2 (level_closed RC_NONE None) outer ls.
Proof.
  intros outer ls F. induction F as [|ch l outer ls X F IH]; constructor; [|exact IH].
  destruct X as (A & B & C & E & G). unfold level_closed. auto 10.
Qed.

Lemma stop_ends : forall args us init outer c done pl st0 rs st t o pl' v pl'',
  line_inv args us init outer c done false pl st0 rs st -> flag cfg c pl t o pl' ->
  takes (s_style cfg) o pl' v pl'' -> o_type o = OT_STOP \/ o_type o = OT_EXIT \/ o_type o = OT_HELP ->
  exists h, so_far_h init c (done ++ [Optional o v]) h /\ stops_so 2 st o (more us (left_at pl'')) ((c, h) :: outer).
Proof.
  intros args us init outer c done pl st0 rs st t o pl' v pl'' I0 Fl Ta Ty.
  pose proof (received_in _ _ _ _ _ _ _ _ _ _ _ I0) as Ri.
  destruct (inv_facts _ _ _ _ _ _ _ _ _ _ _ I0) as (Sh & Ec0 & Wi & _). destruct I0 as [En Ec Pc Fs Cn Md Pl Ou Le Ca Pn Fr Us].
  rewrite <- Ec0 in Fl.
  destruct (flag_next st pl t o pl' v pl'' Sh Md Pl Fl Ta) as (it & it' & n & evs & Nx & W1 & Fo & Io & Rv & A2 & Fe & E).
  destruct Le as (L1 & L2 & L3 & L5 & L6). cbn in L1, L2.
  set (h := init ++ meant (received rs) (done ++ [Optional o v])).
  exists h. split.
  { exists (received rs). split; [|split; [exact Ri|reflexivity]]. rewrite positionals_app. cbn. rewrite app_nil_r. exact Cn. }
  set (s0 := noted (started o st v it') n evs) in *.
  assert (V1 : l_values (ps_cur s0) = fold_left apply_change h []).
  { cbn. rewrite op_values_fold, L2, <- fold_left_app. unfold h. rewrite <- app_assoc. do 2 f_equal.
    pose proof (meant_app done [Optional o v] (received rs) [] Cn) as X. rewrite app_nil_r in X. rewrite X.
    cbn [meant]. rewrite app_nil_r. reflexivity. }
  destruct (left_ok _ _ _ A2) as (it2 & Rem).
  assert (Q : Forall quiet (ps_events s0)) by (cbn; apply Forall_app; auto).
  set (s1 := match o_type o with OT_HELP => add_event s0 (EvHelp c) | _ => s0 end).
  set (s2 := set_cur (set_mode s1 ST_DONE) (set_breaking_option o (ps_cur (set_mode s1 ST_DONE)))).
  assert (G : (r <- apply_type o ;; ret (r, v)) s0 = Ret ((match o_type o with OT_STOP => OR_STOP | _ => OR_EXIT end), v) s2).
  { unfold s2, s1, apply_type. destruct Ty as [Ty|[Ty|Ty]]; rewrite Ty; [reflexivity|reflexivity|].
    rewrite <- Ec0. reflexivity. }
  assert (I2 : ps_iter s2 = it') by (unfold s2, s1; destruct (o_type o); reflexivity).
  assert (C2 : ps_cur s2 = set_breaking_option o (ps_cur s0)) by (unfold s2, s1; destruct (o_type o); reflexivity).
  assert (P2 : ps_parents s2 = ps_parents st) by (unfold s2, s1; destruct (o_type o); reflexivity).
  assert (E2 : ps_events s2 = ps_events s0 ++ match o_type o with OT_HELP => [EvHelp c] | _ => [] end).
  { unfold s2, s1. destruct (o_type o); cbn; rewrite ?app_nil_r; reflexivity. }
  assert (M2 : ps_mode s2 = ST_DONE) by (unfold s2, s1; destruct (o_type o); reflexivity).
  rewrite (bind_ret_eq _ _ _ _ _ _ _ G) in E. unfold concludes, conclude in E.
  set (s3 := set_cur (set_iter s2 it2) (add_unprocessed (ps_cur s2) (left_at pl''))).
  assert (E3 : (copy_remaining ;;; ret (mk_ir IC_OPTION (ItOption o) v)) s2 = Ret (mk_ir IC_OPTION (ItOption o) v) s3).
  { unfold bind, copy_remaining. rewrite I2, Rem. reflexivity. }
  assert (Dn : parse_loop cfg 1 s3 = Ret tt s3).
  { cbn [parse_loop]. unfold bind at 1. unfold next. rewrite bind_gets. change (ps_mode s3) with (ps_mode s2). rewrite M2. reflexivity. }
  assert (Cl : closes RC_NONE RC_STOP (Some o) (more us (left_at pl'')) ((c, h) :: outer) s3).
  { split.
    { rewrite <- Us. apply (kept_copied s2 it2). unfold kept. rewrite C2, P2. reflexivity. }
    exists (c, h), outer. split; [reflexivity|]. split.
    - unfold level_closed, s3. cbn [ps_cur set_cur]. rewrite C2. cbn. cbn in V1. auto 10.
    - change (ps_parents s3) with (ps_parents s2). rewrite P2. apply open_parents. exact Ou. }
  assert (Ex : (s_auto_exit cfg && match o_type o with OT_STOP => false | _ => true end = false /\ next cfg st = Ret (mk_ir IC_OPTION (ItOption o) v) s3) \/
    (s_auto_exit cfg && match o_type o with OT_STOP => false | _ => true end = true /\ next cfg st = Exits (s_normal_exit cfg) s2)).
  { destruct (s_auto_exit cfg); destruct Ty as [Ty|[Ty|Ty]]; rewrite Ty in E |- *; cbn [andb];
      [left|right|right|left|left|left]; (split; [reflexivity|]); rewrite E; try exact E3; reflexivity. }
  unfold stops_so. destruct Ex as [(X & N1)|(X & N1)]; rewrite X.
  - exists c, s3, (ps_events s0). split; [exact Q|]. split; [reflexivity|]. split; [exact E2|]. split; [|exact Cl].
    apply (loop_more 1 s3 s3 (mk_ir IC_OPTION (ItOption o) v) st Dn N1); discriminate.
  - exists c, s2, (ps_events s0). split; [exact Q|]. split; [reflexivity|]. split; [exact E2|].
    cbn [parse_loop]. unfold bind at 1. rewrite N1. reflexivity.
Qed.

Lemma so_far_inv : forall args us init outer c done only pl st0 rs st,
  line_inv args us init outer c done only pl st0 rs st -> so_far_h init c done (init ++ meant (received rs) done).
Proof.
  intros args us init outer c done only pl st0 rs st I0. exists (received rs).
  split; [apply (li_count _ _ _ _ _ _ _ _ _ _ _ I0)|]. split; [exact (received_in _ _ _ _ _ _ _ _ _ _ _ I0)|reflexivity].
Qed.

Lemma surplus_ends : forall args us init outer c done only pl st0 rs st t pl',
  line_inv args us init outer c done only pl st0 rs st -> plain cfg only pl t pl' -> c_commands c = [] ->
  N.of_nat (length (positionals done)) = maxima (c_arguments c) ->
  exists h, so_far_h init c done h /\ fails_with 1 st (MsgTooManyArguments t) (more us (left_at pl')) ((c, h) :: outer).
Proof.
  intros args us init outer c done only pl st0 rs st t pl' I0 Pt Cm Em.
  pose proof (so_far_inv _ _ _ _ _ _ _ _ _ _ _ I0) as Sf. eexists. split; [exact Sf|].
  destruct (inv_facts _ _ _ _ _ _ _ _ _ _ _ I0) as (Sh & Ec0 & Wi & _). destruct I0 as [En Ec Pc Fs Cn Md Pl Ou Le Ca Pn Fr Us].
  destruct (plain_reads only st pl t pl' Md Pl Pt) as (it & R & A' & Nl & Io).
  pose proof (no_sibling_alone st t Sh) as Ns.
  destruct (exhausted p q H Sd Hn Ig args st0 rs st En Pc) as (ac & Na); try (rewrite Ec); try assumption.
  { rewrite Cn. exact Em. }
  apply (error_ends st (set_counter (set_iter st it) ac) (MsgTooManyArguments t) c _ outer pl' _ iter_result
    (mk_ir IC_ERROR ItNone []) (fun r => ret r)); try assumption; try (rewrite <- Us; reflexivity).
  - rewrite (next_eq cfg _ _ _ R). unfold process_token. rewrite bind_gets, Io.
    change (ps_command (set_iter st it)) with (ps_command st). rewrite Ec0, Cm. cbn [is_empty].
    unfold process_argument. rewrite bind_gets. pose proof (no_sibling_none q st t it Ns) as Nst. fold cfg in Nst. rewrite Nst.
    unfold bind at 1, m_next_argument. change (ps_counter (set_iter st it)) with (ps_counter st). rewrite Na, Ig.
    unfold bind. destruct (error cfg (MsgTooManyArguments t) (set_counter (set_iter st it) ac)); reflexivity.
  - intros s. eexists. split; reflexivity.
Qed.

Lemma found_first : forall c t d, find_command c t (s_case_insensitive cfg) = Some d -> exists d1, first_named cfg c t d1.
Proof.
  intros c t d Fc. exists d. unfold find_command in Fc. unfold first_named.
  induction (c_commands c) as [|x l IH]; [discriminate|]. cbn [find] in Fc.
  match type of Fc with (if ?x then _ else _) = _ => destruct x eqn:F end.
  - injection Fc as <-. exists [], l. split; [reflexivity|]. split; [apply StepProofs.folded_norm; exact F|intros b []].
  - destruct (IH Fc) as (b & e & -> & A & B). exists (x :: b), e. split; [reflexivity|]. split; [exact A|].
    intros y [<-|Iy]; [|exact (B y Iy)]. intros X. apply StepProofs.folded_norm in X. congruence.
Qed.

Lemma no_command_ends : forall args us init outer c done only pl st0 rs st t pl',
  line_inv args us init outer c done only pl st0 rs st -> plain cfg only pl t pl' -> c_commands c <> [] ->
  (forall d, ~ first_named cfg c t d) ->
  exists h, so_far_h init c done h /\ fails_with 1 st (MsgUnknownCommand t) (more us (left_at pl')) ((c, h) :: outer).
Proof.
  intros args us init outer c done only pl st0 rs st t pl' I0 Pt Cm Nf.
  pose proof (so_far_inv _ _ _ _ _ _ _ _ _ _ _ I0) as Sf. eexists. split; [exact Sf|].
  destruct (inv_facts _ _ _ _ _ _ _ _ _ _ _ I0) as (Sh & Ec0 & Wi & _). destruct I0 as [En Ec Pc Fs Cn Md Pl Ou Le Ca Pn Fr Us].
  destruct (plain_reads only st pl t pl' Md Pl Pt) as (it & R & A' & Nl & Io).
  apply (error_ends st (set_iter st it) (MsgUnknownCommand t) c _ outer pl' _ iter_result
    (mk_ir IC_ERROR ItNone []) (fun r => ret r)); try assumption; try (rewrite <- Us; reflexivity).
  - rewrite (next_eq cfg _ _ _ R). unfold process_token. rewrite bind_gets, Io.
    change (ps_command (set_iter st it)) with (ps_command st). rewrite Ec0.
    destruct (find_command c t (s_case_insensitive cfg)) as [d|] eqn:Fc.
    { exfalso. destruct (found_first _ _ _ Fc) as (d1 & F1). exact (Nf d1 F1). }
    destruct (c_commands c) as [|x l] eqn:Ex; [contradiction|]. cbn [is_empty].
    unfold bind. destruct (error cfg (MsgUnknownCommand t) (set_iter st it)); reflexivity.
  - intros s. eexists. split; reflexivity.
Qed.

Lemma unknown_ends : forall args us init outer c done pl st0 rs st t pl', s_ignore_options cfg = false ->
  line_inv args us init outer c done false pl st0 rs st -> token (s_style cfg) pl t pl' -> looks_like_option (s_style cfg) t ->
  dependable cfg c t -> unknown_option cfg c t ->
  exists h a, so_far_h init c done h /\ within_line args (left_at pl') a /\
    fails_with 1 st (MsgUnknownOption a) (more us (left_at pl')) ((c, h) :: outer).
Proof.
  intros args us init outer c done pl st0 rs st t pl' Io I0 Tk Lk Dp Un.
  pose proof (so_far_inv _ _ _ _ _ _ _ _ _ _ _ I0) as Sf.
  destruct (inv_facts _ _ _ _ _ _ _ _ _ _ _ I0) as (Sh & Ec0 & Wi & (m & Rc) & _). destruct I0 as [En Ec Pc Fs Cn Md Pl Ou Le Ca Pn Fr Us].
  destruct (token_ok _ _ _ _ _ Pl Tk) as (it & Nx & A1).
  destruct (current_some it (next_head _ _ _ Nx)) as (cur & Ecur). eexists. exists cur. split; [exact Sf|]. split.
  { destruct (ends_tran _ _ _ (next_args _ _ _ Nx) Fr) as (pre & ->).
    unfold it_current in Ecur. destruct (it_args it) as [|a r] eqn:Ea; [discriminate|].
    cbn in Ecur. injection Ecur as <-. exists pre, r. split; [reflexivity|].
    exact (left_head _ _ _ _ _ _ _ Tk A1 Ea). }
  apply (error_ends st (set_iter st it) (MsgUnknownOption cur) c _ outer pl' _ iter_result
    (mk_ir IC_ERROR ItNone []) (fun r => ret r)); try assumption; try (rewrite <- Us; reflexivity).
  - rewrite (next_option_eq cfg st t it Md Nx Lk). unfold process_option. rewrite bind_gets.
    change (ps_command (set_iter st it)) with (ps_command st). rewrite <- Ec0 in Dp, Un.
    pose proof (unknown_none p q H args st m t Rc Dp Un) as Fn. fold cfg in Fn. rewrite Fn, Io. cbn [negb].
    unfold bind, m_current. cbn [ps_iter set_iter]. rewrite Ecur.
    destruct (error cfg (MsgUnknownOption cur) (set_iter st it)); reflexivity.
  - intros s. eexists. split; reflexivity.
Qed.

Lemma no_value_ends : forall args us init outer c done pl st0 rs st t o pl',
  line_inv args us init outer c done false pl st0 rs st -> flag cfg c pl t o pl' -> takes_value o -> no_text pl' ->
  exists h, so_far_h init c done h /\ fails_with 1 st (MsgNoValue t) us ((c, h) :: outer).
Proof.
  intros args us init outer c done pl st0 rs st t o pl' I0 (Tk & Lk & Ch) Tv Nt.
  pose proof (so_far_inv _ _ _ _ _ _ _ _ _ _ _ I0) as Sf. eexists. split; [exact Sf|].
  destruct (inv_facts _ _ _ _ _ _ _ _ _ _ _ I0) as (Sh & Ec0 & Wi & (m & Rc) & _). destruct I0 as [En Ec Pc Fs Cn Md Pl Ou Le Ca Pn Fr Us].
  destruct (token_ok _ _ _ _ _ Pl Tk) as (it & Nx & A1). destruct (no_text_ok _ _ _ A1 Nt) as (it' & Nv & A2).
  rewrite <- Ec0 in Ch. pose proof (shape_lookups p q H st Sh t o Ch) as Fo. fold cfg in Fo.
  apply (error_ends st (set_iter (set_iter st it) it') (MsgNoValue t) c _ outer (Fresh []) _ (option str) None
    (fun _ => ret (mk_ir IC_ERROR (ItOption o) []))); try assumption; try (rewrite <- Us; exact (more_nil (set_iter (set_iter st it) it'))).
  - rewrite (next_option_eq cfg st t it Md Nx Lk). unfold process_option. rewrite bind_gets.
    change (ps_command (set_iter st it)) with (ps_command st). rewrite Fo. unfold process_known_option.
    rewrite !bind_assoc. unfold apply_operation. destruct Tv as (Eo & Ek).
    assert (X : m_next_value (set_iter st it) = Ret None (set_iter (set_iter st it) it')).
    { unfold m_next_value. cbn [ps_iter set_iter]. rewrite Nv. reflexivity. }
    destruct Eo as [Eo|Eo]; rewrite Eo, Ek; cbn [is_empty negb]; rewrite bind_assoc; rewrite (bind_ret_eq _ _ _ _ _ _ _ X);
      cbv beta iota; unfold bind; destruct (error cfg (MsgNoValue t) (set_iter (set_iter st it) it')); reflexivity.
  - intros s. eexists. split; reflexivity.
Qed.

(* ------------------------------------------------------------------------ *)
(** ** The whole line *)

Definition word_fits (sg : cmd_data * list word) : Prop := Forall (foreseen cfg (fst sg)) (snd sg).

Lemma plain_left : forall only pl t pl' it, plain cfg only pl t pl' -> at_place (s_style cfg) it pl' ->
  ends_with (left_at pl') (it_args it).
Proof.
  intros only pl t pl' it Pt A'.
  destruct A' as [a|a rest|a c j rest St Nc Cd L|a j rest D L]; cbn [left_at it_args];
    [apply ends_refl|apply ends_tl, ends_refl| |apply ends_tl, ends_refl].
  exfalso. destruct only; [inversion Pt|]. destruct Pt as (Tk & Lk). apply Lk. rewrite St.
  remember (Group (skipn j a) rest) as pl' eqn:E. clear - Tk E. induction Tk; try discriminate E; auto; eexists _, _; reflexivity.
Qed.


(** An ignored argument. *)
Lemma ignored_goes_on : forall args u us init outer c done pl st0 rs st a pl',
  line_inv args (u :: us) init outer c done false pl st0 rs st -> ignorable cfg c pl a pl' ->
  exists st', next cfg st = Ret (mk_ir IC_UNKNOWN ItNone a) st' /\
    line_inv args ((u ++ [a]) :: us) init outer c done false pl' st0 (rs ++ [mk_ir IC_UNKNOWN ItNone a]) st'.
Proof.
  intros args u us init outer c done pl st0 rs st a pl' I0 (Io & Ng & Lf & t & Tk & Lk & Dp & Un).
  destruct (inv_facts _ _ _ _ _ _ _ _ _ _ _ I0) as (Sh & Ec0 & Wi & (m & Rc) & _). destruct I0 as [En Ec Pc Fs Cn Md Pl Ou Le Ca Pn Fr Us].
  destruct (token_ok _ _ _ _ _ Pl Tk) as (it & Nx & A1).
  destruct (current_some it (next_head _ _ _ Nx)) as (cur & Ecur).
  destruct (token_argument _ _ _ _ _ _ _ Pl Tk Nx A1 Ng Lf) as (Ea & Bg).
  assert (cur = a) as -> by congruence. clear Ea.
  exists (set_cur (set_iter st it) (add_unprocessed (ps_cur st) [a])).
  assert (Es : next cfg st = Ret (mk_ir IC_UNKNOWN ItNone a) (set_cur (set_iter st it) (add_unprocessed (ps_cur st) [a]))).
  { rewrite (next_option_eq cfg st t it Md Nx Lk). unfold process_option. rewrite bind_gets.
    change (ps_command (set_iter st it)) with (ps_command st). rewrite <- Ec0 in Dp, Un.
    pose proof (unknown_none p q H args st m t Rc Dp Un) as Fn. fold cfg in Fn. rewrite Fn, Io. cbn [negb].
    unfold bind, m_current. cbn [ps_iter set_iter]. rewrite Ecur, Bg. reflexivity. }
  split; [exact Es|].
  assert (Er : received (rs ++ [mk_ir IC_UNKNOWN ItNone a]) = received rs).
  { unfold received. rewrite flat_map_app. cbn. apply app_nil_r. }
  constructor.
  - exact En.
  - exact Ec.
  - apply (proceeds_app st0 rs st); [exact Pc|exact Es|discriminate|].
    intros [D|[D|(o2 & D & _)]]; [cbn in D; rewrite Md in D; discriminate D|discriminate D|discriminate D].
  - apply Forall_app. split; [exact Fs|]. constructor; [exact Logic.I|constructor].
  - rewrite Er. exact Cn.
  - exact Md.
  - exact A1.
  - exact Ou.
  - rewrite Er. destruct Le as (L1 & L2 & L3 & L5 & L6). unfold level_is. cbn. auto 10.
  - exact Ca.
  - exact Pn.
  - exact (ends_tran _ _ _ (next_args _ _ _ Nx) Fr).
  - exact (kept_copied st it [a] _ Us).
Qed.

Lemma items_app : forall a b, words (a ++ b) = words a ++ words b /\ ignored (a ++ b) = ignored a ++ ignored b.
Proof. intros. unfold words, ignored. split; apply flat_map_app. Qed.
Lemma words_app : forall a b, words (a ++ b) = words a ++ words b.
Proof. intros. apply items_app. Qed.
Lemma ignored_app : forall a b, ignored (a ++ b) = ignored a ++ ignored b.
Proof. intros. apply items_app. Qed.
Lemma words_read : forall ws, words (map Read ws) = ws.
Proof. induction ws as [|w ws IH]; [reflexivity|]. cbn. f_equal. exact IH. Qed.
Lemma ignored_read : forall ws, ignored (map Read ws) = [].
Proof. induction ws as [|w ws IH]; [reflexivity|]. exact IH. Qed.

(** The end of a reading. *)
Inductive halt : bool -> cmd_data -> place -> list word -> ending -> Prop :=
| h_end : forall only c pl, (if only : bool then no_text pl else no_token pl) -> halt only c pl [] AtEnd
| h_last : forall c pl t o pl' v pl'', flag cfg c pl t o pl' -> takes (s_style cfg) o pl' v pl'' ->
    o_type o = OT_LAST_ARGUMENT -> halt false c pl [Optional o v] (AtLast o (left_at pl''))
| h_stop : forall c pl t o pl' v pl'', flag cfg c pl t o pl' -> takes (s_style cfg) o pl' v pl'' ->
    o_type o = OT_STOP \/ o_type o = OT_EXIT \/ o_type o = OT_HELP ->
    halt false c pl [Optional o v] (AtStop o (left_at pl''))
| h_no_command : forall only c pl t pl', plain cfg only pl t pl' -> c_commands c <> [] ->
    (forall d, ~ first_named cfg c t d) -> halt only c pl [] (AtNoCommand t (left_at pl'))
| h_unknown : forall c pl t pl', token (s_style cfg) pl t pl' -> looks_like_option (s_style cfg) t ->
    dependable cfg c t -> unknown_option cfg c t -> halt false c pl [] (AtUnknown t (left_at pl'))
| h_no_value : forall c pl t o pl', flag cfg c pl t o pl' -> takes_value o -> no_text pl' ->
    halt false c pl [] (AtNoValue t).

Definition surplus (only : bool) (c : cmd_data) (done : list item) (pl : place) (is : list item) (e : ending) : Prop :=
  exists t pl' rest, is = Read (Positional t) :: rest /\ plain cfg only pl t pl' /\ c_commands c = [] /\
    N.of_nat (length (positionals (words done))) = maxima (c_arguments c) /\ skimming cfg only c pl' rest [] e.

Definition lefts (front : list (cmd_data * list item)) : list (list str) := map (fun sg => ignored (snd sg)) front.

Definition walked (args : list str) (us : list (list str)) (init : list change) (outer : list (cmd_data * list change))
  (segs : list (cmd_data * list item)) (e : ending) (st : pstate) : Prop :=
  exists n front c done is only pl st0 rs st', segs = front ++ [(c, done ++ is)] /\
    line_inv args (ignored done :: rev (lefts front) ++ us) (begin init (map words_of front))
      (rev (passed init (map words_of front)) ++ outer) c (words done) only pl st0 rs st' /\
    (forall k, parse_loop cfg (n + k) st = parse_loop cfg k st') /\
    (N.of_nat (length (positionals (words done))) <= maxima (c_arguments c))%N /\
    ((exists ws, is = map Read ws /\ halt only c pl ws e) \/ surplus only c done pl is e).

Lemma walked_here : forall args us init outer c done is only pl st0 rs st e,
  line_inv args (ignored done :: us) init outer c (words done) only pl st0 rs st ->
  (N.of_nat (length (positionals (words done))) <= maxima (c_arguments c))%N ->
  ((exists ws, is = map Read ws /\ halt only c pl ws e) \/ surplus only c done pl is e) ->
  walked args us init outer [(c, done ++ is)] e st.
Proof.
  intros args us init outer c done is only pl st0 rs st e I0 L X.
  exists 0, [], c, done, is, only, pl, st0, rs, st. split; [reflexivity|]. split; [exact I0|]. auto.
Qed.

Lemma walked_more : forall args us init outer segs e st st' r,
  walked args us init outer segs e st' -> next cfg st = Ret r st' -> ir_code r <> IC_ERROR -> ir_code r <> IC_DONE ->
  walked args us init outer segs e st.
Proof.
  intros args us init outer segs e st st' r (n & front & c & done & is & only & pl & st0 & rs & s2 & E & I0 & L & X) N0 C1 C2.
  exists (S n), front, c, done, is, only, pl, st0, rs, s2. split; [exact E|]. split; [exact I0|]. split; [|exact X].
  intros k. rewrite <- L. cbn [Nat.add parse_loop]. unfold bind. rewrite N0. destruct (ir_code r); try congruence; reflexivity.
Qed.

Definition item_fits (sg : cmd_data * list item) : Prop := word_fits (words_of sg).

Lemma no_commands_no_more : forall only c pl is subs e, skimming cfg only c pl is subs e ->
  c_commands c = [] -> subs = [].
Proof.
  intros only c pl is subs e Rd. induction Rd; intros Cm; try reflexivity; try (apply IHRd; exact Cm).
  match goal with F : first_named _ _ _ _ |- _ => destruct F as (b & a0 & X & _) end.
  rewrite Cm in X. destruct b; discriminate.
Qed.

Lemma walk : forall only c pl is subs e, skimming cfg only c pl is subs e ->
  forall args us init outer done st0 rs st, line_inv args (ignored done :: us) init outer c (words done) only pl st0 rs st ->
  Forall item_fits ((c, is) :: subs) -> (N.of_nat (length (positionals (words done))) <= maxima (c_arguments c))%N ->
  walked args us init outer ((c, done ++ is) :: subs) e st.
Proof.
  intros only c pl is subs e Rd.
  induction Rd as [c pl a pl' is subs e Ia Rd IH|c pl Np|c pl Np|only c pl t pl' is subs e Pt Cm Rd IH|c pl t o pl' v pl'' is subs e Fl Ta Ty Rd IH
    |c pl t o pl' v pl'' is subs e Fl Ta Ty Rd IH|c pl t o pl' v pl'' Fl Ta Ty|c pl t o pl' v pl'' Fl Ta Ty
    |only c pl t pl' d is subs e Pt Fn Rd IH|only c pl t pl' Pt Nc Nn|c pl t pl' Tk Lk Dp Un|c pl t o pl' Fl Tv Nt];
    intros args us init outer done st0 rs st I0 Fw Lm; inversion_clear Fw as [|? ? F1 Fs].
  - (* an ignored argument *)
    destruct (ignored_goes_on _ _ _ _ _ _ _ _ _ _ _ _ _ I0 Ia) as (s1 & E1 & I1).
    eapply walked_more; [|exact E1|discriminate|discriminate].
    replace (done ++ Ignored a :: is) with ((done ++ [Ignored a]) ++ is) by (rewrite <- app_assoc; reflexivity).
    apply (IH args us init outer (done ++ [Ignored a]) st0 (rs ++ [mk_ir IC_UNKNOWN ItNone a]) s1).
    + rewrite ignored_app, words_app. cbn [words ignored flat_map app]. rewrite app_nil_r. exact I1.
    + constructor; [exact F1|exact Fs].
    + rewrite words_app. cbn [words flat_map app]. rewrite app_nil_r. exact Lm.
  - apply (walked_here _ _ _ _ _ _ _ _ _ _ _ _ _ I0 Lm). left. exists []. split; [reflexivity|]. constructor. exact Np.
  - apply (walked_here _ _ _ _ _ _ _ _ _ _ _ _ _ I0 Lm). left. exists []. split; [reflexivity|]. constructor. exact Np.
  - (* an argument *)
    pose proof (no_commands_no_more _ _ _ _ _ _ Rd Cm) as ->. inversion_clear F1 as [|? ? F2 F3]. cbn in F2, F3.
    destruct (N.eq_dec (N.of_nat (length (positionals (words done)))) (maxima (c_arguments c))) as [Eq|Ne].
    + apply (walked_here _ _ _ _ _ _ _ _ _ _ _ _ _ I0 Lm). right. exists t, pl', is. auto.
    + assert (Lt : (N.of_nat (length (positionals (words done))) < maxima (c_arguments c))%N) by lia.
      destruct (positional_goes_on _ _ _ _ _ _ _ _ _ _ _ t pl' I0 Pt Cm F2 Lt) as (a & s1 & E1 & I1).
      eapply walked_more; [|exact E1|discriminate|discriminate].
      replace (done ++ Read (Positional t) :: is) with ((done ++ [Read (Positional t)]) ++ is) by (rewrite <- app_assoc; reflexivity).
      apply (IH args us init outer (done ++ [Read (Positional t)]) st0 (rs ++ [mk_ir IC_ARGUMENT (ItArgument a) t]) s1).
      * rewrite ignored_app, words_app. cbn [words ignored flat_map app]. rewrite app_nil_r. exact I1.
      * constructor; [exact F3|constructor].
      * rewrite words_app, positionals_app, app_length. cbn. lia.
  - (* an option *)
    inversion_clear F1 as [|? ? F2 F3]. cbn in F2, F3.
    destruct (option_goes_on _ _ _ _ _ _ _ _ _ _ _ _ _ _ _ I0 Fl Ta (or_introl Ty) F2) as (s1 & E1 & I1). rewrite Ty in I1.
    eapply walked_more; [|exact E1|discriminate|discriminate].
    replace (done ++ Read (Optional o v) :: is) with ((done ++ [Read (Optional o v)]) ++ is) by (rewrite <- app_assoc; reflexivity).
    apply (IH args us init outer (done ++ [Read (Optional o v)]) st0 (rs ++ [mk_ir IC_OPTION (ItOption o) v]) s1).
    + rewrite ignored_app, words_app. cbn [words ignored flat_map app]. rewrite app_nil_r. exact I1.
    + constructor; assumption.
    + rewrite words_app, positionals_app. cbn. rewrite app_nil_r. exact Lm.
  - inversion_clear F1 as [|? ? F2 F3]. cbn in F2, F3.
    destruct (option_goes_on _ _ _ _ _ _ _ _ _ _ _ _ _ _ _ I0 Fl Ta (or_intror Ty) F2) as (s1 & E1 & I1). rewrite Ty in I1.
    eapply walked_more; [|exact E1|discriminate|discriminate].
    replace (done ++ Read (Optional o v) :: is) with ((done ++ [Read (Optional o v)]) ++ is) by (rewrite <- app_assoc; reflexivity).
    apply (IH args us init outer (done ++ [Read (Optional o v)]) st0 (rs ++ [mk_ir IC_OPTION (ItOption o) v]) s1).
    + rewrite ignored_app, words_app. cbn [words ignored flat_map app]. rewrite app_nil_r. exact I1.
    + constructor; assumption.
    + rewrite words_app, positionals_app. cbn. rewrite app_nil_r. exact Lm.
  - apply (walked_here _ _ _ _ _ _ _ _ _ _ _ _ _ I0 Lm). left. exists [Optional o v]. split; [reflexivity|]. eapply h_last; eassumption.
  - apply (walked_here _ _ _ _ _ _ _ _ _ _ _ _ _ I0 Lm). left. exists [Optional o v]. split; [reflexivity|]. eapply h_stop; eassumption.
  - (* a command *)
    destruct (command_goes_on _ _ _ _ _ _ _ _ _ _ _ _ _ _ I0 Pt Fn) as (cur & s1 & E1 & I1).
    eapply walked_more; [|exact E1|discriminate|discriminate].
    destruct (IH _ _ _ _ [] _ _ _ I1 Fs (N.le_0_l _)) as (n & front & c2 & dn2 & w2 & on2 & pl2 & st02 & rs2 & s2 & E & I2 & L & X).
    exists n, ((c, done) :: front), c2, dn2, w2, on2, pl2, st02, rs2, s2. rewrite app_nil_r.
    split; [cbn [app]; rewrite <- E; reflexivity|]. split; [|auto].
    assert (Eu : rev (lefts ((c, done) :: front)) ++ us = rev (lefts front) ++ ignored done :: us).
    { unfold lefts. cbn [map rev fst snd]. rewrite <- app_assoc. reflexivity. }
    assert (Eb : begin init (map words_of ((c, done) :: front)) = begin [] (map words_of front)) by (destruct front; reflexivity).
    assert (Ep : rev (passed init (map words_of ((c, done) :: front))) ++ outer =
      rev (passed [] (map words_of front)) ++ (c, init ++ meant [] (words done)) :: outer).
    { cbn [map]. unfold words_of at 1. cbn [fst snd passed rev]. rewrite <- app_assoc. reflexivity. }
    rewrite Eu, Eb, Ep. exact I2.
  - apply (walked_here _ _ _ _ _ _ _ _ _ _ _ _ _ I0 Lm). left. exists []. split; [reflexivity|]. eapply h_no_command; eassumption.
  - apply (walked_here _ _ _ _ _ _ _ _ _ _ _ _ _ I0 Lm). left. exists []. split; [reflexivity|]. eapply h_unknown; eassumption.
  - apply (walked_here _ _ _ _ _ _ _ _ _ _ _ _ _ I0 Lm). left. exists []. split; [reflexivity|]. eapply h_no_value; eassumption.
Qed.


Lemma shows_popped : forall orc rc stop parents outer cur inner us, Forall2 (level_closed orc None) outer parents ->
  inner <> [] -> shows orc rc stop cur inner us ->
  shows orc rc stop (fst (pop_levels (length parents) cur parents)) (rev outer ++ inner)
    (rev (map l_unprocessed parents) ++ us).
Proof.
  intros orc rc stop. induction parents as [|l ls IH]; intros outer cur inner us F Ni T; inversion F as [|ch ? oo ? X F']; subst.
  - exact T.
  - cbn [length pop_levels rev map]. rewrite <- !app_assoc. cbn [app]. apply IH; [exact F'|discriminate|].
    destruct ch as (c, h). destruct X as (X1 & X2 & X3 & X5 & X6). cbn in X1, X2.
    destruct l. cbn in *. subst. split; [reflexivity|]. split; [intros id; apply history_proof|]. split; [reflexivity|].
    destruct inner as [|y inner]; [contradiction|]. split; [reflexivity|]. split; [reflexivity|].
    exists cur. split; [reflexivity|exact T].
Qed.

Lemma shows_closed : forall orc rc stop us hs st, closes orc rc stop us (rev hs) st ->
  shows orc rc stop (toplevel st) hs (rev us).
Proof.
  intros orc rc stop us hs st (<- & (c & h) & r & E & (X1 & X2 & X3 & X5 & X6) & F). cbn in X1, X2.
  rewrite <- (rev_involutive hs), E. cbn [rev]. unfold toplevel, kept. cbn [map rev]. apply shows_popped; [exact F|discriminate|].
  cbn. split; [exact X1|]. split; [intros id; rewrite X2; apply history_proof|]. auto.
Qed.

Lemma line_starts : forall args, exists st, start_counter cfg (initial_state cfg top args) = Ret tt st /\
  line_inv args [[]] (at_first top) [] top [] false (Fresh args) st [] st.
Proof.
  intros args. assert (W : wf_iter (ps_iter (initial_state cfg top args))) by (cbn; destruct (s_style cfg); exact Logic.I).
  destruct (start_counter_post cfg top (initial_state cfg top args) (within_top _) W) as (ac & E & _).
  eexists. split; [exact E|]. constructor.
  - apply entered_start. exact E.
  - reflexivity.
  - constructor.
  - constructor.
  - reflexivity.
  - reflexivity.
  - unfold stands. cbn. destruct (s_style cfg) eqn:Es; unfold make_option_iterator, it_start;
      [apply (ap_fresh STANDARD)|apply (ap_fresh SLASH)|apply (ap_fresh DASH)].
  - constructor.
  - cbn. unfold level_is. cbn. rewrite app_nil_r. split; [reflexivity|]. split; [apply initial_changes|auto].
  - constructor.
  - reflexivity.
  - cbn. destruct (s_style cfg); apply ends_refl.
  - reflexivity.
Qed.

(** How the parser gets to the end. *)
Lemma line_walked : forall args is subs e, skimming cfg false top (Fresh args) is subs e ->
  Forall item_fits ((top, is) :: subs) ->
  exists st, start_counter cfg (initial_state cfg top args) = Ret tt st /\
    walked args [] (at_first top) [] ((top, is) :: subs) e st.
Proof.
  intros args is subs e Rd Fw. destruct (line_starts args) as (st & E & I0). exists st. split; [exact E|].
  exact (walk _ _ _ _ _ _ Rd args [] _ [] [] _ _ _ I0 Fw (N.le_0_l _)).
Qed.

Lemma run_from : forall args st n st' k, start_counter cfg (initial_state cfg top args) = Ret tt st ->
  (forall k, parse_loop cfg (n + k) st = parse_loop cfg k st') ->
  run_parser cfg (n + k) top args = parse_loop cfg k st'.
Proof. intros args st n st' k E L. unfold run_parser, bind. rewrite E. apply L. Qed.

Lemma leftovers_app : forall front c is left, leftovers (front ++ [(c, is)]) left = lefts front ++ [ignored is ++ left].
Proof.
  induction front as [|(d, ds) front IH]; intros c is left; [reflexivity|].
  cbn [app leftovers lefts map fst snd]. rewrite IH. destruct front; reflexivity.
Qed.

(** What has been left at the end. *)
Lemma left_at_last : forall front c done ws left,
  rev (more (ignored done :: rev (lefts front) ++ []) left) = leftovers (front ++ [(c, done ++ map Read ws)]) left.
Proof.
  intros. rewrite leftovers_app, ignored_app, ignored_read, !app_nil_r. cbn [more rev]. rewrite rev_involutive. reflexivity.
Qed.
Lemma left_at_end : forall front c done ws,
  rev (ignored done :: rev (lefts front) ++ []) = leftovers (front ++ [(c, done ++ map Read ws)]) [].
Proof.
  intros. rewrite leftovers_app, ignored_app, ignored_read, !app_nil_r. cbn [rev]. rewrite rev_involutive. reflexivity.
Qed.

Lemma succeeds_from : forall args st n st' k s front c h us, start_counter cfg (initial_state cfg top args) = Ret tt st ->
  (forall k, parse_loop cfg (n + k) st = parse_loop cfg k st') -> parse_loop cfg k st' = Ret tt s ->
  Forall quiet (ps_events s) -> closes RC_SUCCESS RC_SUCCESS None us ((c, h) :: rev (passed (at_first top) front) ++ []) s ->
  succeeds_with cfg top args (passed (at_first top) front ++ [(c, h)]) (rev us).
Proof.
  intros args st n st' k s front c h us E L R Q Cl. exists s. split; [exists (n + k); rewrite (run_from _ _ _ _ _ E L); exact R|].
  split; [exact Q|]. apply shows_closed. rewrite rev_app_distr. cbn [rev app]. rewrite app_nil_r in Cl. exact Cl.
Qed.

Lemma refuses_from : forall args st n st' k m front c h us, start_counter cfg (initial_state cfg top args) = Ret tt st ->
  (forall k, parse_loop cfg (n + k) st = parse_loop cfg k st') ->
  fails_with k st' m us ((c, h) :: rev (passed (at_first top) front) ++ []) ->
  refuses_with cfg top args m (passed (at_first top) front ++ [(c, h)]) (rev us).
Proof.
  intros args st n st' k m front c h us E L (c2 & s & evs & Q & Hc & Ev & X). cbn in Hc. injection Hc as <-.
  exists evs, s. split; [exact Q|]. split; [rewrite map_app; cbn [map fst]; rewrite last_last; exact Ev|].
  destruct (s_auto_exit cfg).
  - exists (n + k). rewrite (run_from _ _ _ _ _ E L). exact X.
  - destruct X as (X & Cl). split; [exists (n + k); rewrite (run_from _ _ _ _ _ E L); exact X|].
    apply shows_closed. rewrite rev_app_distr. cbn [rev app]. rewrite app_nil_r in Cl. exact Cl.
Qed.

Lemma stops_from : forall args st n st' k o front c h us, start_counter cfg (initial_state cfg top args) = Ret tt st ->
  (forall k, parse_loop cfg (n + k) st = parse_loop cfg k st') ->
  stops_so k st' o us ((c, h) :: rev (passed (at_first top) front) ++ []) ->
  stops_with cfg top args o (passed (at_first top) front ++ [(c, h)]) (rev us).
Proof.
  intros args st n st' k o front c h us E L (c2 & s & evs & Q & Hc & Ev & X). cbn in Hc. injection Hc as <-.
  exists evs, s. split; [exact Q|]. split; [rewrite map_app; cbn [map fst]; rewrite last_last; exact Ev|].
  destruct (s_auto_exit cfg && match o_type o with OT_STOP => false | _ => true end).
  - exists (n + k). rewrite (run_from _ _ _ _ _ E L). exact X.
  - destruct X as (X & Cl). split; [exists (n + k); rewrite (run_from _ _ _ _ _ E L); exact X|].
    apply shows_closed. rewrite rev_app_distr. cbn [rev app]. rewrite app_nil_r in Cl. exact Cl.
Qed.

Lemma so_far_from : forall front c w h, so_far_h (begin (at_first top) front) c w h ->
  so_far (at_first top) (front ++ [(c, w)]) (passed (at_first top) front ++ [(c, h)]).
Proof. intros front c w h (got & A & B & ->). exists front, c, w, got. auto. Qed.

Section Skimming.
Variables (args : list str) (is : list item) (subs : list (cmd_data * list item)) (e : ending).
Hypothesis Rd : skimming cfg false top (Fresh args) is subs e.
Hypothesis Fw : Forall item_fits ((top, is) :: subs).
Let segs : list (cmd_data * list word) := map words_of ((top, is) :: subs).

Lemma segs_split : forall front c done ws, (top, is) :: subs = front ++ [(c, done ++ map Read ws)] ->
  segs = map words_of front ++ [(c, words done ++ ws)].
Proof.
  intros front c done ws E. unfold segs. rewrite E, map_app. cbn [map]. unfold words_of at 2. cbn [fst snd].
  rewrite words_app, words_read. reflexivity.
Qed.

Lemma skim_success : forall left hs, left_of e = Some left ->
  all_acceptable (at_first top) segs hs -> succeeds_with cfg top args hs (leftovers ((top, is) :: subs) left).
Proof.
  intros left hs El (front & c & w & h & Es & Ac & ->).
  destruct (line_walked _ _ _ _ Rd Fw) as (st & E & n & front' & c' & dn & w' & on & pl & st0 & rs & st' & Es' & I0 & L & Lm & X).
  destruct X as [(ws & -> & X)|(t & pl' & rest & -> & _ & _ & Em & _)].
  2:{ exfalso. unfold segs in Es. rewrite Es', map_app in Es. cbn [map] in Es. apply app_inj_tail in Es. destruct Es as (_ & Es).
      unfold words_of in Es. cbn [fst snd] in Es. injection Es as -> Es.
      destruct Ac as (_ & _ & (ks & Fk & _) & _). apply fair_between in Fk. rewrite <- Es in Fk.
      rewrite words_app, positionals_app, app_length in Fk. cbn [words positionals flat_map app length] in Fk. lia. }
  rewrite (segs_split _ _ _ _ Es') in Es. apply app_inj_tail in Es. destruct Es as (Ef & Es). injection Es as -> <-. subst front.
  rewrite Es'.
  inversion X; subst; try discriminate El; cbn in El; injection El as <-.
  - rewrite app_nil_r in Ac. destruct (ends_well _ _ _ _ _ _ _ _ _ _ _ h I0 ltac:(eassumption) Ac) as (s & R & Ev & Cl).
    rewrite <- left_at_end.
    apply (succeeds_from _ _ _ _ _ _ _ _ _ _ E L R); [rewrite Ev; apply (li_calm _ _ _ _ _ _ _ _ _ _ _ I0)|exact Cl].
  - destruct (ends_last _ _ _ _ _ _ _ _ _ _ _ _ _ _ _ h I0 ltac:(eassumption) ltac:(eassumption) ltac:(eassumption) Ac) as (s & R & Ca & Cl).
    rewrite <- left_at_last. exact (succeeds_from _ _ _ _ _ _ _ _ _ _ E L R Ca Cl).
Qed.

Lemma skim_surplus : forall front c before t after,
  (top, is) :: subs = front ++ [(c, before ++ Read (Positional t) :: after)] ->
  N.of_nat (length (positionals (words before))) = maxima (c_arguments c) ->
  exists hs pl, so_far (at_first top) (map words_of (front ++ [(c, before)])) hs /\
    (exists passed, args = passed ++ left_at pl) /\ (exists only, skimming cfg only c pl after [] e) /\
    refuses_with cfg top args (MsgTooManyArguments t) hs (leftovers (front ++ [(c, before)]) (left_at pl)).
Proof.
  intros front c before t after Es Em.
  destruct (line_walked _ _ _ _ Rd Fw) as (st & E & n & front' & c' & dn & w' & on & pl & st0 & rs & st' & Es' & I0 & L & Lm & X).
  rewrite Es' in Es. apply app_inj_tail in Es. destruct Es as (-> & Es). injection Es as -> Es.
  assert (Lp : length (positionals (words (dn ++ w'))) >= S (length (positionals (words before)))).
  { rewrite Es, words_app, positionals_app, app_length. cbn [words positionals flat_map app length]. lia. }
  destruct X as [(ws & -> & X)|(t' & pl' & rest & -> & Pt & Cm & Em' & Rd')].
  { exfalso. assert (Z : positionals ws = []) by (inversion X; reflexivity).
    rewrite words_app, words_read, positionals_app, Z, app_nil_r in Lp. lia. }
  assert (Q : dn = before /\ t' = t /\ rest = after).
  { assert (Eq : length (positionals (words dn)) = length (positionals (words before))) by lia. clear - Es Eq. revert dn Es Eq.
    induction before as [|b before IH]; intros [|x dn] Es Eq; cbn [app] in Es.
    - injection Es as -> ->. auto.
    - injection Es as -> _. discriminate Eq.
    - injection Es as <- _. discriminate Eq.
    - injection Es as <- Es. destruct (IH dn Es) as (-> & -> & ->); [|auto].
      destruct x as [[|]|]; cbn [words positionals flat_map app length] in Eq; [exact Eq|injection Eq as Eq; exact Eq|exact Eq]. }
  destruct Q as (-> & -> & ->).
  destruct (surplus_ends _ _ _ _ _ _ _ _ _ _ _ _ _ I0 Pt Cm Em) as (h & Sf & Fl).
  eexists. exists pl'. rewrite map_app. split; [exact (so_far_from _ _ _ _ Sf)|].
  split; [|split; [exists on; exact Rd'|]].
  - destruct (plain_reads on st' pl t pl' (li_mode _ _ _ _ _ _ _ _ _ _ _ I0) (li_place _ _ _ _ _ _ _ _ _ _ _ I0) Pt) as (it & R & A' & _).
    exact (ends_tran _ _ _ (plain_left _ _ _ _ _ Pt A') (ends_tran _ _ _ (read_args _ _ _ R) (li_from _ _ _ _ _ _ _ _ _ _ _ I0))).
  - pose proof (left_at_last front c before [] (left_at pl')) as Q. cbn [map] in Q. replace (before ++ []) with before in Q by (symmetry; apply app_nil_r). rewrite <- Q.
    exact (refuses_from _ _ _ _ _ _ _ _ _ _ E L Fl).
Qed.

(** The arguments of the last command are not too many. *)
Lemma line_halts : room segs -> exists st n front c dn w on pl st0 rs st',
  start_counter cfg (initial_state cfg top args) = Ret tt st /\
  (forall k, parse_loop cfg (n + k) st = parse_loop cfg k st') /\
  (top, is) :: subs = front ++ [(c, dn ++ map Read w)] /\
  line_inv args (ignored dn :: rev (lefts front) ++ []) (begin (at_first top) (map words_of front))
    (rev (passed (at_first top) (map words_of front)) ++ []) c (words dn) on pl st0 rs st' /\
  (N.of_nat (length (positionals (words dn))) <= maxima (c_arguments c))%N /\ halt on c pl w e.
Proof.
  intros Rm.
  destruct (line_walked _ _ _ _ Rd Fw) as (st & E & n & front & c & dn & w & on & pl & st0 & rs & st' & Es & I0 & L & Lm & X).
  destruct X as [(ws & -> & X)|(t & pl' & rest & -> & _ & _ & Em & _)].
  { exists st, n, front, c, dn, ws, on, pl, st0, rs, st'. repeat (split; [assumption|]). exact X. }
  exfalso. assert (X : segs = map words_of front ++ [(c, words (dn ++ Read (Positional t) :: rest))]).
  { unfold segs. rewrite Es, map_app. reflexivity. }
  apply Rm in X. rewrite words_app, positionals_app, app_length in X. cbn [words positionals flat_map app length] in X. lia.
Qed.

Lemma skim_stop : forall o left, e = AtStop o left -> room segs ->
  exists hs, so_far (at_first top) segs hs /\ stops_with cfg top args o hs (leftovers ((top, is) :: subs) left).
Proof.
  intros o left Ee Rm. destruct (line_halts Rm) as (st & n & front & c & dn & w & on & pl & st0 & rs & st' & E & L & Es & I0 & Lm & X).
  rewrite (segs_split _ _ _ _ Es), Es. inversion X; subst; try discriminate. match goal with Q : AtStop _ _ = AtStop _ _ |- _ => injection Q as -> <- end.
  destruct (stop_ends _ _ _ _ _ _ _ _ _ _ _ _ _ _ _ I0 ltac:(eassumption) ltac:(eassumption) ltac:(eassumption)) as (h & Sf & St).
  eexists. split; [exact (so_far_from _ _ _ _ Sf)|]. rewrite <- left_at_last. exact (stops_from _ _ _ _ _ _ _ _ _ _ E L St).
Qed.

Lemma skim_fault : (forall f l, e = AtUnknown f l -> s_ignore_options cfg = false) -> room segs -> left_of e = None ->
  (forall o l, e <> AtStop o l) ->
  exists m hs left, so_far (at_first top) segs hs /\ complaint args e m left /\
    refuses_with cfg top args m hs (leftovers ((top, is) :: subs) left).
Proof.
  intros Io Rm El Ns. destruct (line_halts Rm) as (st & n & front & c & dn & w & on & pl & st0 & rs & st' & E & L & Es & I0 & Lm & X).
  rewrite (segs_split _ _ _ _ Es), Es.
  inversion X; subst; try discriminate El; try (exfalso; eapply Ns; reflexivity); rewrite app_nil_r.
  - destruct (no_command_ends _ _ _ _ _ _ _ _ _ _ _ _ _ I0 ltac:(eassumption) ltac:(eassumption) ltac:(eassumption)) as (h & Sf & Fl).
    eexists _, _, _. split; [exact (so_far_from _ _ _ _ Sf)|]. split; [split; reflexivity|].
    rewrite <- left_at_last. exact (refuses_from _ _ _ _ _ _ _ _ _ _ E L Fl).
  - destruct (unknown_ends _ _ _ _ _ _ _ _ _ _ _ _ (Io _ _ eq_refl) I0 ltac:(eassumption) ltac:(eassumption) ltac:(eassumption) ltac:(eassumption)) as (h & a & Sf & Ia & Fl).
    eexists _, _, _. split; [exact (so_far_from _ _ _ _ Sf)|]. split; [split; [reflexivity|eauto]|].
    rewrite <- left_at_last. exact (refuses_from _ _ _ _ _ _ _ _ _ _ E L Fl).
  - destruct (no_value_ends _ _ _ _ _ _ _ _ _ _ _ _ _ I0 ltac:(eassumption) ltac:(eassumption) ltac:(eassumption)) as (h & Sf & Fl).
    eexists _, _, _. split; [exact (so_far_from _ _ _ _ Sf)|]. split; [split; reflexivity|].
    rewrite <- left_at_end. exact (refuses_from _ _ _ _ _ _ _ _ _ _ E L Fl).
Qed.

Lemma skim_judged : forall left, left_of e = Some left -> room segs ->
  (exists hs, all_acceptable (at_first top) segs hs) \/
  exists front c w h m, segs = front ++ [(c, w)] /\
    so_far (at_first top) segs (passed (at_first top) front ++ [(c, h)]) /\
    shortfall c h (N.of_nat (length (positionals w))) m /\
    refuses_with cfg top args m (passed (at_first top) front ++ [(c, h)]) (leftovers ((top, is) :: subs) left).
Proof.
  intros left El Rm. destruct (line_halts Rm) as (st & n & front & c & dn & w & on & pl & st0 & rs & st' & E & L & Es0 & I0 & Lm & X).
  pose proof (segs_split _ _ _ _ Es0) as Es. rewrite Es0.
  inversion X; subst; try discriminate El; cbn in El; injection El as <-.
  - rewrite app_nil_r in Es. destruct (end_judged _ _ _ _ _ _ _ _ _ _ _ I0 ltac:(eassumption) Lm) as [(h & Ac)|(m & h & Sf & Sh & Fl)].
    + left. eexists. exists (map words_of front), c, (words dn), h. auto.
    + right. exists (map words_of front), c, (words dn), h, m. split; [exact Es|]. rewrite Es. split; [exact (so_far_from _ _ _ _ Sf)|].
      split; [exact Sh|]. rewrite <- left_at_end. exact (refuses_from _ _ _ _ _ _ _ _ _ _ E L Fl).
  - destruct (last_judged _ _ _ _ _ _ _ _ _ _ _ _ _ _ _ I0 ltac:(eassumption) ltac:(eassumption) ltac:(eassumption) Lm)
      as [(h & Ac)|(m & h & Sf & Sh & Fl)].
    + left. eexists. exists (map words_of front), c, (words dn ++ [Optional o v]), h. auto.
    + right. exists (map words_of front), c, (words dn ++ [Optional o v]), h, m. split; [exact Es|]. rewrite Es. split; [exact (so_far_from _ _ _ _ Sf)|].
      split; [exact Sh|]. rewrite <- left_at_last. exact (refuses_from _ _ _ _ _ _ _ _ _ _ E L Fl).
Qed.

End Skimming.

(* ------------------------------------------------------------------------ *)
(** ** Nothing is ignored *)

Definition read_all (sg : cmd_data * list word) : cmd_data * list item := (fst sg, map Read (snd sg)).
Lemma words_read_all : forall segs, map words_of (map read_all segs) = segs.
Proof.
  induction segs as [|(c, ws) segs IH]; [reflexivity|]. cbn [map]. rewrite IH. unfold words_of, read_all. cbn [fst snd].
  rewrite words_read. reflexivity.
Qed.
Lemma reading_skims : forall only c pl ws subs e, reading cfg only c pl ws subs e ->
  skimming cfg only c pl (map Read ws) (map read_all subs) e.
Proof.
  intros only c pl ws subs e Rd. induction Rd; cbn [map].
  - constructor. assumption.
  - constructor. assumption.
  - econstructor; eassumption.
  - eapply sk_option; eassumption.
  - eapply sk_last_option; eassumption.
  - eapply sk_last_argument; eassumption.
  - eapply sk_stop; eassumption.
  - eapply sk_command; eassumption.
  - eapply sk_no_command; eassumption.
  - eapply sk_unknown; eassumption.
  - eapply sk_no_value; eassumption.
Qed.
Lemma skims_reading : forall only c pl ws subs e, skimming cfg only c pl ws subs e ->
  lefts ((c, ws) :: subs) = map (fun _ => []) ((c, ws) :: subs) ->
  reading cfg only c pl (words ws) (map words_of subs) e.
Proof.
  intros only c pl is subs e Sk. induction Sk; intros Z; cbn [words flat_map app map] in *.
  - discriminate Z.
  - constructor. assumption.
  - constructor. assumption.
  - econstructor; try eassumption. apply IHSk. exact Z.
  - eapply rd_option; try eassumption. apply IHSk. exact Z.
  - eapply rd_last_option; try eassumption. apply IHSk. exact Z.
  - eapply rd_last_argument; eassumption.
  - eapply rd_stop; eassumption.
  - unfold words_of at 1. cbn [fst snd]. eapply rd_command; try eassumption. apply IHSk. cbn [lefts map snd] in Z. injection Z as Z1 Z2.
    unfold lefts. cbn [map snd]. rewrite Z1. f_equal. exact Z2.
  - eapply rd_no_command; eassumption.
  - eapply rd_unknown; eassumption.
  - eapply rd_no_value; eassumption.
Qed.

Lemma nothing_left : forall front sg left, leftovers (map read_all (front ++ [sg])) left = map (fun _ => []) front ++ [left].
Proof.
  intros front (c, ws) left. rewrite map_app. cbn [map]. unfold read_all at 2. cbn [fst snd].
  rewrite leftovers_app, ignored_read. cbn [app]. f_equal. unfold lefts. rewrite map_map. apply map_ext.
  intros (d, w). apply ignored_read.
Qed.
Lemma shows_tells : forall orc rc stop hs l left n, length hs = S n ->
  shows orc rc stop l hs (repeat [] n ++ [left]) -> tells orc rc stop l hs left.
Proof.
  intros orc rc stop. induction hs as [|(c, h) hs IH]; intros l left n E S0; [discriminate|]. injection E as E.
  destruct n as [|n].
  - destruct hs; [|discriminate]. cbn in S0 |- *. destruct S0 as (A & B & C & D & F & G & _). auto 10.
  - cbn [repeat app shows] in S0. destruct S0 as (A & B & C & D). cbn [tells]. split; [exact A|]. split; [exact B|].
    destruct hs as [|y hs]; [discriminate|]. destruct D as (D & F & s & G & Sx). split; [exact D|]. split; [exact F|].
    split; [exact C|]. exists s. split; [exact G|]. exact (IH s left n E Sx).
Qed.
Lemma blank_repeat : forall A (l : list A), map (fun _ => @nil str) l = repeat [] (length l).
Proof. induction l as [|a l IH]; [reflexivity|]. cbn. f_equal. exact IH. Qed.

Lemma length_passed : forall front init, length (passed init front) = length front.
Proof. induction front as [|(c, w) front IH]; intros init; [reflexivity|]. cbn. f_equal. apply IH. Qed.

Section Reading.
Variables (args : list str) (ws : list word) (subs : list (cmd_data * list word)) (e : ending).
Hypothesis Rd : reading cfg false top (Fresh args) ws subs e.
Hypothesis Fw : Forall word_fits ((top, ws) :: subs).

Lemma all_skimmed : skimming cfg false top (Fresh args) (map Read ws) (map read_all subs) e /\
  Forall item_fits ((top, map Read ws) :: map read_all subs) /\
  map words_of ((top, map Read ws) :: map read_all subs) = (top, ws) :: subs /\
  (top, map Read ws) :: map read_all subs = map read_all ((top, ws) :: subs).
Proof.
  split; [apply reading_skims; exact Rd|]. pose proof (words_read_all ((top, ws) :: subs)) as E. split; [|split; [exact E|reflexivity]].
  change ((top, map Read ws) :: map read_all subs) with (map read_all ((top, ws) :: subs)).
  unfold item_fits. rewrite <- (Forall_map words_of word_fits), E. exact Fw.
Qed.

Lemma plainly : forall orc rc stop l hs left, length hs = length ((top, ws) :: subs) ->
  shows orc rc stop l hs (leftovers (map read_all ((top, ws) :: subs)) left) -> tells orc rc stop l hs left.
Proof.
  intros orc rc stop l hs left E S0. destruct (@exists_last _ ((top, ws) :: subs)) as (front & sg & X); [discriminate|].
  rewrite X in E, S0. rewrite app_length in E. cbn in E. rewrite nothing_left, blank_repeat in S0.
  apply (shows_tells orc rc stop hs l left (length front)); [lia|exact S0].
Qed.
Lemma length_so_far : forall segs hs, so_far (at_first top) segs hs -> length hs = length segs.
Proof.
  intros segs hs (front & c & w & got & -> & _ & _ & ->). rewrite !app_length, length_passed. reflexivity.
Qed.
Lemma length_acceptable : forall segs hs, all_acceptable (at_first top) segs hs -> length hs = length segs.
Proof.
  intros segs hs (front & c & w & h & -> & _ & ->). rewrite !app_length, length_passed. reflexivity.
Qed.
Lemma plainly_refused : forall m hs left, length hs = length ((top, ws) :: subs) ->
  refuses_with cfg top args m hs (leftovers (map read_all ((top, ws) :: subs)) left) -> refuses cfg top args m hs left.
Proof.
  intros m hs left E (evs & st & Q & Ev & X). exists evs, st. split; [exact Q|]. split; [exact Ev|].
  destruct (s_auto_exit cfg); [exact X|]. destruct X as (Pr & S0). split; [exact Pr|]. exact (plainly _ _ _ _ _ _ E S0).
Qed.

Lemma line_success : forall left hs, left_of e = Some left ->
  all_acceptable (at_first top) ((top, ws) :: subs) hs -> succeeds cfg top args hs left.
Proof.
  intros left hs El Ac. destruct all_skimmed as (Sk & Ft & Ew & Er).
  pose proof (skim_success _ _ _ _ Sk Ft left hs El) as X. rewrite Ew, Er in X. destruct (X Ac) as (st & Pr & Q & S0).
  exists st. split; [exact Pr|]. split; [exact Q|]. exact (plainly _ _ _ _ _ _ (length_acceptable _ _ Ac) S0).
Qed.

Lemma line_surplus : forall front c before t after, (top, ws) :: subs = front ++ [(c, before ++ Positional t :: after)] ->
  N.of_nat (length (positionals before)) = maxima (c_arguments c) ->
  exists hs pl, so_far (at_first top) (front ++ [(c, before)]) hs /\
    (exists passed, args = passed ++ left_at pl) /\ (exists only, reading cfg only c pl after [] e) /\
    refuses cfg top args (MsgTooManyArguments t) hs (left_at pl).
Proof.
  intros front c before t after Es Em. destruct all_skimmed as (Sk & Ft & Ew & Er).
  destruct (skim_surplus _ _ _ _ Sk Ft (map read_all front) c (map Read before) t (map Read after)) as (hs & pl & Sf & Pa & (on & Rd') & Rf).
  { rewrite Er, Es, map_app. cbn [map]. unfold read_all at 2. cbn [fst snd]. rewrite map_app. reflexivity. }
  { rewrite words_read. exact Em. }
  assert (E1 : map read_all front ++ [(c, map Read before)] = map read_all (front ++ [(c, before)])) by (rewrite map_app; reflexivity).
  rewrite E1, words_read_all in Sf. rewrite E1 in Rf.
  exists hs, pl. split; [exact Sf|]. split; [exact Pa|]. split.
  - exists on. apply skims_reading in Rd'.
    + rewrite words_read in Rd'. exact Rd'.
    + cbn [lefts map snd]. unfold lefts. cbn [map snd]. rewrite ignored_read. reflexivity.
  - destruct Rf as (evs & st & Q & Ev & X). exists evs, st. split; [exact Q|]. split; [exact Ev|].
    destruct (s_auto_exit cfg); [exact X|]. destruct X as (Pr & S0). split; [exact Pr|].
    rewrite nothing_left, blank_repeat in S0. apply (shows_tells _ _ _ hs _ _ (length front)); [|exact S0].
    rewrite (length_so_far _ _ Sf), app_length. cbn. lia.
Qed.

Lemma line_stop : forall o left, e = AtStop o left -> room ((top, ws) :: subs) ->
  exists hs, so_far (at_first top) ((top, ws) :: subs) hs /\ stops cfg top args o hs left.
Proof.
  intros o left Ee Rm. destruct all_skimmed as (Sk & Ft & Ew & Er).
  pose proof (skim_stop _ _ _ _ Sk Ft o left Ee) as X. rewrite Ew, Er in X. destruct (X Rm) as (hs & Sf & evs & st & Q & Ev & Y).
  exists hs. split; [exact Sf|]. exists evs, st. split; [exact Q|]. split; [exact Ev|].
  destruct (s_auto_exit cfg && match o_type o with OT_STOP => false | _ => true end); [exact Y|].
  destruct Y as (Pr & S0). split; [exact Pr|]. exact (plainly _ _ _ _ _ _ (length_so_far _ _ Sf) S0).
Qed.

Lemma line_fault : s_ignore_options cfg = false -> room ((top, ws) :: subs) -> left_of e = None ->
  (forall o l, e <> AtStop o l) ->
  exists m hs left, so_far (at_first top) ((top, ws) :: subs) hs /\ complaint args e m left /\
    refuses cfg top args m hs left.
Proof.
  intros Io Rm El Ns. destruct all_skimmed as (Sk & Ft & Ew & Er).
  pose proof (skim_fault _ _ _ _ Sk Ft (fun _ _ _ => Io)) as X. rewrite Ew, Er in X.
  destruct (X Rm El Ns) as (m & hs & left & Sf & Cp & Rf). exists m, hs, left. split; [exact Sf|]. split; [exact Cp|].
  exact (plainly_refused _ _ _ (length_so_far _ _ Sf) Rf).
Qed.

Lemma line_judged : forall left, left_of e = Some left -> room ((top, ws) :: subs) ->
  (exists hs, all_acceptable (at_first top) ((top, ws) :: subs) hs) \/
  exists front c w h m, (top, ws) :: subs = front ++ [(c, w)] /\
    so_far (at_first top) ((top, ws) :: subs) (passed (at_first top) front ++ [(c, h)]) /\
    shortfall c h (N.of_nat (length (positionals w))) m /\
    refuses cfg top args m (passed (at_first top) front ++ [(c, h)]) left.
Proof.
  intros left El Rm. destruct all_skimmed as (Sk & Ft & Ew & Er).
  pose proof (skim_judged _ _ _ _ Sk Ft left El) as X. rewrite Ew, Er in X.
  destruct (X Rm) as [A|(front & c & w & h & m & Es & Sf & Sh & Rf)]; [left; exact A|right].
  exists front, c, w, h, m. split; [exact Es|]. split; [exact Sf|]. split; [exact Sh|].
  exact (plainly_refused _ _ _ (length_so_far _ _ Sf) Rf).
Qed.

End Reading.

End Line.
