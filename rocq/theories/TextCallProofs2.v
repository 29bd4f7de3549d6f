(** Proofs about text callbacks, continued. *)
From Verif Require Import Base MStrings MData MText MHelp MTextCall STextCall TextCallProofs.

(* ------------------------------------------------------------------------ *)
(** ** The calls *)

Definition traces {A} (t : text_calls) (m : cm A) (P : A -> list exchange -> Prop) : Prop :=
  forall f l a f' l', m f l = CDone a f' l' -> exists q, l' = l ++ map fst q /\ returned t l q /\ P a q.

Lemma returned_nil : forall t l, returned t l [].
Proof. intros t l [|x b] s a r E; discriminate E. Qed.
Lemma app_split : forall {A} (q1 q2 b r : list A) x, q1 ++ q2 = b ++ x :: r ->
  (exists r1, q1 = b ++ x :: r1 /\ r = r1 ++ q2) \/ (exists b2, b = q1 ++ b2 /\ q2 = b2 ++ x :: r).
Proof.
  intros A. induction q1 as [|y q1 IH]; intros q2 b r x E; cbn in E.
  - right. exists b. auto.
  - destruct b as [|z b]; cbn in E; injection E as -> E.
    + left. exists q1. auto.
    + destruct (IH _ _ _ _ E) as [(r1 & -> & ->)|(b2 & -> & ->)]; [left; exists r1|right; exists b2]; auto.
Qed.
Lemma returned_app : forall t l q1 q2, returned t l q1 -> returned t (l ++ map fst q1) q2 -> returned t l (q1 ++ q2).
Proof.
  intros t l q1 q2 R1 R2 b s a r E. destruct (app_split _ _ _ _ _ E) as [(r1 & E1 & _)|(b2 & -> & E2)].
  - apply (R1 b s a r1 E1).
  - rewrite map_app, app_assoc. apply (R2 b2 s a r E2).
Qed.

Lemma traces_ret : forall {A} t (a : A) (P : A -> list exchange -> Prop), P a [] -> traces t (cret a) P.
Proof. intros A t a P H f l b f' l' E. injection E as <- <- <-. exists []. split; [symmetry; apply app_nil_r|]. split; [apply returned_nil|exact H]. Qed.
Lemma traces_emit : forall t g (P : unit -> list exchange -> Prop), P tt [] -> traces t (emit g) P.
Proof.
  intros t g P H f l a f' l' E. unfold emit in E. destruct (g f); try discriminate E. injection E as <- <- <-.
  exists []. split; [symmetry; apply app_nil_r|]. split; [apply returned_nil|exact H].
Qed.
Lemma traces_get : forall t s x (P : str -> list exchange -> Prop),
  (tc_called t s = true -> forall a, P a [(s, a)]) -> (tc_called t s = false -> P x []) -> traces t (get_text t s x) P.
Proof.
  intros t s x P H1 H2 f l a f' l' E. unfold get_text in E. destruct (tc_called t s).
  - destruct (tc_answer t l s) as [b|] eqn:Ea; [|discriminate E]. injection E as <- <- <-. exists [(s, b)]. split; [reflexivity|]. split; [|auto].
    intros p s0 a0 r Eq. destruct p as [|y p]; [|destruct p; discriminate Eq]. injection Eq as <- <- <-. rewrite app_nil_r. exact Ea.
  - injection E as <- <- <-. exists []. split; [symmetry; apply app_nil_r|]. split; [apply returned_nil|auto].
Qed.
Lemma traces_bind : forall {A B} t (m : cm A) (k : A -> cm B) P (R : B -> list exchange -> Prop),
  traces t m P -> (forall a q, P a q -> traces t (k a) (fun b q2 => R b (q ++ q2))) -> traces t (cbind m k) R.
Proof.
  intros A B t m k P R Hm Hk f l b f' l' E. unfold cbind in E. destruct (m f l) as [a f1 l1| | | |] eqn:Em; try discriminate E.
  destruct (Hm _ _ _ _ _ Em) as (q & -> & R1 & H1). destruct (Hk a q H1 _ _ _ _ _ E) as (q2 & -> & R2 & H2).
  exists (q ++ q2). split; [rewrite map_app, app_assoc; reflexivity|]. split; [apply returned_app; assumption|exact H2].
Qed.
Lemma traces_weaken : forall {A} t (m : cm A) (P Q : A -> list exchange -> Prop), traces t m P -> (forall a q, P a q -> Q a q) -> traces t m Q.
Proof. intros A t m P Q H W f l a f' l' E. destruct (H _ _ _ _ _ E) as (q & X & Y & Z). eauto 6. Qed.

Lemma own_traces : forall t c id, traces t (get_own t c id) (needs t c id).
Proof.
  intros t c id. unfold get_own, get_custom. destruct (find_text (c_texts c) id) as [s|] eqn:E.
  - eapply traces_bind; [apply (traces_get t (S_text id) s (fun a q => needs t c id (Some a) q))|].
    + intros C a. eapply needs_called; eassumption.
    + intros C. eapply needs_stored; eassumption.
    + intros a q H. apply traces_ret. rewrite app_nil_r. exact H.
  - apply traces_ret. apply needs_missing. exact E.
Qed.
Lemma write_traces : forall t c id b, traces t (write_custom t c id b) (needs t c id).
Proof.
  intros t c id b. unfold write_custom. eapply traces_bind; [apply own_traces|]. intros text q H.
  eapply traces_bind; [apply (traces_emit t _ (fun _ q => q = [])); reflexivity|]. intros _ q2 ->. apply traces_ret. rewrite !app_nil_r. exact H.
Qed.
Lemma usage_traces : forall t c b, traces t (write_usage_calls t c b) (fun _ => needs_usage t c).
Proof.
  intros t c b. unfold write_usage_calls. eapply traces_bind; [apply own_traces|]. intros u q1 H1.
  assert (R : u <> Some [] -> traces t (ask text1 := write_custom t c TX_USAGE_TITLE b;
      ask prepend := match text1 with
        | None => ask _ := emit (when b new_line ;> write_words DEFAULT_USAGE_TITLE ;> new_line); cret false
        | Some _ => cret (b && no_text text1) end;
      ask text2 := write_custom t c TX_USAGE prepend;
      match text2 with
      | Some _ => cret (negb (no_text text1) || negb (no_text text2))
      | None => ask _ := emit (write_brief_usage c prepend); cret true
      end) (fun _ q2 => needs_usage t c (q1 ++ q2))).
  { intros N. eapply traces_bind; [apply write_traces|]. intros text1 q2 H2. cbn beta.
    eapply (traces_bind t _ _ (fun _ q => q = [])).
    - destruct text1; [apply traces_ret; reflexivity|]. eapply traces_bind; [apply (traces_emit t _ (fun _ q => q = [])); reflexivity|].
      intros _ q ->. apply traces_ret. reflexivity.
    - intros prepend q ->. eapply traces_bind; [apply write_traces|]. intros text2 q3 H3.
      assert (G : forall q4, q4 = [] -> needs_usage t c (q1 ++ q2 ++ [] ++ q3 ++ q4)).
      { intros q4 ->. cbn [app]. rewrite app_nil_r. eapply usage_shown; eassumption. }
      destruct text2; [apply traces_ret; apply G; reflexivity|].
      eapply traces_bind; [apply (traces_emit t _ (fun _ q => q = [])); reflexivity|]. intros _ q ->. apply traces_ret. apply G. reflexivity. }
  destruct u as [[|x u]|]; [|apply R; discriminate|apply R; discriminate].
  apply traces_ret. rewrite app_nil_r. apply usage_empty. exact H1.
Qed.

(** Items. *)
Lemma items_traces : forall {X S} (t : text_calls) (place : nat -> slot) (loop : nat -> list X -> S -> cm S) (one : nat -> X -> cm str)
  (shown has : X -> bool) (add : X -> str -> S -> S) l,
  (forall i s, loop i [] s = cret s) ->
  (forall i x r s, loop i (x :: r) s = if negb (shown x) then loop (Datatypes.S i) r s else cbind (one i x) (fun a => loop (Datatypes.S i) r (add x a s))) ->
  (forall i x, traces t (one i x) (fun _ q => map fst q = if has x && tc_called t (place i) then [place i] else [])) ->
  forall i s, traces t (loop i l s) (fun _ q => map fst q =
    map place (filter (fun j => match nth_error l (j - i) with Some x => shown x && has x | None => false end && tc_called t (place j)) (seq i (length l)))).
Proof.
  intros X S t place loop one shown has add l L0 L1 One.
  induction l as [|x r IH]; intros i s.
  - rewrite L0. apply traces_ret. reflexivity.
  - rewrite L1. cbn [length seq filter]. rewrite Nat.sub_diag. cbn [nth_error].
    assert (Rest : map place (filter (fun j => match nth_error (x :: r) (j - i) with Some y => shown y && has y | None => false end && tc_called t (place j)) (seq (Datatypes.S i) (length r)))
      = map place (filter (fun j => match nth_error r (j - Datatypes.S i) with Some y => shown y && has y | None => false end && tc_called t (place j)) (seq (Datatypes.S i) (length r)))).
    { f_equal. apply filter_ext_in. intros j Ij. apply in_seq in Ij. replace (j - i) with (Datatypes.S (j - Datatypes.S i)) by lia. reflexivity. }
    destruct (shown x) eqn:Sx; cbn [negb andb].
    + eapply traces_bind; [apply One|]. intros a q H. eapply traces_weaken; [apply IH|]. intros s' q2 H2. unfold exchange in *. cbn beta in *. rewrite map_app, H, H2.
      destruct (has x && tc_called t (place i)); cbn [app map]; rewrite Rest; reflexivity.
    + eapply traces_weaken; [apply IH|]. intros s' q2 H2. unfold exchange in *. cbn beta in *. rewrite H2, Rest. reflexivity.
Qed.

Lemma get_items : forall t s x, traces t (get_text t s x) (fun _ q => map fst q = if true && tc_called t s then [s] else []).
Proof. intros t s x. apply traces_get; intros E; rewrite E; reflexivity. Qed.

Lemma list_a_traces : forall t c title s, traces t (list_arguments t title 0 (c_arguments c) s)
  (fun _ => needs_items t S_argument (visible_argument c) (length (c_arguments c))).
Proof.
  intros t c title s. eapply traces_weaken; [eapply (items_traces t S_argument (fun i l s => list_arguments t title i l s) (fun i a => get_text t (S_argument i) (a_help a))
    (fun a => vis_text (a_visibility a)) (fun _ => true) (fun a x s => add_help_text (section_or (a_section a) title) (get_argument_name a) x s))|].
  - reflexivity.
  - reflexivity.
  - intros. apply get_items.
  - intros a q H. unfold needs_items. rewrite H. f_equal. apply filter_ext. intros j. rewrite Nat.sub_0_r. unfold visible_argument.
    destruct (nth_error (c_arguments c) j); [rewrite andb_true_r|]; reflexivity.
Qed.
Lemma list_o_traces : forall t c title s, traces t (list_options t title 0 (c_options c) s)
  (fun _ => needs_items t S_option (visible_option c) (length (c_options c))).
Proof.
  intros t c title s. eapply traces_weaken; [eapply (items_traces t S_option (fun i l s => list_options t title i l s) (fun i a => get_text t (S_option i) (o_help a))
    (fun a => vis_text (o_visibility a)) (fun _ => true) (fun a x s => add_help_text (section_or (o_section a) title) (get_long_option_name a) x s))|].
  - reflexivity.
  - reflexivity.
  - intros. apply get_items.
  - intros a q H. unfold needs_items. rewrite H. f_equal. apply filter_ext. intros j. rewrite Nat.sub_0_r. unfold visible_option.
    destruct (nth_error (c_options c) j); [rewrite andb_true_r|]; reflexivity.
Qed.
Lemma list_c_traces : forall t c title s, traces t (list_commands t title 0 (c_commands c) s)
  (fun _ => needs_items t S_subcommand (visible_command c) (length (c_commands c))).
Proof.
  intros t c title s.
  set (has := fun x => match find_text (c_texts x) TX_HELP with Some _ => true | None => false end).
  assert (G : forall l i s, traces t (list_commands t title i l s) (fun _ q => map fst q =
    map S_subcommand (filter (fun j => match nth_error l (j - i) with Some x => vis_text (c_visibility x) && has x | None => false end && tc_called t (S_subcommand j)) (seq i (length l))))).
  { induction l as [|x r IH]; intros i s0.
    - apply traces_ret. reflexivity.
    - cbn [length seq filter list_commands]. rewrite Nat.sub_diag. cbn [nth_error].
      assert (Rest : map S_subcommand (filter (fun j => match nth_error (x :: r) (j - i) with Some y => vis_text (c_visibility y) && has y | None => false end && tc_called t (S_subcommand j)) (seq (S i) (length r)))
        = map S_subcommand (filter (fun j => match nth_error r (j - S i) with Some y => vis_text (c_visibility y) && has y | None => false end && tc_called t (S_subcommand j)) (seq (S i) (length r)))).
      { f_equal. apply filter_ext_in. intros j Ij. apply in_seq in Ij. replace (j - i) with (S (j - S i)) by lia. reflexivity. }
      destruct (vis_text (c_visibility x)) eqn:Sx; cbn [negb andb].
      + eapply (traces_bind t _ _ (fun _ q => map fst q = if has x && tc_called t (S_subcommand i) then [S_subcommand i] else [])).
        * unfold get_custom, has. destruct (find_text (c_texts x) TX_HELP) as [h|]; cbn [andb].
          -- eapply traces_bind; [apply get_items|]. intros a q H. apply traces_ret. rewrite app_nil_r. exact H.
          -- apply traces_ret. reflexivity.
        * intros a q H. eapply traces_weaken; [apply IH|]. intros s' q2 H2. unfold exchange in *. cbn beta in *. rewrite map_app, H, H2.
          destruct (has x && tc_called t (S_subcommand i)); cbn [app map]; rewrite Rest; reflexivity.
      + eapply traces_weaken; [apply IH|]. intros s' q2 H2. unfold exchange in *. cbn beta in *. rewrite H2, Rest. reflexivity. }
  eapply traces_weaken; [apply G|]. intros a q H. unfold needs_items. rewrite H. f_equal. apply filter_ext. intros j. rewrite Nat.sub_0_r. unfold visible_command, has.
  destruct (nth_error (c_commands c) j); reflexivity.
Qed.

(** The whole texts. *)
Definition help_body (t : text_calls) (c : cmd_data) : cm unit :=
  ask initial := write_custom t c TX_INITIAL_TEXT false;
  let newline := negb (no_text initial) in
  ask usage := write_usage_calls t c newline;
  let newline := usage || newline in
  ask about := write_custom t c TX_ABOUT newline;
  ask newline :=
    (if negb (no_text about) then cret true
     else
       ask help := write_custom t c TX_HELP newline;
       cret (negb (no_text help) || newline));
  ask _ := write_sections_calls t c newline;
  ask _ := write_custom t c TX_FINAL_TEXT true;
  cret tt.
Definition error_body (t : text_calls) (c : cmd_data) (msg : str) : cm unit :=
  ask _ := emit (write_words (c_full_name c ++ $": ") ;> write_words msg ;> new_line);
  ask usage := write_custom t c TX_ERROR_USAGE false;
  match usage with
  | Some _ => cret tt
  | None => ask _ := write_usage_calls t c false; cret tt
  end.
Lemma help_is_body : forall console d t c, write_help_calls console d t c = with_formatter console d (help_body t c).
Proof. reflexivity. Qed.
Lemma error_is_body : forall console d t c msg, write_error_calls console d t c msg = with_formatter console d (error_body t c msg).
Proof. reflexivity. Qed.

Lemma no_text_cases : forall x, if no_text x then x = None \/ x = Some [] else x <> None /\ x <> Some [].
Proof. intros [[|c s]|]; cbn; auto. split; discriminate. Qed.

Lemma help_traces : forall t c, traces t (help_body t c) (fun _ => needs_help t c).
Proof.
  intros t c. unfold help_body. cbv zeta.
  eapply traces_bind; [apply write_traces|]. intros x1 q1 H1. eapply traces_bind; [apply usage_traces|]. intros x2 q2 H2.
  eapply traces_bind; [apply write_traces|]. intros x3 q3 H3.
  eapply (traces_bind t _ _ (fun _ q4 => exists x4, (x3 = None \/ x3 = Some []) /\ needs t c TX_HELP x4 q4 \/ (x3 <> None /\ x3 <> Some []) /\ q4 = [])).
  { pose proof (no_text_cases x3) as N. destruct (no_text x3); cbn [negb].
    - eapply traces_bind; [apply write_traces|]. intros x4 q4 H4. apply traces_ret. rewrite app_nil_r. exists x4. auto.
    - apply traces_ret. exists None. auto. }
  intros newline q4 (x4 & H4). unfold write_sections_calls.
  eapply (traces_bind t _ _ (fun _ q => exists x5 x7 x9 q5 q6 q7 q8 q9 q10, q = q5 ++ q6 ++ q7 ++ q8 ++ q9 ++ q10 /\
    needs t c TX_ARGUMENTS_TITLE x5 q5 /\ needs_items t S_argument (visible_argument c) (length (c_arguments c)) q6 /\
    needs t c TX_SUBCOMMANDS_TITLE x7 q7 /\ needs_items t S_subcommand (visible_command c) (length (c_commands c)) q8 /\
    needs t c TX_OPTIONS_TITLE x9 q9 /\ needs_items t S_option (visible_option c) (length (c_options c)) q10)).
  { eapply traces_bind; [apply own_traces|]. intros x5 q5 H5. eapply traces_bind; [apply list_a_traces|]. intros s6 q6 H6.
    eapply traces_bind; [apply own_traces|]. intros x7 q7 H7. eapply traces_bind; [apply list_c_traces|]. intros s8 q8 H8.
    eapply traces_bind; [apply own_traces|]. intros x9 q9 H9. eapply traces_bind; [apply list_o_traces|]. intros s10 q10 H10.
    apply traces_emit. exists x5, x7, x9, q5, q6, q7, q8, q9, q10. rewrite app_nil_r. auto 10. }
  intros _ q (x5 & x7 & x9 & q5 & q6 & q7 & q8 & q9 & q10 & -> & H5 & H6 & H7 & H8 & H9 & H10).
  eapply traces_bind; [apply write_traces|]. intros x11 q11 H11. apply traces_ret. rewrite app_nil_r, <- !app_assoc.
  eapply needs_help_intro; eassumption.
Qed.
Lemma error_traces : forall t c msg, traces t (error_body t c msg) (fun _ => needs_error t c).
Proof.
  intros t c msg. unfold error_body. eapply traces_bind; [apply (traces_emit t _ (fun _ q => q = [])); reflexivity|]. intros _ q ->. cbn [app].
  eapply traces_bind; [apply write_traces|]. intros [s|] q H.
  - apply traces_ret. rewrite app_nil_r. eapply error_own. exact H.
  - eapply traces_bind; [apply usage_traces|]. intros x2 q2 H2. apply traces_ret. rewrite app_nil_r.
    inversion H; subst. cbn [app]. apply error_usage; assumption.
Qed.

Lemma help_regular : forall c, regular (fun t => help_body t c).
Proof.
  intros c. unfold help_body. cbv zeta.
  apply (regular_bind (fun t => write_custom t c TX_INITIAL_TEXT false)); [apply regular_write|]. intros x1.
  apply (regular_bind (fun t => write_usage_calls t c (negb (no_text x1)))); [apply regular_usage|]. intros x2.
  apply (regular_bind (fun t => write_custom t c TX_ABOUT (x2 || negb (no_text x1)))); [apply regular_write|]. intros x3.
  apply (regular_bind (fun t => if negb (no_text x3) then _ else _)).
  { destruct (negb (no_text x3)); [apply regular_ret|]. apply (regular_bind (fun t => write_custom t c TX_HELP (x2 || negb (no_text x1)))); [apply regular_write|]. intros. apply regular_ret. }
  intros nl. apply (regular_bind (fun t => write_sections_calls t c nl)); [apply regular_sections|]. intros _.
  apply (regular_bind (fun t => write_custom t c TX_FINAL_TEXT true)); [apply regular_write|]. intros. apply regular_ret.
Qed.
Lemma error_regular : forall c msg, regular (fun t => error_body t c msg).
Proof.
  intros c msg. unfold error_body.
  apply (regular_bind (fun t => emit (write_words (c_full_name c ++ $": ") ;> write_words msg ;> new_line))); [apply regular_emit; grow|]. intros _.
  apply (regular_bind (fun t => write_custom t c TX_ERROR_USAGE false)); [apply regular_write|]. intros [s|]; [apply regular_ret|].
  apply (regular_bind (fun t => write_usage_calls t c false)); [apply regular_usage|]. intros. apply regular_ret.
Qed.

(* ------------------------------------------------------------------------ *)
(** ** Answers that are always the same *)

Definition fixed {A} (m : cm A) (v : A) (g : fstep) : Prop := forall f l,
  match g f with
  | TOk f' => exists l', m f l = CDone v f' l'
  | TThrows e => exists l', m f l = CFormat e l'
  | TBad => m f l = CBad
  | TNoFuel => m f l = CNoFuel
  end.
(** What is called always returns the same. *)
Definition steady (t : text_calls) (ans : slot -> str) : Prop :=
  forall l s, tc_called t s = true -> tc_answer t l s = Some (ans s).
Definition always (called : slot -> bool) (ans : slot -> str) : text_calls := mk_calls called (fun _ s => Some (ans s)).

Lemma fixed_eq : forall {A} (m : cm A) v w g g', fixed m v g -> v = w -> (forall f, g f = g' f) -> fixed m w g'.
Proof. intros A m v w g g' F <- E f l. rewrite <- E. apply F. Qed.
Lemma fixed_ret : forall {A} (a : A), fixed (cret a) a skip.
Proof. intros A a f l. cbn. exists l. reflexivity. Qed.
Lemma fixed_emit : forall g, fixed (emit g) tt g.
Proof. intros g f l. unfold emit. destruct (g f); try (exists l); reflexivity. Qed.
Lemma fixed_get : forall t ans (St : steady t ans) s x, fixed (get_text t s x) (text_at (tc_called t) ans s x) skip.
Proof.
  intros t ans St s x f l. unfold get_text, text_at. cbn [skip]. destruct (tc_called t s) eqn:E; [rewrite (St l s E); exists (l ++ [s])|exists l]; reflexivity.
Qed.
Lemma fixed_bind : forall {A B} (m : cm A) (k : A -> cm B) v w g h, fixed m v g -> fixed (k v) w h -> fixed (cbind m k) w (g ;> h).
Proof.
  intros A B m k v w g h F G f l. unfold then_, cbind. specialize (F f l). destruct (g f) as [f1|e| |]; cbn [tbind].
  - destruct F as (l1 & ->). apply G.
  - destruct F as (l1 & ->). exists l1. reflexivity.
  - rewrite F. reflexivity.
  - rewrite F. reflexivity.
Qed.

Lemma skip_then : forall g f, (skip ;> g) f = g f.
Proof. reflexivity. Qed.
Lemma then_skip : forall g f, (g ;> skip) f = g f.
Proof. intros g f. unfold then_. destruct (g f); reflexivity. Qed.
Lemma then_assoc : forall a b c f, ((a ;> b) ;> c) f = (a ;> (b ;> c)) f.
Proof. intros a b c f. unfold then_. destruct (a f); reflexivity. Qed.

Lemma text_id_eqb_eq : forall a b, text_id_eqb a b = true -> a = b.
Proof. intros [] []; intros E; try reflexivity; discriminate E. Qed.
Lemma find_answered : forall called ans c id, find_text (c_texts (answered called ans c)) id =
  option_map (text_at called ans (S_text id)) (find_text (c_texts c) id).
Proof.
  intros called ans c id. cbn [answered c_texts]. unfold with_texts, find_text. induction (c_texts c) as [|[i s] r IH]; [reflexivity|].
  cbn [map find fst]. destruct (text_id_eqb i id) eqn:E; [|exact IH]. apply text_id_eqb_eq in E. subst id. reflexivity.
Qed.
Lemma fixed_own : forall t ans (St : steady t ans) c id, fixed (get_own t c id) (get_custom_text (answered (tc_called t) ans c) id) skip.
Proof.
  intros t ans St c id. unfold get_own, get_custom, get_custom_text. rewrite find_answered. destruct (find_text (c_texts c) id) as [s|]; [|apply fixed_ret].
  eapply fixed_eq; [eapply fixed_bind; [apply (fixed_get t ans St)|apply fixed_ret]| |]; reflexivity.
Qed.
Lemma fixed_write : forall t ans (St : steady t ans) c id b, fixed (write_custom t c id b) (get_custom_text (answered (tc_called t) ans c) id)
  (write_custom_text (answered (tc_called t) ans c) id b).
Proof.
  intros t ans St c id b. unfold write_custom. eapply fixed_eq; [eapply fixed_bind; [apply (fixed_own t ans St)|]; eapply fixed_bind; [apply fixed_emit|apply fixed_ret]|reflexivity|].
  intros f. rewrite skip_then, then_skip. unfold write_custom_text. destruct (get_custom_text (answered (tc_called t) ans c) id) as [s|]; [|reflexivity].
  cbn [no_text text_or]. destruct (is_empty s); reflexivity.
Qed.

Lemma brief_answered : forall called ans c b f, write_brief_usage c b f = write_brief_usage (answered called ans c) b f.
Proof.
  intros called ans c b f.
  assert (O : forall g1 : opt_data -> fstep, (forall i o, g1 (with_help_o called ans i o) = g1 o) ->
    forall l i, for_each g1 (number (with_help_o called ans) i l) = for_each g1 l).
  { intros g1 H l. induction l as [|o r IH]; intros i; [reflexivity|]. cbn [number for_each]. rewrite H, IH. reflexivity. }
  assert (Ar : forall g1 : arg_data -> fstep, (forall i o, g1 (with_help_a called ans i o) = g1 o) ->
    forall l i, for_each g1 (number (with_help_a called ans) i l) = for_each g1 l).
  { intros g1 H l. induction l as [|o r IH]; intros i; [reflexivity|]. cbn [number for_each]. rewrite H, IH. reflexivity. }
  assert (Cm : forall l i b0, brief_commands_loop b0 (number (with_help_c called ans) i l) = brief_commands_loop b0 l).
  { induction l as [|x r IH]; intros i b0; [reflexivity|]. cbn [number brief_commands_loop]. cbn [with_help_c c_visibility c_name]. rewrite !IH. reflexivity. }
  unfold write_brief_usage, write_stop_and_help_usage, write_brief_regular_options, write_brief_arguments, write_brief_commands.
  cbn [answered c_options c_arguments c_commands c_full_name c_require]. rewrite !O, Ar, Cm; try reflexivity.
  replace (is_empty (number (with_help_c called ans) 0 (c_commands c))) with (is_empty (c_commands c)); [reflexivity|]. destruct (c_commands c); reflexivity.
Qed.

Lemma fixed_usage : forall t ans (St : steady t ans) c b, fixed (write_usage_calls t c b) (usage_result (answered (tc_called t) ans c))
  (write_usage (answered (tc_called t) ans c) b).
Proof.
  intros t ans St c b. unfold write_usage_calls, write_usage, usage_result. set (c' := answered (tc_called t) ans c).
  set (u := get_custom_text c' TX_USAGE). set (tt1 := get_custom_text c' TX_USAGE_TITLE).
  set (pre := match tt1 with None => false | Some _ => b && no_text tt1 end).
  assert (R : fixed (ask text1 := write_custom t c TX_USAGE_TITLE b;
      ask prepend := match text1 with
        | None => ask _ := emit (when b new_line ;> write_words DEFAULT_USAGE_TITLE ;> new_line); cret false
        | Some _ => cret (b && no_text text1) end;
      ask text2 := write_custom t c TX_USAGE prepend;
      match text2 with
      | Some _ => cret (negb (no_text text1) || negb (no_text text2))
      | None => ask _ := emit (write_brief_usage c prepend); cret true
      end) (match u with Some _ => negb (no_text tt1) || negb (no_text u) | None => true end)
      (write_custom_text c' TX_USAGE_TITLE b ;>
       match tt1 with None => when b new_line ;> write_words DEFAULT_USAGE_TITLE ;> new_line | Some _ => skip end ;>
       write_custom_text c' TX_USAGE pre ;>
       match u with Some _ => skip | None => write_brief_usage c' pre end)).
  { eapply fixed_bind; [apply (fixed_write t ans St)|]. fold c'. fold tt1. eapply (fixed_bind _ _ pre).
    - unfold pre. destruct tt1; [apply fixed_ret|]. eapply fixed_eq; [eapply fixed_bind; [apply fixed_emit|apply fixed_ret]|reflexivity|apply then_skip].
    - eapply fixed_bind; [apply (fixed_write t ans St)|]. fold c'. fold u. destruct u; [apply fixed_ret|].
      eapply fixed_eq; [eapply fixed_bind; [apply fixed_emit|apply fixed_ret]|reflexivity|]. intros f. rewrite then_skip. apply brief_answered. }
  eapply fixed_eq; [eapply (fixed_bind _ _ u); [apply (fixed_own t ans St)|]|reflexivity|apply skip_then].
  fold u. fold tt1. fold pre. destruct u as [[|x s]|]; [apply fixed_ret|exact R|exact R].
Qed.

Lemma fixed_list_a : forall t ans (St : steady t ans) title l i s, fixed (list_arguments t title i l s)
  (fold_left (fun s a => if negb (vis_text (a_visibility a)) then s
    else add_help_text (section_or (a_section a) title) (get_argument_name a) (a_help a) s) (number (with_help_a (tc_called t) ans) i l) s) skip.
Proof.
  intros t ans St title. induction l as [|a r IH]; intros i s; [apply fixed_ret|]. cbn [list_arguments number fold_left].
  cbn [with_help_a a_visibility]. destruct (negb _); [apply IH|].
  eapply fixed_eq; [eapply fixed_bind; [apply (fixed_get t ans St)|apply IH]|reflexivity|apply skip_then].
Qed.
Lemma fixed_list_o : forall t ans (St : steady t ans) title l i s, fixed (list_options t title i l s)
  (fold_left (fun s o => if negb (vis_text (o_visibility o)) then s
    else add_help_text (section_or (o_section o) title) (get_long_option_name o) (o_help o) s) (number (with_help_o (tc_called t) ans) i l) s) skip.
Proof.
  intros t ans St title. induction l as [|a r IH]; intros i s; [apply fixed_ret|]. cbn [list_options number fold_left].
  cbn [with_help_o o_visibility]. destruct (negb _); [apply IH|].
  eapply fixed_eq; [eapply fixed_bind; [apply (fixed_get t ans St)|apply IH]|reflexivity|apply skip_then].
Qed.
Lemma find_help_c : forall called ans i x, find_text (c_texts (with_help_c called ans i x)) TX_HELP =
  option_map (text_at called ans (S_subcommand i)) (find_text (c_texts x) TX_HELP).
Proof.
  intros called ans i x. cbn [with_help_c c_texts]. unfold find_text. induction (c_texts x) as [|[k s] r IH]; [reflexivity|].
  cbn [map find fst]. destruct (text_id_eqb k TX_HELP) eqn:E; [|exact IH]. apply text_id_eqb_eq in E. subst k. reflexivity.
Qed.
Lemma fixed_list_c : forall t ans (St : steady t ans) title l i s, fixed (list_commands t title i l s)
  (fold_left (fun s x => if negb (vis_text (c_visibility x)) then s
    else add_help_text (section_or (c_section x) title) (c_name x) (text_or (get_custom_text x TX_HELP) []) s) (number (with_help_c (tc_called t) ans) i l) s) skip.
Proof.
  intros t ans St title. induction l as [|x r IH]; intros i s; [apply fixed_ret|]. cbn [list_commands number fold_left].
  replace (c_visibility (with_help_c (tc_called t) ans i x)) with (c_visibility x) by reflexivity. destruct (negb _); [apply IH|].
  eapply fixed_eq; [eapply (fixed_bind _ _ (get_custom_text (with_help_c (tc_called t) ans i x) TX_HELP)); [|apply IH]|reflexivity|apply skip_then].
  unfold get_custom, get_custom_text. rewrite find_help_c. destruct (find_text (c_texts x) TX_HELP); [|apply fixed_ret].
  eapply fixed_eq; [eapply fixed_bind; [apply (fixed_get t ans St)|apply fixed_ret]| |]; reflexivity.
Qed.
Lemma fixed_sections : forall t ans (St : steady t ans) c b, fixed (write_sections_calls t c b) tt (write_argument_sections (answered (tc_called t) ans c) b).
Proof.
  intros t ans St c b. unfold write_sections_calls.
  eapply fixed_eq; [|reflexivity|].
  - eapply fixed_bind; [apply (fixed_own t ans St)|]. eapply fixed_bind; [apply (fixed_list_a t ans St)|]. eapply fixed_bind; [apply (fixed_own t ans St)|]. eapply fixed_bind; [apply (fixed_list_c t ans St)|].
    eapply fixed_bind; [apply (fixed_own t ans St)|]. eapply fixed_bind; [apply (fixed_list_o t ans St)|]. apply fixed_emit.
  - intros f. rewrite !skip_then. reflexivity.
Qed.

Lemma fixed_help : forall t ans (St : steady t ans) c, fixed (help_body t c) tt (
    let c' := answered (tc_called t) ans c in
    let newline0 := negb (no_text (get_custom_text c' TX_INITIAL_TEXT)) in
    let newline1 := usage_result c' || newline0 in
    let about := negb (no_text (get_custom_text c' TX_ABOUT)) in
    let help := negb (no_text (get_custom_text c' TX_HELP)) in
    let newline2 := about || help || newline1 in
    write_custom_text c' TX_INITIAL_TEXT false ;>
    write_usage c' newline0 ;>
    write_custom_text c' TX_ABOUT newline1 ;>
    when (negb about) (write_custom_text c' TX_HELP newline1) ;>
    write_argument_sections c' newline2 ;>
    write_custom_text c' TX_FINAL_TEXT true).
Proof.
  intros t ans St c. unfold help_body. cbv zeta. set (c' := answered (tc_called t) ans c).
  eapply fixed_bind; [apply (fixed_write t ans St)|]. fold c'. eapply fixed_bind; [apply (fixed_usage t ans St)|]. fold c'. eapply fixed_bind; [apply (fixed_write t ans St)|]. fold c'.
  set (nl := usage_result c' || negb (no_text (get_custom_text c' TX_INITIAL_TEXT))).
  eapply (fixed_bind _ _ (negb (no_text (get_custom_text c' TX_ABOUT)) || negb (no_text (get_custom_text c' TX_HELP)) || nl)).
  - destruct (negb (no_text (get_custom_text c' TX_ABOUT))); cbn [orb negb when]; [apply fixed_ret|].
    eapply fixed_eq; [eapply fixed_bind; [apply (fixed_write t ans St)|apply fixed_ret]|reflexivity|]. fold c'. apply then_skip.
  - eapply fixed_bind; [apply (fixed_sections t ans St)|]. fold c'. eapply fixed_eq; [eapply fixed_bind; [apply (fixed_write t ans St)|apply fixed_ret]|reflexivity|]. fold c'. apply then_skip.
Qed.
Lemma fixed_error : forall t ans (St : steady t ans) c msg, fixed (error_body t c msg) tt (
    let c' := answered (tc_called t) ans c in
    write_words (c_full_name c' ++ $": ") ;> write_words msg ;> new_line ;>
    write_custom_text c' TX_ERROR_USAGE false ;>
    match get_custom_text c' TX_ERROR_USAGE with
    | Some _ => skip
    | None => write_usage c' false
    end).
Proof.
  intros t ans St c msg. unfold error_body. cbv zeta. set (c' := answered (tc_called t) ans c).
  eapply fixed_eq; [eapply fixed_bind; [apply fixed_emit|]; eapply fixed_bind; [apply (fixed_write t ans St)|]; fold c'|reflexivity|].
  - instantiate (1 := match get_custom_text c' TX_ERROR_USAGE with Some _ => skip | None => write_usage c' false end).
    destruct (get_custom_text c' TX_ERROR_USAGE); [apply fixed_ret|].
    eapply fixed_eq; [eapply fixed_bind; [apply (fixed_usage t ans St)|apply fixed_ret]|reflexivity|]. fold c'. apply then_skip.
  - intros f. rewrite !then_assoc. unfold then_. destruct (write_words (c_full_name c ++ $": ") f) as [f1| | |] eqn:E; cbn [c' answered c_full_name]; rewrite E; cbn [tbind]; try reflexivity.
    destruct (write_words msg f1); reflexivity.
Qed.

(* ------------------------------------------------------------------------ *)
(** ** The theorems *)

Lemma agree_always : forall t q ans, returned t [] q -> (forall s a, In (s, a) q -> ans s = a) ->
  agree t (always (tc_called t) ans) (map fst q).
Proof.
  intros t q ans R H p s p' E. unfold always. cbn [tc_answer].
  assert (exists b a r, q = b ++ (s, a) :: r /\ map fst b = p) as (b & a & r & -> & <-).
  { clear R H. revert p E. induction q as [|[s0 a0] q IH]; intros p E; [destruct p; discriminate E|]. cbn in E. destruct p as [|y p]; injection E as -> E.
    - exists [], a0, q. auto.
    - destruct (IH _ E) as (b & a & r & -> & <-). exists ((y, a0) :: b), a, r. auto. }
  rewrite (H s a) by (apply in_or_app; right; left; reflexivity). symmetry. apply (R b s a r eq_refl).
Qed.

Lemma fixed_run : forall console d (m : cm unit) g, fixed m tt g ->
  same_outcome (tbind (help_formatter console d) g) (with_formatter console d m []).
Proof.
  intros console d m g F. unfold with_formatter. destruct (help_formatter console d) as [f|e| |]; cbn [tbind same_outcome]; try reflexivity.
  - apply F.
  - exists []. reflexivity.
Qed.
Lemma help_always : forall console d t ans c, steady t ans ->
  same_outcome (write_help_text console d (answered (tc_called t) ans c)) (write_help_calls console d t c []).
Proof. intros console d t ans c St. rewrite help_is_body. apply (fixed_run console d _ _ (fixed_help t ans St c)). Qed.
Lemma error_always : forall console d t ans c msg, steady t ans ->
  same_outcome (write_error_message console d (answered (tc_called t) ans c) msg) (write_error_calls console d t c msg []).
Proof. intros console d t ans c msg St. rewrite error_is_body. apply (fixed_run console d _ _ (fixed_error t ans St c msg)). Qed.
Lemma always_steady : forall called ans, steady (always called ans) ans.
Proof. intros called ans l s _. reflexivity. Qed.

Lemma done_right : forall console d (M : text_calls -> cm unit) (W : (slot -> bool) -> (slot -> str) -> tres formatter) (P : text_calls -> list exchange -> Prop),
  regular M -> (forall t, traces t (M t) (fun _ => P t)) ->
  (forall called ans, same_outcome (W called ans) (with_formatter console d (M (always called ans)) [])) ->
  forall t f l, with_formatter console d (M t) [] = CDone tt f l ->
  exists q, l = map fst q /\ returned t [] q /\ P t q /\
    forall ans, (forall s a, In (s, a) q -> ans s = a) -> W (tc_called t) ans = TOk f.
Proof.
  intros console d M W P Rg Tr Fx t f l E. unfold with_formatter in *. destruct (help_formatter console d) as [f0| | |] eqn:E0; try discriminate E.
  destruct (Tr t _ _ _ _ _ E) as (q & -> & R & Hq). cbn [app] in *. exists q. repeat split; try assumption.
  intros ans H. specialize (Fx (tc_called t) ans).
  rewrite (rg_same _ Rg t (always (tc_called t) ans) f0 [] tt f (map fst q) eq_refl E (agree_always t q ans R H)) in Fx.
  destruct (W (tc_called t) ans) as [f1| | |]; cbn [same_outcome] in Fx.
  - destruct Fx as (l1 & Fx). injection Fx as -> _. reflexivity.
  - destruct Fx as (l1 & Fx). discriminate Fx.
  - discriminate Fx.
  - discriminate Fx.
Qed.
Lemma help_done : forall console d t c f l, write_help_calls console d t c [] = CDone tt f l ->
  exists q, l = map fst q /\ returned t [] q /\ needs_help t c q /\
    forall ans, (forall s a, In (s, a) q -> ans s = a) -> write_help_text console d (answered (tc_called t) ans c) = TOk f.
Proof.
  intros console d t c. apply (done_right console d (fun t => help_body t c) (fun called ans => write_help_text console d (answered called ans c)) (fun t => needs_help t c)).
  - apply help_regular.
  - intros. apply help_traces.
  - intros. apply (help_always console d (always called ans) ans c (always_steady called ans)).
Qed.
Lemma error_done : forall console d t c msg f l, write_error_calls console d t c msg [] = CDone tt f l ->
  exists q, l = map fst q /\ returned t [] q /\ needs_error t c q /\
    forall ans, (forall s a, In (s, a) q -> ans s = a) -> write_error_message console d (answered (tc_called t) ans c) msg = TOk f.
Proof.
  intros console d t c msg. apply (done_right console d (fun t => error_body t c msg) (fun called ans => write_error_message console d (answered called ans c) msg) (fun t => needs_error t c)).
  - apply error_regular.
  - intros. apply error_traces.
  - intros. apply (error_always console d (always called ans) ans c msg (always_steady called ans)).
Qed.

Definition throws_right (run : text_calls -> cres unit) : Prop := forall t f l, run t = CThrown f l ->
  exists p s, l = p ++ [s] /\ tc_answer t p s = None /\
    forall t2, tc_called t2 = tc_called t -> (forall b r before, p = before ++ b :: r -> tc_answer t2 before b = tc_answer t before b) ->
    forall f2 l2, run t2 = CDone tt f2 l2 -> (exists y, printed f2 = printed f ++ y) /\ exists y, l2 = l ++ y.
Lemma thrown_right : forall console d M, regular M -> throws_right (fun t => with_formatter console d (M t) []).
Proof.
  intros console d M Rg t f l E. unfold with_formatter in *. destruct (help_formatter console d) as [f0| | |] eqn:E0; try discriminate E.
  destruct (rg_thrown _ Rg _ _ _ _ _ E) as (_ & p & s & -> & _ & N & G). exists p, s. repeat split; try assumption.
  all: intros; destruct (G t2 H) as (_ & G2); [intros ? ? ? X; eapply H0; exact X|].
  - destruct (G2 _ _ _ H1) as (X & _). exact X.
  - destruct (G2 _ _ _ H1) as (_ & X). exact X.
Qed.

(** How often. *)
Lemma times_app : forall s a b, times s (a ++ b) = times s a + times s b.
Proof. intros s a b. unfold times. rewrite filter_app, app_length. reflexivity. Qed.
Lemma needs_times : forall t c id x q s, needs t c id x q -> times s (map fst q) <= if slot_eqb s (S_text id) then 1 else 0.
Proof.
  intros t c id x q s H. destruct H; cbn; try lia. unfold times. cbn [map fst filter]. destruct (slot_eqb s (S_text id)); cbn [length]; lia.
Qed.
Lemma items_times : forall t place visible n q s, needs_items t place visible n q ->
  (forall i j, slot_eqb (place i) (place j) = Nat.eqb i j) ->
  times s (map fst q) <= 1 /\ ((forall j, slot_eqb s (place j) = false) -> times s (map fst q) = 0).
Proof.
  intros t place visible n q s H Pl. unfold needs_items in H. rewrite H. clear q H. set (g := fun i => visible i && tc_called t (place i)).
  assert (Z : forall l, (forall j, In j l -> slot_eqb s (place j) = false) -> times s (map place (filter g l)) = 0).
  { induction l as [|j l IH]; intros N; [reflexivity|]. cbn [filter]. destruct (g j).
    - cbn [map]. unfold times. cbn [filter]. rewrite (N j (or_introl eq_refl)). apply IH. intros k I. apply N. right. exact I.
    - apply IH. intros k I. apply N. right. exact I. }
  split; [|intros N; apply Z; auto].
  assert (Eq : forall i j, slot_eqb s (place i) = true -> slot_eqb s (place j) = true -> i = j).
  { intros i j A B. destruct s, (place i) eqn:Ei, (place j) eqn:Ej; try discriminate A; try discriminate B; cbn in A, B;
      try (apply Nat.eqb_eq in A, B; subst); try (apply text_id_eqb_eq in A, B; subst);
      apply Nat.eqb_eq; rewrite <- Pl, Ei, Ej; cbn; try apply Nat.eqb_refl; match goal with |- text_id_eqb ?x ?x = true => destruct x; reflexivity end. }
  assert (G : forall m a, times s (map place (filter g (seq a m))) <= 1).
  { induction m as [|m IH]; intros a; [cbn; lia|]. cbn [seq filter]. destruct (g a); [|apply IH]. cbn [map]. unfold times. cbn [filter].
    destruct (slot_eqb s (place a)) eqn:E; [|apply IH]. cbn [length].
    fold (times s (map place (filter g (seq (S a) m)))). rewrite Z; [lia|]. intros j I. apply in_seq in I.
    destruct (slot_eqb s (place j)) eqn:Ej; [|reflexivity]. pose proof (Eq _ _ E Ej). lia. }
  apply G.
Qed.
Lemma usage_times : forall t c q s, needs_usage t c q -> times s (map (@fst slot str) q) <=
  (if slot_eqb s (S_text TX_USAGE) then 2 else 0) + (if slot_eqb s (S_text TX_USAGE_TITLE) then 1 else 0).
Proof.
  intros t c q s H. destruct H as [q H|u q1 title q2 u2 q3 H1 N H2 H3].
  - pose proof (needs_times _ _ _ _ _ s H). destruct (slot_eqb s (S_text TX_USAGE)); lia.
  - rewrite !map_app, !times_app. pose proof (needs_times _ _ _ _ _ s H1). pose proof (needs_times _ _ _ _ _ s H2). pose proof (needs_times _ _ _ _ _ s H3).
    unfold exchange in *. destruct (slot_eqb s (S_text TX_USAGE)), (slot_eqb s (S_text TX_USAGE_TITLE)); lia.
Qed.
Lemma help_times : forall t c q s, needs_help t c q -> times s (map fst q) <= if slot_eqb s (S_text TX_USAGE) then 2 else 1.
Proof.
  intros t c q s H. destruct H as [x1 x3 x4 x5 x7 x9 x11 q1 q2 q3 q4 q5 q6 q7 q8 q9 q10 q11 H1 H2 H3 H4 H5 H6 H7 H8 H9 H10 H11].
  rewrite !map_app, !times_app.
  pose proof (needs_times _ _ _ _ _ s H1) as B1. pose proof (usage_times _ _ _ s H2) as B2. pose proof (needs_times _ _ _ _ _ s H3) as B3.
  assert (B4 : times s (map fst q4) <= if slot_eqb s (S_text TX_HELP) then 1 else 0).
  { destruct H4 as [(_ & H4)|(_ & ->)]; [apply (needs_times _ _ _ _ _ s H4)|cbn; lia]. }
  pose proof (needs_times _ _ _ _ _ s H5) as B5. pose proof (needs_times _ _ _ _ _ s H7) as B7. pose proof (needs_times _ _ _ _ _ s H9) as B9. pose proof (needs_times _ _ _ _ _ s H11) as B11.
  destruct (items_times _ _ _ _ _ s H6 (fun i j => eq_refl)) as (B6 & Z6). destruct (items_times _ _ _ _ _ s H8 (fun i j => eq_refl)) as (B8 & Z8).
  destruct (items_times _ _ _ _ _ s H10 (fun i j => eq_refl)) as (B10 & Z10).
  unfold exchange in *. destruct s as [id|i|i|i]; cbn [slot_eqb] in *.
  - rewrite Z6, Z8, Z10 by reflexivity. destruct id; cbn in *; lia.
  - rewrite Z8, Z10 by reflexivity. lia.
  - rewrite Z6, Z10 by reflexivity. lia.
  - rewrite Z6, Z8 by reflexivity. lia.
Qed.
Lemma error_times : forall t c q s, needs_error t c q -> times s (map fst q) <= if slot_eqb s (S_text TX_USAGE) then 2 else 1.
Proof.
  intros t c q s H. destruct H as [x q H|q H1 H2].
  - pose proof (needs_times _ _ _ _ _ s H). destruct (slot_eqb s (S_text TX_ERROR_USAGE)), (slot_eqb s (S_text TX_USAGE)); lia.
  - pose proof (usage_times _ _ _ s H2) as B. destruct s as [id| | |]; cbn in *; try lia. destruct id; cbn in *; lia.
Qed.

Lemma needs_who : forall t c id x q s, needs t c id x q -> In s (map fst q) -> tc_called t s = true /\ s = S_text id /\ find_text (c_texts c) id <> None.
Proof. intros t c id x q s H I. destruct H; cbn in I; try contradiction. destruct I as [<-|[]]. split; [assumption|]. split; [reflexivity|congruence]. Qed.
Lemma usage_who : forall t c q s, needs_usage t c q -> In s (map fst q) -> tc_called t s = true /\
  exists id, s = S_text id /\ find_text (c_texts c) id <> None /\ (id = TX_USAGE \/ id = TX_USAGE_TITLE).
Proof.
  intros t c q s H I. destruct H as [q H|u q1 title q2 u2 q3 H1 N H2 H3].
  - destruct (needs_who _ _ _ _ _ _ H I) as (A & B & C). eauto 8.
  - rewrite !map_app in I. apply in_app_or in I. destruct I as [I|I]; [destruct (needs_who _ _ _ _ _ _ H1 I) as (A & B & C); eauto 8|].
    apply in_app_or in I. destruct I as [I|I]; [destruct (needs_who _ _ _ _ _ _ H2 I) as (A & B & C); eauto 8|destruct (needs_who _ _ _ _ _ _ H3 I) as (A & B & C); eauto 8].
Qed.
Lemma items_who : forall t place visible n q s, needs_items t place visible n q -> In s (map fst q) ->
  exists i, s = place i /\ visible i = true /\ tc_called t s = true.
Proof.
  intros t place visible n q s H I. unfold needs_items in H. rewrite H in I. apply in_map_iff in I. destruct I as (i & <- & I).
  apply filter_In in I. destruct I as (_ & I). apply andb_true_iff in I. exists i. destruct I. auto.
Qed.
Lemma help_who : forall t c q s, needs_help t c q -> In s (map fst q) -> tc_called t s = true /\ shown_in_help c s.
Proof.
  intros t c q s H I. destruct H as [x1 x3 x4 x5 x7 x9 x11 q1 q2 q3 q4 q5 q6 q7 q8 q9 q10 q11 H1 H2 H3 H4 H5 H6 H7 H8 H9 H10 H11].
  rewrite !map_app, !in_app_iff in I.
  assert (T : forall id x q', needs t c id x q' -> id <> TX_ERROR_USAGE -> In s (map fst q') -> tc_called t s = true /\ shown_in_help c s).
  { intros id x q' H N I'. destruct (needs_who _ _ _ _ _ _ H I') as (A & -> & C). split; [exact A|]. split; assumption. }
  destruct I as [I|[I|[I|[I|[I|[I|[I|[I|[I|[I|I]]]]]]]]]].
  - apply (T _ _ _ H1); [discriminate|exact I].
  - destruct (usage_who _ _ _ _ H2 I) as (A & id & -> & B & C). split; [exact A|]. split; [exact B|]. destruct C; subst; discriminate.
  - apply (T _ _ _ H3); [discriminate|exact I].
  - destruct H4 as [(_ & H4)|(_ & ->)]; [|destruct I]. apply (T _ _ _ H4); [discriminate|exact I].
  - apply (T _ _ _ H5); [discriminate|exact I].
  - destruct (items_who _ _ _ _ _ _ H6 I) as (i & -> & V & C). auto.
  - apply (T _ _ _ H7); [discriminate|exact I].
  - destruct (items_who _ _ _ _ _ _ H8 I) as (i & -> & V & C). auto.
  - apply (T _ _ _ H9); [discriminate|exact I].
  - destruct (items_who _ _ _ _ _ _ H10 I) as (i & -> & V & C). auto.
  - apply (T _ _ _ H11); [discriminate|exact I].
Qed.
Lemma error_who : forall t c q s, needs_error t c q -> In s (map fst q) -> tc_called t s = true /\ shown_in_error c s.
Proof.
  intros t c q s H I. destruct H as [x q H|q H1 H2].
  - destruct (needs_who _ _ _ _ _ _ H I) as (A & -> & C). cbn. auto.
  - destruct (usage_who _ _ _ _ H2 I) as (A & id & -> & B & C). cbn. tauto.
Qed.

Lemma help_once : forall console d t c f l s, write_help_calls console d t c [] = CDone tt f l ->
  times s l <= (if slot_eqb s (S_text TX_USAGE) then 2 else 1) /\ (In s l -> tc_called t s = true /\ shown_in_help c s).
Proof.
  intros console d t c f l s E. destruct (help_done _ _ _ _ _ _ E) as (q & -> & _ & H & _). split; [apply (help_times _ _ _ _ H)|apply (help_who _ _ _ _ H)].
Qed.
Lemma error_once : forall console d t c msg f l s, write_error_calls console d t c msg [] = CDone tt f l ->
  times s l <= (if slot_eqb s (S_text TX_USAGE) then 2 else 1) /\ (In s l -> tc_called t s = true /\ shown_in_error c s).
Proof.
  intros console d t c msg f l s E. destruct (error_done _ _ _ _ _ _ _ E) as (q & -> & _ & H & _). split; [apply (error_times _ _ _ _ H)|apply (error_who _ _ _ _ H)].
Qed.

(** Without callbacks. *)
Lemma number_id : forall {A} (g : nat -> A -> A) l i, (forall i x, g i x = x) -> number g i l = l.
Proof. intros A g. induction l as [|x r IH]; intros i H; [reflexivity|]. cbn [number]. rewrite H, IH by exact H. reflexivity. Qed.
Lemma map_pairs : forall (f : text_id -> str -> str) l, (forall i s, f i s = s) -> map (fun p => (fst p, f (fst p) (snd p))) l = l.
Proof. intros f. induction l as [|[i s] r IH]; intros H; [reflexivity|]. cbn. rewrite H, IH by exact H. reflexivity. Qed.
Lemma answered_none : forall called ans c, (forall s, called s = false) -> answered called ans c = c.
Proof.
  intros called ans c N.
  assert (T : forall s x, text_at called ans s x = x) by (intros; unfold text_at; rewrite N; reflexivity).
  unfold answered. rewrite !number_id.
  - unfold with_texts. rewrite (map_pairs (fun i s => text_at called ans (S_text i) s)) by (intros; apply T). destruct c; reflexivity.
  - intros i x. unfold with_help_c. destruct x as [? ? ? ? ? ? tx ? ? ? ? ? ?]; cbn. f_equal.
    rewrite <- (map_id tx) at 2. apply map_ext. intros [k y]. cbn. rewrite T. destruct k; reflexivity.
  - intros i x. unfold with_help_o. rewrite T. destruct x; reflexivity.
  - intros i x. unfold with_help_a. rewrite T. destruct x; reflexivity.
Qed.
Lemma without_callbacks : forall console d t c msg, (forall s, tc_called t s = false) ->
  same_outcome (write_help_text console d c) (write_help_calls console d t c []) /\
  same_outcome (write_error_message console d c msg) (write_error_calls console d t c msg []).
Proof.
  intros console d t c msg N. assert (St : steady t (fun _ => [])) by (intros l s C; rewrite N in C; discriminate C).
  pose proof (help_always console d t _ c St) as H. pose proof (error_always console d t _ c msg St) as E. rewrite answered_none in H, E by exact N. auto.
Qed.
Lemma help_thrown : forall console d c t f l, write_help_calls console d t c [] = CThrown f l ->
  exists p s, l = p ++ [s] /\ tc_answer t p s = None /\
    forall t2, tc_called t2 = tc_called t ->
      (forall b r before, p = before ++ b :: r -> tc_answer t2 before b = tc_answer t before b) ->
    forall f2 l2, write_help_calls console d t2 c [] = CDone tt f2 l2 ->
      (exists y, printed f2 = printed f ++ y) /\ exists y, l2 = l ++ y.
Proof. intros console d c. apply (thrown_right console d (fun t => help_body t c) (help_regular c)). Qed.
Lemma error_thrown : forall console d c msg t f l, write_error_calls console d t c msg [] = CThrown f l ->
  exists p s, l = p ++ [s] /\ tc_answer t p s = None /\
    forall t2, tc_called t2 = tc_called t ->
      (forall b r before, p = before ++ b :: r -> tc_answer t2 before b = tc_answer t before b) ->
    forall f2 l2, write_error_calls console d t2 c msg [] = CDone tt f2 l2 ->
      (exists y, printed f2 = printed f ++ y) /\ exists y, l2 = l ++ y.
Proof. intros console d c msg. apply (thrown_right console d (fun t => error_body t c msg) (error_regular c msg)). Qed.

(** USAGE twice. *)
Definition twice_command : cmd_data := mk_cmd [] [] [] [] ($"x") ($"x") [(TX_USAGE, [])] vis_normal None false [] 0 [].
Definition twice_data : parser_data := mk_data twice_command default_settings [] 0 [].
Definition twice_calls : text_calls := mk_calls (fun _ => true) (fun l _ => Some (match l with [] => $"x FILE" | _ => [] end)).
Lemma usage_twice : exists console d t c f l q, write_help_calls console d t c [] = CDone tt f l /\
  returned t [] q /\ map fst q = l /\ times (S_text TX_USAGE) l = 2 /\
  forall ans, (forall s, In s l -> In (s, ans s) q) -> write_help_text console d (answered (tc_called t) ans c) <> TOk f.
Proof.
  exists 80, twice_data, twice_calls, twice_command. eexists. exists [S_text TX_USAGE; S_text TX_USAGE], [(S_text TX_USAGE, $"x FILE"); (S_text TX_USAGE, [])].
  split; [vm_compute; reflexivity|]. split; [|split; [reflexivity|split; [reflexivity|]]].
  - intros b s a r E. destruct b as [|x b]; [injection E as <- <- _; reflexivity|]. destruct b as [|y b]; [injection E as <- <- <- _; reflexivity|].
    destruct b; discriminate E.
  - intros ans H. specialize (H (S_text TX_USAGE) (or_introl eq_refl)).
    assert (ans (S_text TX_USAGE) = $"x FILE" \/ ans (S_text TX_USAGE) = []) as A.
    { destruct H as [H|[H|[]]]; injection H as H; auto. }
    replace (answered (tc_called twice_calls) ans twice_command) with (mk_cmd [] [] [] [] ($"x") ($"x") [(TX_USAGE, ans (S_text TX_USAGE))] vis_normal None false [] 0 []) by reflexivity.
    destruct A as [-> | ->]; vm_compute; discriminate.
Qed.
