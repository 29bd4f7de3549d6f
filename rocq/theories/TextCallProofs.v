(** Proofs about text callbacks. *)
From Verif Require Import Base MStrings MData MText MHelp MTextCall STextCall.

(* ------------------------------------------------------------------------ *)
(** ** The output only grows *)

Definition grows (f f' : formatter) : Prop := exists x, printed f' = printed f ++ x.
Definition grower (g : fstep) : Prop := forall f f', g f = TOk f' -> grows f f'.

Lemma grows_refl : forall f, grows f f.
Proof. intros f. exists []. symmetry. apply app_nil_r. Qed.
Lemma grows_same : forall f f', printed f' = printed f -> grows f f'.
Proof. intros f f' E. exists []. rewrite app_nil_r. exact E. Qed.
Lemma grows_trans : forall f g h, grows f g -> grows g h -> grows f h.
Proof. intros f g h (x & X) (y & Y). exists (x ++ y). rewrite Y, X, app_assoc. reflexivity. Qed.

Lemma set_indentation_out : forall n w, w_out (set_indentation n w) = w_out w.
Proof. intros n w. unfold set_indentation. destruct (w_line_width w <=? n); reflexivity. Qed.
Lemma write_out : forall s b w, w_out (snd (write s b w)) = w_out w.
Proof. intros s b w. unfold write. destruct (_ && _); reflexivity. Qed.

Lemma push_grows : forall n, grower (push n).
Proof.
  intros n f f' E. injection E as <-. apply grows_same. destruct n; unfold printed, push_indentation, set_indents, on_writer; cbn [f_writer];
  rewrite set_indentation_out; reflexivity.
Qed.
Lemma pop_grows : grower pop_indentation.
Proof.
  intros f f' E. unfold pop_indentation in E. destruct (f_indents f) as [|a [|b l]]; try discriminate E. injection E as <-.
  apply grows_same. unfold printed, set_indents, on_writer. cbn [f_writer]. apply set_indentation_out.
Qed.
Lemma newline_grows : forall f, grows f (newline f).
Proof. intros f. eexists. unfold printed, newline, on_writer, writer_newline, flush_writer, set_spaces. cbn [f_writer w_out w_line]. reflexivity. Qed.
Lemma new_line_grows : grower new_line.
Proof. intros f f' E. injection E as <-. apply newline_grows. Qed.
Lemma skip_grows : grower skip.
Proof. intros f f' E. injection E as <-. apply grows_refl. Qed.
Lemma then_grows : forall a b, grower a -> grower b -> grower (a ;> b).
Proof.
  intros a b A B f f' E. unfold then_, tbind in E. destruct (a f) as [f1| | |] eqn:E1; try discriminate E.
  eapply grows_trans; [apply (A _ _ E1)|apply (B _ _ E)].
Qed.
Lemma when_grows : forall b g, grower g -> grower (when b g).
Proof. intros [|] g G; [exact G|apply skip_grows]. Qed.
Lemma each_grows : forall {A} (g : A -> fstep) l, (forall x, grower (g x)) -> grower (for_each g l).
Proof. intros A g l G. induction l as [|x r IH]; [apply skip_grows|]. cbn [for_each]. apply then_grows; [apply G|exact IH]. Qed.

Lemma append_grows : forall fuel word rest, grower (append_loop fuel word rest).
Proof.
  induction fuel as [|fuel IH]; intros word rest f f' E; [discriminate E|]. cbn [append_loop] in E.
  destruct (write rest false (f_writer f)) as [ok w1] eqn:Ew. destruct ok.
  - injection E as <-. apply grows_same. unfold printed, on_writer. cbn [f_writer]. pose proof (write_out rest false (f_writer f)) as X. rewrite Ew in X. exact X.
  - destruct (split _ _ _ _ _) as [[[w s] r]| | |]; try discriminate E. cbn [tbind] in E. destruct (negb (is_empty w)).
    + apply IH in E. eapply grows_trans; [|exact E]. eapply grows_trans; [|apply newline_grows]. apply grows_same. unfold printed.
      destruct s; unfold on_writer; cbn [f_writer]; rewrite !write_out; reflexivity.
    + destruct (is_line_empty (f_writer f)).
      * destruct (negb (w_spaces (f_writer f) =? 0)).
        -- apply IH in E. eapply grows_trans; [|exact E]. apply grows_same. reflexivity.
        -- injection E as <-. apply grows_same. unfold printed, on_writer. cbn [f_writer]. reflexivity.
      * apply IH in E. eapply grows_trans; [|exact E]. eapply grows_trans; [apply newline_grows|]. apply grows_same. reflexivity.
Qed.
Lemma set_state_grows : forall s f, grows f (set_state s f).
Proof. intros. apply grows_same. reflexivity. Qed.
Lemma begin_grows : grower begin_alignment.
Proof.
  intros f f' E. unfold begin_alignment in E. destruct (_ || _).
  - injection E as <-. eapply grows_trans; [|apply set_state_grows]. apply (push_grows None f). reflexivity.
  - destruct (f_state f); try (injection E as <-; apply grows_refl).
    destruct (pop_indentation f) as [f1| | |] eqn:P; try discriminate E. injection E as <-.
    eapply grows_trans; [apply (pop_grows _ _ P)|]. eapply grows_trans; [|apply set_state_grows]. apply (push_grows None f1). reflexivity.
Qed.
Lemma end_grows : grower end_alignment.
Proof.
  intros f f' E. unfold end_alignment in E.
  destruct (f_state f); try (injection E as <-; apply grows_refl);
    (destruct (pop_indentation f) as [f1| | |] eqn:P; try discriminate E; injection E as <-;
    eapply grows_trans; [apply (pop_grows _ _ P)|apply set_state_grows]).
Qed.
Lemma on_same_grows : forall g f, (forall w, w_out (g w) = w_out w) -> grows f (on_writer g f).
Proof. intros g f H. apply grows_same. apply H. Qed.
Lemma token_grows : forall k t, grower (write_token k t).
Proof.
  intros k t f f' E. destruct k; cbn [write_token] in E.
  - injection E as <-. apply grows_refl.
  - eapply grows_trans; [|apply (begin_grows _ _ E)]. apply on_same_grows. reflexivity.
  - destruct (end_alignment f) as [f1| | |] eqn:P; try discriminate E. injection E as <-. eapply grows_trans; [apply (end_grows _ _ P)|].
    exact (newline_grows f1).
  - eapply grows_trans; [|apply (begin_grows _ _ E)]. apply on_same_grows. reflexivity.
  - eapply grows_trans; [|apply (append_grows _ _ _ _ _ E)]. unfold update_alignment. destruct (_ && _); [apply set_state_grows|apply grows_refl].
Qed.
Lemma words_grows : forall text, grower (write_words text).
Proof.
  intros text. unfold write_words. generalize (length text) as fuel. intros fuel. revert text.
  induction fuel as [|fuel IH]; intros [|c text] f f' E; try (apply (end_grows _ _ E)); [discriminate E|].
  cbn [words_loop] in E. destruct (next_token (c :: text)) as [[k t] r].
  destruct (write_token k t f) as [f1| | |] eqn:W; try discriminate E. cbn [tbind] in E.
  eapply grows_trans; [apply (token_grows _ _ _ _ W)|apply (IH _ _ _ E)].
Qed.
Lemma lines_grows : forall text, grower (write_lines text).
Proof.
  intros text f f' E. unfold write_lines in E. destruct (lines_loop (length text) text f) as [f1| | |] eqn:L; try discriminate E. cbn [tbind] in E.
  assert (G : grows f f1).
  { clear E. revert L. generalize (length text) as fuel. intros fuel. revert text f f1. induction fuel as [|fuel IH]; intros [|c text] f f1 L; cbn [lines_loop] in L;
      try (injection L as <-; apply grows_refl); [discriminate L|].
    destruct (next_line (c :: text)) as [[line rem]| | |]; try discriminate L. cbn [tbind] in L.
    destruct (if negb (is_empty line) then append_word line f else TOk f) as [f2| | |] eqn:A; try discriminate L. cbn [tbind] in L.
    apply IH in L. eapply grows_trans; [|exact L].
    apply (grows_trans f f2).
    - destruct (negb (is_empty line)); [apply (append_grows _ _ _ _ _ A)|injection A as <-; apply grows_refl].
    - destruct (negb (is_empty rem)); [apply newline_grows|apply grows_refl]. }
  eapply grows_trans; [exact G|]. destruct (last_char text) as [c|]; [|injection E as <-; apply grows_refl].
  destruct (_ || _); injection E as <-; [apply newline_grows|apply grows_refl].
Qed.

Ltac grow := repeat
  match goal with
  | |- grower (then_ _ _) => apply then_grows
  | |- grower (when _ _) => apply when_grows
  | |- grower (write_words _) => apply words_grows
  | |- grower (write_lines _) => apply lines_grows
  | |- grower new_line => apply new_line_grows
  | |- grower (push _) => apply push_grows
  | |- grower pop_indentation => apply pop_grows
  | |- grower skip => apply skip_grows
  | |- grower (for_each _ _) => apply each_grows; intros
  end.

Lemma end_line_grows : grower end_line.
Proof. intros f f' E. unfold end_line in E. destruct (is_line_empty (f_writer f)); [injection E as <-; apply grows_refl|apply (new_line_grows _ _ E)]. Qed.
Lemma brief_grows : forall c b, grower (write_brief_usage c b).
Proof.
  intros c b. unfold write_brief_usage, write_stop_and_help_usage, write_brief_regular_options, write_brief_arguments, write_brief_commands.
  grow.
  - destruct (_ || _); grow.
  - destruct (_ || _); grow.
  - destruct (negb _); grow.
  - destruct (is_empty (c_commands c)); grow. generalize true. induction (c_commands c) as [|x r IH]; intros b0; cbn [brief_commands_loop]; [grow|].
    destruct (negb (vis_usage _)); [apply IH|]. grow. apply IH.
Qed.
Lemma sections_grows : forall n l b, grower (write_sections n b l).
Proof.
  intros n. induction l as [|[s t] r IH]; intros b; cbn [write_sections]; [grow|]. grow; [|apply IH].
  destruct x as [name text]. unfold write_item. grow. destruct (negb _); grow.
  intros f f' E. destruct (n <=? _); [apply (words_grows _ _ _ E)|injection E as <-; apply grows_refl].
Qed.

(* ------------------------------------------------------------------------ *)
(** ** The same answers, the same run *)

(** [t2] has the same callbacks as [t1] and answers the same up to the calls [l]. *)
Definition agree (t1 t2 : text_calls) (l : list slot) : Prop :=
  forall p s p', l = p ++ s :: p' -> tc_answer t2 p s = tc_answer t1 p s.

Record regular {A} (M : text_calls -> cm A) : Prop := {
  rg_done : forall t f l a f' l', M t f l = CDone a f' l' -> grows f f' /\ exists x, l' = l ++ x;
  rg_same : forall t1 t2 f l a f' l', tc_called t2 = tc_called t1 -> M t1 f l = CDone a f' l' -> agree t1 t2 l' ->
    M t2 f l = CDone a f' l';
  rg_thrown : forall t1 f l f' l', M t1 f l = CThrown f' l' -> grows f f' /\
    exists p s, l' = p ++ [s] /\ (exists x, p = l ++ x) /\ tc_answer t1 p s = None /\
    forall t2, tc_called t2 = tc_called t1 -> agree t1 t2 p ->
      (tc_answer t2 p s = None -> M t2 f l = CThrown f' l') /\
      (forall a f2 l2, M t2 f l = CDone a f2 l2 -> grows f' f2 /\ exists y, l2 = l' ++ y)
}.

Lemma agree_prefix : forall t1 t2 l x, agree t1 t2 (l ++ x) -> agree t1 t2 l.
Proof. intros t1 t2 l x H p s p' ->. apply (H p s (p' ++ x)). rewrite <- app_assoc. reflexivity. Qed.

Lemma regular_ret : forall {A} (a : A), regular (fun _ => cret a).
Proof.
  intros A a. constructor; unfold cret; intros.
  - injection H as <- <- <-. split; [apply grows_refl|]. exists []. symmetry. apply app_nil_r.
  - exact H0.
  - discriminate H.
Qed.
Lemma regular_emit : forall g, grower g -> regular (fun _ => emit g).
Proof.
  intros g G. constructor; unfold emit; intros.
  - destruct (g f) as [f1| | |] eqn:E; try discriminate H. injection H as <- <- <-. split; [apply (G _ _ E)|]. exists []. symmetry. apply app_nil_r.
  - exact H0.
  - destruct (g f); discriminate H.
Qed.
Lemma regular_get : forall s x, regular (fun t => get_text t s x).
Proof.
  intros s x. constructor; unfold get_text.
  - intros t f l a f' l' H. destruct (tc_called t s).
    + destruct (tc_answer t l s); [|discriminate H]. injection H as <- <- <-. split; [apply grows_refl|eauto].
    + injection H as <- <- <-. split; [apply grows_refl|]. exists []. symmetry. apply app_nil_r.
  - intros t1 t2 f l a f' l' C H Ag. rewrite C. destruct (tc_called t1 s); [|exact H].
    destruct (tc_answer t1 l s) eqn:E; [|discriminate H]. injection H as <- <- <-. rewrite (Ag l s []) by reflexivity. rewrite E. reflexivity.
  - intros t1 f l f' l' H. destruct (tc_called t1 s) eqn:C; [|discriminate H]. destruct (tc_answer t1 l s) eqn:E; [discriminate H|]. injection H as <- <-.
    split; [apply grows_refl|]. exists l, s. split; [reflexivity|]. split; [exists []; symmetry; apply app_nil_r|]. split; [exact E|].
    intros t2 C2 _. rewrite C2, C. split.
    + intros ->. reflexivity.
    + intros a f2 l2 H. destruct (tc_answer t2 l s); [|discriminate H]. injection H as <- <- <-. split; [apply grows_refl|]. exists []. symmetry. apply app_nil_r.
Qed.
Lemma regular_bind : forall {A B} (M : text_calls -> cm A) (K : text_calls -> A -> cm B),
  regular M -> (forall a, regular (fun t => K t a)) -> regular (fun t => cbind (M t) (K t)).
Proof.
  intros A B M K RM RK. constructor; unfold cbind.
  - intros t f l b f' l' H. destruct (M t f l) as [a f1 l1| | | |] eqn:E; try discriminate H.
    destruct (rg_done _ RM _ _ _ _ _ _ E) as (G & x & ->). destruct (rg_done _ (RK a) _ _ _ _ _ _ H) as (G2 & y & ->).
    split; [eapply grows_trans; eassumption|]. exists (x ++ y). symmetry. apply app_assoc.
  - intros t1 t2 f l b f' l' C H Ag. destruct (M t1 f l) as [a f1 l1| | | |] eqn:E; try discriminate H.
    destruct (rg_done _ (RK a) _ _ _ _ _ _ H) as (_ & y & ->).
    rewrite (rg_same _ RM _ _ _ _ _ _ _ C E) by (eapply agree_prefix; exact Ag). apply (rg_same _ (RK a) _ _ _ _ _ _ _ C H Ag).
  - intros t1 f l f' l' H. destruct (M t1 f l) as [a f1 l1|f1 l1| | |] eqn:E; try discriminate H.
    + destruct (rg_done _ RM _ _ _ _ _ _ E) as (G & x & Ex).
      destruct (rg_thrown _ (RK a) _ _ _ _ _ H) as (G2 & p & s & -> & (y & Ey) & N & T2).
      split; [eapply grows_trans; eassumption|]. exists p, s. split; [reflexivity|].
      split; [exists (x ++ y); rewrite Ey, Ex, app_assoc; reflexivity|]. split; [exact N|].
      intros t2 C Ag. rewrite (rg_same _ RM _ _ _ _ _ _ _ C E) by (rewrite Ey in Ag; eapply agree_prefix; exact Ag). apply (T2 t2 C Ag).
    + injection H as <- <-. destruct (rg_thrown _ RM _ _ _ _ _ E) as (G & p & s & -> & X & N & T2).
      split; [exact G|]. exists p, s. split; [reflexivity|]. split; [exact X|]. split; [exact N|].
      intros t2 C Ag. destruct (T2 t2 C Ag) as (Ta & Tb). split.
      * intros N2. rewrite (Ta N2). reflexivity.
      * intros b f2 l2 H. destruct (M t2 f l) as [a g1 k1| | | |] eqn:E2; try discriminate H.
        destruct (Tb _ _ _ eq_refl) as (G3 & y & ->). destruct (rg_done _ (RK a) _ _ _ _ _ _ H) as (G4 & z & ->).
        split; [eapply grows_trans; eassumption|]. exists (y ++ z). symmetry. apply app_assoc.
Qed.

Ltac regular := repeat
  match goal with
  | |- regular (fun _ => cret _) => apply regular_ret
  | |- regular (fun t => get_text t _ _) => apply regular_get
  | |- regular (fun t => cbind (@?M t) (@?K t)) => apply (regular_bind M K); [|intros]
  | |- regular (fun _ => emit _) => apply regular_emit
  end.

Lemma regular_custom : forall s c id, regular (fun t => get_custom t s c id).
Proof. intros s c id. unfold get_custom. destruct (find_text (c_texts c) id); regular. Qed.
Lemma regular_write : forall c id b, regular (fun t => write_custom t c id b).
Proof.
  intros c id b. unfold write_custom. apply (regular_bind (fun t => get_own t c id)); [apply regular_custom|]. intros text. regular.
  destruct (no_text text); [apply skip_grows|]. grow. apply end_line_grows.
Qed.
Lemma regular_usage : forall c b, regular (fun t => write_usage_calls t c b).
Proof.
  intros c b. unfold write_usage_calls. apply (regular_bind (fun t => get_own t c TX_USAGE)); [apply regular_custom|]. intros u.
  assert (R : regular (fun t => ask text1 := write_custom t c TX_USAGE_TITLE b;
      ask prepend := match text1 with
        | None => ask _ := emit (when b new_line ;> write_words DEFAULT_USAGE_TITLE ;> new_line); cret false
        | Some _ => cret (b && no_text text1) end;
      ask text2 := write_custom t c TX_USAGE prepend;
      match text2 with
      | Some _ => cret (negb (no_text text1) || negb (no_text text2))
      | None => ask _ := emit (write_brief_usage c prepend); cret true
      end)).
  { apply (regular_bind (fun t => write_custom t c TX_USAGE_TITLE b)); [apply regular_write|]. intros text1.
    apply (regular_bind (fun t => match text1 with None => _ | Some _ => _ end)).
    - destruct text1; regular. grow.
    - intros prepend. apply (regular_bind (fun t => write_custom t c TX_USAGE prepend)); [apply regular_write|].
      intros [text2|]; regular. apply brief_grows. }
  destruct u as [[|x u]|]; [regular|exact R|exact R].
Qed.
Lemma regular_list_a : forall title l i s, regular (fun t => list_arguments t title i l s).
Proof.
  intros title. induction l as [|a r IH]; intros i s; cbn [list_arguments]; [regular|]. destruct (negb _); [apply IH|].
  apply (regular_bind (fun t => get_text t (S_argument i) (a_help a))); [apply regular_get|]. intros. apply IH.
Qed.
Lemma regular_list_o : forall title l i s, regular (fun t => list_options t title i l s).
Proof.
  intros title. induction l as [|a r IH]; intros i s; cbn [list_options]; [regular|]. destruct (negb _); [apply IH|].
  apply (regular_bind (fun t => get_text t (S_option i) (o_help a))); [apply regular_get|]. intros. apply IH.
Qed.
Lemma regular_list_c : forall title l i s, regular (fun t => list_commands t title i l s).
Proof.
  intros title. induction l as [|a r IH]; intros i s; cbn [list_commands]; [regular|]. destruct (negb _); [apply IH|].
  apply (regular_bind (fun t => get_custom t (S_subcommand i) a TX_HELP)); [apply regular_custom|]. intros. apply IH.
Qed.
Lemma regular_sections : forall c b, regular (fun t => write_sections_calls t c b).
Proof.
  intros c b. unfold write_sections_calls.
  apply (regular_bind (fun t => get_own t c TX_ARGUMENTS_TITLE)); [apply regular_custom|]. intros x1.
  apply (regular_bind (fun t => list_arguments t _ 0 (c_arguments c) [])); [apply regular_list_a|]. intros s1.
  apply (regular_bind (fun t => get_own t c TX_SUBCOMMANDS_TITLE)); [apply regular_custom|]. intros x2.
  apply (regular_bind (fun t => list_commands t _ 0 (c_commands c) s1)); [apply regular_list_c|]. intros s2.
  apply (regular_bind (fun t => get_own t c TX_OPTIONS_TITLE)); [apply regular_custom|]. intros x3.
  apply (regular_bind (fun t => list_options t _ 0 (c_options c) s2)); [apply regular_list_o|]. intros s3.
  apply regular_emit. destruct (is_empty s3); [apply skip_grows|]. intros f f' E. apply (sections_grows _ _ _ _ _ E).
Qed.
