(** Lemmas about Base.v. *)
From Verif Require Import Base.

Lemma str_eqb_spec : forall a b, reflect (a = b) (str_eqb a b).
Proof.
  induction a as [|x a IH]; destruct b as [|y b]; simpl; try (constructor; congruence).
  destruct (Ascii.eqb_spec x y) as [->|H]; simpl.
  - destruct (IH b) as [->|H]; constructor; congruence.
  - constructor; congruence.
Qed.

Lemma str_eqb_refl : forall a, str_eqb a a = true.
Proof. intros a. destruct (str_eqb_spec a a); congruence. Qed.

Lemma str_eqb_eq : forall a b, str_eqb a b = true <-> a = b.
Proof. intros a b. destruct (str_eqb_spec a b); split; congruence. Qed.

Lemma str_eqb_neq : forall a b, str_eqb a b = false <-> a <> b.
Proof. intros a b. destruct (str_eqb_spec a b); split; congruence. Qed.

Lemma str_eqb_sym : forall a b, str_eqb a b = str_eqb b a.
Proof.
  intros a b. destruct (str_eqb_spec a b), (str_eqb_spec b a); congruence.
Qed.

Lemma str_eq_dec : forall a b : str, {a = b} + {a <> b}.
Proof. intros a b. destruct (str_eqb a b) eqn:E; [left; apply str_eqb_eq|right; apply str_eqb_neq]; exact E. Defined.

Lemma is_empty_true : forall {A} (l : list A), is_empty l = true <-> l = [].
Proof. intros A [|]; simpl; split; congruence. Qed.

Lemma is_empty_false : forall {A} (l : list A), is_empty l = false <-> l <> [].
Proof. intros A [|]; simpl; split; congruence. Qed.

(** [find_char] finds the first occurrence. *)
Lemma find_char_some : forall c s p, find_char c s = Some p ->
  s = firstn p s ++ c :: skipn (S p) s /\ ~ In c (firstn p s) /\ p < length s.
Proof.
  induction s as [|x s IH]; simpl; intros p H; [discriminate|].
  destruct (Ascii.eqb_spec x c) as [->|Hn].
  - inversion H; subst; simpl. repeat split; auto; lia.
  - destruct (find_char c s) as [q|]; [|discriminate]. inversion H; subst.
    destruct (IH q eq_refl) as (E & N & L). simpl. repeat split.
    + f_equal. exact E.
    + intros [?|?]; congruence || auto.
    + lia.
Qed.

Lemma find_char_none : forall c s, find_char c s = None <-> ~ In c s.
Proof.
  intros c s. split.
  - induction s as [|x s IH]; simpl; [tauto|].
    destruct (Ascii.eqb_spec x c) as [->|Hn]; [discriminate|].
    destruct (find_char c s); simpl; [discriminate|].
    intros _ [?|?]; [congruence|]. apply IH; auto.
  - induction s as [|x s IH]; simpl; [tauto|].
    intros H. destruct (Ascii.eqb_spec x c) as [->|Hn]; [tauto|].
    rewrite IH; tauto.
Qed.

Lemma find_char_app : forall c p q, ~ In c p -> find_char c (p ++ c :: q) = Some (length p).
Proof.
  induction p as [|x p IH]; simpl; intros q H.
  - rewrite Ascii.eqb_refl. reflexivity.
  - destruct (Ascii.eqb_spec x c) as [->|Hn]; [tauto|]. rewrite IH; tauto.
Qed.

Lemma nth_error_skipn_cons : forall {A} (l : list A) k x,
  nth_error l k = Some x -> skipn k l = x :: skipn (S k) l.
Proof.
  induction l as [|y l IH]; intros [|k] x H; simpl in *; try discriminate.
  - congruence.
  - apply IH. exact H.
Qed.

Lemma nth_error_firstn : forall {A} (l : list A) n k,
  k < n -> nth_error (firstn n l) k = nth_error l k.
Proof.
  induction l as [|y l IH]; intros [|n] [|k] H; simpl; try lia; auto.
  apply IH. lia.
Qed.

Lemma last_char_app : forall s c, last_char (s ++ [c]) = Some c.
Proof.
  induction s as [|x s IH]; intros c; [reflexivity|].
  simpl. rewrite IH. destruct (s ++ [c]) eqn:E; [|reflexivity].
  destruct s; discriminate.
Qed.

Lemma last_char_some : forall s c, last_char s = Some c ->
  s = firstn (length s - 1) s ++ [c].
Proof.
  intros s c H. destruct (rev s) as [|x r] eqn:E.
  - assert (s = []) by (rewrite <- (rev_involutive s), E; reflexivity).
    subst. discriminate.
  - assert (Es : s = rev r ++ [x]).
    { rewrite <- (rev_involutive s), E. reflexivity. }
    rewrite Es in *. rewrite last_char_app in H. inversion H; subst.
    rewrite app_length. simpl. replace (length (rev r) + 1 - 1) with (length (rev r)) by lia.
    rewrite firstn_app, Nat.sub_diag, firstn_all. simpl. rewrite app_nil_r. reflexivity.
Qed.

Lemma existsb_eqb_in : forall c set, existsb (Ascii.eqb c) set = true <-> In c set.
Proof.
  intros. rewrite existsb_exists. split.
  - intros (x & H & E). apply Ascii.eqb_eq in E. congruence.
  - intros H. exists c. split; [exact H|]. apply Ascii.eqb_refl.
Qed.

Lemma find_first_of_none : forall set s,
  find_first_of set s = None <-> (forall c, In c s -> ~ In c set).
Proof.
  induction s as [|x s IH]; simpl.
  - split; [intros _ c []|reflexivity].
  - destruct (existsb (Ascii.eqb x) set) eqn:E.
    + apply existsb_eqb_in in E. split; [discriminate|].
      intros H. exfalso. apply (H x); auto.
    + assert (~ In x set).
      { intros Hi. apply existsb_eqb_in in Hi. congruence. }
      destruct (find_first_of set s) as [n|] eqn:F; simpl.
      * split; [discriminate|]. intros H1. exfalso.
        assert (X : Some n = None).
        { apply IH. intros c Hc. apply H1. auto. }
        discriminate X.
      * split; [|reflexivity]. intros _ c [->|Hc]; [assumption|].
        apply IH; auto.
Qed.
