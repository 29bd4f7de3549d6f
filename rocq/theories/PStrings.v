(** Properties of the string utilities: C44-C46. The specification is in
    SStrings.v. *)
From Verif Require Import Base MStrings SStrings StrProofs.

(** C44. The base name is what follows the last slash or backslash. *)
Theorem C44_base_name_after_separator : forall d x b, separator x ->
  (forall c, In c b -> ~ separator c) -> get_base_name (d ++ x :: b) = b.
Proof. exact base_name_after_sep. Qed.
Print Assumptions C44_base_name_after_separator.

Theorem C44_base_name_without_separator : forall s,
  (forall c, In c s -> ~ separator c) -> get_base_name s = s.
Proof. exact base_name_no_sep. Qed.
Print Assumptions C44_base_name_without_separator.

(** The two cases cover all strings. *)
Theorem C44_base_name_cases : forall s,
  (forall c, In c s -> ~ separator c) \/
  exists d x b, s = d ++ x :: b /\ separator x /\ (forall c, In c b -> ~ separator c).
Proof. exact base_name_total. Qed.
Print Assumptions C44_base_name_cases.

Example C44_example :
  get_base_name ($"/usr\bin/prog.x") = $"prog.x" /\ get_base_name ($"/usr/") = [] /\
  get_base_name ($"prog") = $"prog".
Proof. vm_compute. auto. Qed.

(** C45. Equality without regard to case is equality after mapping A-Z to a-z
    (which preserves the length). *)
Theorem C45_equal_ci : forall a b,
  are_equal_ci a b = true <-> length a = length b /\ lower a = lower b.
Proof. exact equal_ci_proof. Qed.
Print Assumptions C45_equal_ci.

Theorem C45_equal_ci_equivalence :
  (forall a, are_equal_ci a a = true) /\
  (forall a b, are_equal_ci a b = are_equal_ci b a) /\
  (forall a b c, are_equal_ci a b = true -> are_equal_ci b c = true ->
     are_equal_ci a c = true).
Proof. exact equal_ci_equivalence_proof. Qed.
Print Assumptions C45_equal_ci_equivalence.

(** The order in which flags are sorted without regard to case puts neither of two
    texts before the other iff they are equal without regard to case, for all bytes
    but the backquote. *)
Theorem C45_order_ci : forall a b, ~ In "096"%char a -> ~ In "096"%char b ->
  (is_less_ci a b = false /\ is_less_ci b a = false <-> lower a = lower b).
Proof. exact order_ci_proof. Qed.
Print Assumptions C45_order_ci.

(** The backquote is the exception: it is placed neither before nor after 'A'. *)
Theorem C45_order_ci_refuted : exists a b,
  is_less_ci a b = false /\ is_less_ci b a = false /\ lower a <> lower b.
Proof. exists ($"`"), ($"A"). vm_compute. intuition discriminate. Qed.
Print Assumptions C45_order_ci_refuted.

(** Over the safe alphabet it is the order of a dictionary, without regard to case. *)
Theorem C45_order_safe : forall a b, safe a -> safe b ->
  (is_less_ci a b = true <-> precedes (lower a) (lower b)).
Proof. exact less_ci_precedes. Qed.
Print Assumptions C45_order_safe.

(** In general it is no order: "_" is placed before "z" and "z" before "_". *)
Theorem C45_asymmetric_refuted : exists a b, is_less_ci a b = true /\ is_less_ci b a = true.
Proof. exists ($"_"), ($"z"). vm_compute. auto. Qed.
Print Assumptions C45_asymmetric_refuted.

Example C45_example :
  are_equal_ci ($"--File[") ($"--fILE[") = true /\
  are_equal_ci ($"--@") ($"--`") = false /\ are_equal_ci ($"[") ($"{") = false /\
  is_less_ci ($"--b") ($"--C") = true /\ is_less_ci ($"--[") ($"--{") = true /\
  safe ($"--b") /\ safe ($"--C").
Proof.
  do 5 (split; [reflexivity|]). split; intros c H; repeat (destruct H as [<-|H]; [reflexivity|]); destruct H.
Qed.

(** C46. The width of UTF-8 text is its number of code points. *)
Theorem C46_count_text : forall s n, utf8_text s n -> count_code_points s = n.
Proof. exact count_text_proof. Qed.
Print Assumptions C46_count_text.

(** If the last code point has been cut off it is counted as well. *)
Theorem C46_count_truncated : forall s n t, utf8_text s n -> truncated_char t ->
  count_code_points (s ++ t) = S n.
Proof. exact count_truncated_proof. Qed.
Print Assumptions C46_count_truncated.

(** For all other byte strings the width is the number of bytes. *)
Theorem C46_count_malformed : forall s,
  (forall n, ~ utf8_text s n) ->
  (forall p n t, utf8_text p n -> truncated_char t -> s <> p ++ t) ->
  count_code_points s = length s.
Proof. exact count_malformed_proof. Qed.
Print Assumptions C46_count_malformed.

Theorem C46_count_le_length : forall s, count_code_points s <= length s.
Proof. exact count_le_length_proof. Qed.
Print Assumptions C46_count_le_length.

(** The position of the n-th code point is where the first n code points end. *)
Theorem C46_find_nth : forall cs n, Forall utf8_char cs ->
  find_nth_code_point (concat cs) n =
  if n <? length cs then Some (length (concat (firstn n cs))) else None.
Proof. exact find_nth_proof. Qed.
Print Assumptions C46_find_nth.

(** For all byte strings the position is inside the string. *)
Theorem C46_find_nth_range : forall s n p,
  find_nth_code_point s n = Some p -> p < length s.
Proof. exact find_nth_range_proof. Qed.
Print Assumptions C46_find_nth_range.

Definition ex_utf8 : list str :=
  [$"a"; [ascii_of_nat 195; ascii_of_nat 184];
   [ascii_of_nat 226; ascii_of_nat 130; ascii_of_nat 172]].

Example C46_example :
  Forall utf8_char ex_utf8 /\ count_code_points (concat ex_utf8) = 3 /\
  find_nth_code_point (concat ex_utf8) 2 = Some 3 /\
  count_code_points [ascii_of_nat 195; "a"%char; "b"%char] = 3.
Proof.
  split; [|vm_compute; auto].
  assert (B : forall lo hi c, ((lo <=? nat_of_ascii c) && (nat_of_ascii c <=? hi) = true) ->
            byte_between lo hi c).
  { intros lo hi c H. apply andb_prop in H. destruct H as (H1 & H2).
    apply Nat.leb_le in H1, H2. split; assumption. }
  repeat constructor; try (apply B; vm_compute; reflexivity).
Qed.
