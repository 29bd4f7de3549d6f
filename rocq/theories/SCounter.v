(** Specification used by PCounter.v. Independent of the functions of the model. *)
From Verif Require Import Base MData.

Definition sum (l : list N) : N := fold_right N.add 0%N l.
Definition minima (args : list arg_data) : N := sum (map a_min args).
Definition maxima (args : list arg_data) : N := sum (map a_max args).

(** Argument definitions as the library lets one make them. *)
Definition proper (args : list arg_data) : Prop :=
  forall a, In a args -> (a_min a <= a_max a /\ 1 <= a_max a)%N.

(** [ks] says how many values each definition gets: all of [n], each within its
    limits, and more than the minimum only if all earlier definitions have their
    maximum. *)
Definition fair (args : list arg_data) (n : N) (ks : list N) : Prop :=
  length ks = length args /\ sum ks = n /\
  (forall i a k, nth_error args i = Some a -> nth_error ks i = Some k ->
     (a_min a <= k <= a_max a)%N) /\
  (forall i j a b k m, i < j ->
     nth_error args i = Some a -> nth_error ks i = Some k ->
     nth_error args j = Some b -> nth_error ks j = Some m ->
     (a_min b < m)%N -> k = a_max a).

(** The definitions in the order in which they receive values, if each definition
    of the list gets the number of values in front of it. *)
Definition order (l : list (N * arg_data)) : list arg_data :=
  flat_map (fun p => repeat (snd p) (N.to_nat (fst p))) l.

(** All definitions before the last one have a fixed number of values. *)
Definition predictable (args : list arg_data) : Prop :=
  forall front final, args = front ++ [final] ->
    forall a, In a front -> a_min a = a_max a.
