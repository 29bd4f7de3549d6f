(** Specifications about strings (C11, C44-C46), independent of the model. *)
From Verif Require Import Base.

(** An ASCII upper-case letter becomes lower case, other bytes are unchanged. *)
Definition lower_ascii (c : ascii) : ascii :=
  let n := N_of_ascii c in
  if ((65 <=? n) && (n <=? 90))%N then ascii_of_N (n + 32) else c.

Definition lower (s : str) : str := map lower_ascii s.

(** Bytes on which the case-insensitive comparison of Argos is an ordering:
    everything up to '@', the letters, and 0x7B-0x7F. *)
Definition safe_byte (c : ascii) : bool :=
  let n := N_of_ascii c in
  ((n <=? 64) || ((65 <=? n) && (n <=? 90)) || ((97 <=? n) && (n <=? 127)))%N.

Definition safe (s : str) : Prop := forall c, In c s -> safe_byte c = true.

(** The order of words in a dictionary, by the codes of the bytes. *)
Definition precedes (a b : str) : Prop :=
  exists p, (exists y b', a = p /\ b = p ++ y :: b') \/
    exists x y a' b', a = p ++ x :: a' /\ b = p ++ y :: b' /\ nat_of_ascii x < nat_of_ascii y.

(** A UTF-8 sequence: a lead byte and the right number of continuation bytes. *)
Definition byte_between (lo hi : nat) (c : ascii) : Prop :=
  lo <= nat_of_ascii c <= hi.

Inductive utf8_char : str -> Prop :=
| utf8_1 : forall a, byte_between 0 127 a -> utf8_char [a]
| utf8_2 : forall a b, byte_between 192 223 a -> byte_between 128 191 b ->
    utf8_char [a; b]
| utf8_3 : forall a b c, byte_between 224 239 a -> byte_between 128 191 b ->
    byte_between 128 191 c -> utf8_char [a; b; c]
| utf8_4 : forall a b c d, byte_between 240 247 a -> byte_between 128 191 b ->
    byte_between 128 191 c -> byte_between 128 191 d -> utf8_char [a; b; c; d].

(** [utf8_text s n]: [s] is a sequence of [n] code points. *)
Definition utf8_text (s : str) (n : nat) : Prop :=
  exists cs, Forall utf8_char cs /\ s = concat cs /\ n = length cs.

(** [t] is a code point that has been cut off. *)
Definition truncated_char (t : str) : Prop :=
  t <> [] /\ exists u, u <> [] /\ utf8_char (t ++ u).

(** A separator in a path. *)
Definition separator (c : ascii) : Prop := c = "/"%char \/ c = "\"%char.
