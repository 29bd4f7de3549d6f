(** Specification of text formatting (C47-C49, C51), independent of the model. *)
From Verif Require Import Base SStrings.

(** ** Width *)

(** The number of columns that a text takes: its number of code points, where an
    incomplete code point at the end is one and text that is not UTF-8 is counted in
    bytes. *)
Definition columns (s : str) (n : nat) : Prop :=
  utf8_text s n \/
  (exists a t k, s = a ++ t /\ utf8_text a k /\ truncated_char t /\ n = S k) \/
  ((~ exists k, utf8_text s k) /\
   (~ exists a t k, s = a ++ t /\ utf8_text a k /\ truncated_char t) /\ n = length s).

(** The part of a text from one position to another. *)
Definition between (s : str) (i j : nat) : str := firstn (j - i) (skipn i s).

(** The position [i] is not inside of a code point. *)
Definition at_boundary (s : str) (i : nat) : Prop :=
  i <= length s /\ forall n, utf8_text s n -> exists k, utf8_text (firstn i s) k.

(** ** Rules for splitting words *)

Definition utf8_rules (rules : list str) : Prop := forall r, In r rules -> exists n, utf8_text r n.

Definition without_spaces (s : str) : str := filter (fun c => negb (Ascii.eqb c c_space)) s.

Definition is_punctuation (c : ascii) : Prop := In c ($".,;:!?()[]{}<>""'`").

(** [b] is the word without the punctuation at its end. *)
Definition bare_word (word b : str) : Prop :=
  exists p, word = b ++ p /\ Forall is_punctuation p /\
    (b = [] \/ exists b' c, b = b' ++ [c] /\ ~ is_punctuation c).

(** The rule is for the word, and no rule before it is. *)
Definition rule_for (rule word : str) : Prop :=
  exists b, bare_word word b /\ lower b = lower (without_spaces rule).

Definition first_rule (rules : list str) (word rule : str) : Prop :=
  exists l1 l2, rules = l1 ++ rule :: l2 /\ rule_for rule word /\
    forall r, In r l1 -> ~ rule_for r word.

(** The rule lets a word be broken after its first [i] bytes, with or without a hyphen. *)
Definition rule_break (rule : str) (i : nat) (hyphen : option ascii) : Prop :=
  (exists a b, rule = a ++ c_space :: b /\ i = length (without_spaces a) /\
     hyphen = (if match last_char a with Some c => Ascii.eqb c c_dash | None => false end
               then None else Some c_dash)) \/
  (i = length (without_spaces rule) /\ hyphen = None).

(** A rule with a space at the start or two spaces in a row. *)
Definition bad_rule (rule : str) : Prop :=
  (exists b, rule = c_space :: b) \/ exists a b, rule = a ++ c_space :: c_space :: b.

(** The text and a possible hyphen fit. *)
Definition fits (s : str) (hyphen : option ascii) (n : nat) : Prop :=
  exists k, columns s k /\ k + (match hyphen with Some _ => 1 | None => 0 end) <= n.

(** ** Splitting a word for which there is no rule *)

Definition is_digit (c : ascii) : Prop := 48 <= nat_of_ascii c <= 57.
Definition is_letter (c : ascii) : Prop := 65 <= nat_of_ascii c <= 90 \/ 97 <= nat_of_ascii c <= 122.
Definition letter_or_digit (c : ascii) : Prop := is_letter c \/ is_digit c.

(** A good place to break a word after its first [i] bytes: between a letter or digit
    and another ASCII character, without a hyphen, or between a letter and a digit, with
    a hyphen. *)
Definition good_place (s : str) (i : nat) (hyphen : option ascii) : Prop :=
  exists x a b y, s = x ++ a :: b :: y /\ length x + 1 = i /\
    nat_of_ascii a < 127 /\ nat_of_ascii b < 127 /\
    ((hyphen = None /\ ~ (letter_or_digit a <-> letter_or_digit b)) \/
     (hyphen = Some c_dash /\ letter_or_digit a /\ letter_or_digit b /\ ~ (is_digit a <-> is_digit b))).
