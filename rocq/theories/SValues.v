(** Specification used by PValues.v and PInt.v. Independent of the functions of
    the model. *)
From Verif Require Import Base MData.

(* ------------------------------------------------------------------------ *)
(** ** Stored values *)

(** What is done to the values: [assign], [append] and [clear] of a value id. The
    last component is the id of the argument or option that stored the text. *)
Inductive change :=
| Assigned (id : N) (text : str) (by_id : N)
| Appended (id : N) (text : str) (by_id : N)
| Cleared (id : N).

(** The effect of one change on the values of [id]. *)
Definition effect (id : N) (vs : list (str * N)) (c : change) : list (str * N) :=
  match c with
  | Assigned i t b => if (i =? id)%N then [(t, b)] else vs
  | Appended i t b => if (i =? id)%N then vs ++ [(t, b)] else vs
  | Cleared i => if (i =? id)%N then [] else vs
  end.

(** The values of [id] after a history of changes. *)
Definition history (cs : list change) (id : N) : list (str * N) :=
  fold_left (effect id) cs [].

(** [name] can be used to look up value [vid] of command [c]. *)
Inductive carries (c : cmd_data) (name : str) (vid : N) : Prop :=
| carries_argument a : In a (c_arguments c) -> a_value_id a = vid ->
    name = a_name a \/ (a_alias a <> [] /\ name = a_alias a) -> carries c name vid
| carries_option o : In o (c_options c) -> o_value_id o = vid ->
    o_operation o <> OP_NONE ->
    In name (o_flags o) \/ (o_alias o <> [] /\ name = o_alias o) ->
    carries c name vid.

(* ------------------------------------------------------------------------ *)
(** ** Splitting *)

(** The parts with [sep] between them. *)
Fixpoint join (sep : ascii) (parts : list str) : str :=
  match parts with
  | [] => []
  | [p] => p
  | p :: r => p ++ sep :: join sep r
  end.

Definition occurrences (sep : ascii) (s : str) : N :=
  N.of_nat (count_occ Ascii.ascii_dec s sep).

(** [parts] is a correct way to split [s] in at most [limit] parts (any number if
    [limit] is 0). *)
Definition split_in (sep : ascii) (limit : N) (s : str) (parts : list str) : Prop :=
  exists front final,
    parts = front ++ [final] /\
    join sep parts = s /\
    (forall p, In p front -> ~ In sep p) /\
    (In sep final -> limit <> 0%N /\ N.of_nat (length parts) = limit) /\
    (limit <> 0%N -> (N.of_nat (length parts) <= limit)%N).

(* ------------------------------------------------------------------------ *)
(** ** Filtered arguments *)

Inductive subsequence {A} : list A -> list A -> Prop :=
| sub_nil l : subsequence [] l
| sub_take x k l : subsequence k l -> subsequence (x :: k) (x :: l)
| sub_skip x k l : subsequence k l -> subsequence k (x :: l).

(* ------------------------------------------------------------------------ *)
(** ** Integers *)

(** [c] is a digit with value [d]: by position in the list of digits. *)
Definition digits_lower : str := $"0123456789abcdefghijklmnopqrstuvwxyz".
Definition digits_upper : str := $"0123456789ABCDEFGHIJKLMNOPQRSTUVWXYZ".
Definition is_digit (c : ascii) (d : N) : Prop :=
  nth_error digits_lower (N.to_nat d) = Some c \/
  nth_error digits_upper (N.to_nat d) = Some c.

(** The digits [ds], most significant first, have value [n] in base [b]. *)
Inductive number (b : N) : str -> N -> Prop :=
| number_one c d : is_digit c d -> (d < b)%N -> number b [c] d
| number_more s n c d : number b s n -> is_digit c d -> (d < b)%N ->
    number b (s ++ [c]) (n * b + d).

(** The sign in front of the digits. *)
Inductive sign : str -> bool -> Prop :=
| sign_none : sign [] false
| sign_plus : sign ($"+") false
| sign_minus : sign ($"-") true.

(** Which base applies, depending on the base that was asked for (0: decided by
    the text), a possible prefix, and the digits. *)
Inductive base_of (base : Z) : str -> str -> N -> Prop :=
| base_given ds : (2 <= base <= 36)%Z -> base_of base [] ds (Z.to_N base)
| base_hex x ds : base = 0%Z \/ base = 16%Z -> x = "x"%char \/ x = "X"%char ->
    base_of base ["0"%char; x] ds 16
| base_octal ds : base = 0%Z -> base_of base [] ("0"%char :: ds) 8
| base_decimal c ds : base = 0%Z -> c <> "0"%char -> base_of base [] (c :: ds) 10.

Definition white_space : str :=
  [ascii_of_N 9; ascii_of_N 10; ascii_of_N 11; ascii_of_N 12; ascii_of_N 13; " "%char].

(** The whole of [s] is the text of an integer with the given sign and
    magnitude. *)
Definition integer_text (base : Z) (s : str) (negative : bool) (n : N) : Prop :=
  exists ws sg prefix ds b,
    s = ws ++ sg ++ prefix ++ ds /\ (forall c, In c ws -> In c white_space) /\
    sign sg negative /\ base_of base prefix ds b /\ number b ds n.

Definition signed (negative : bool) (n : N) : Z :=
  if negative then (- Z.of_N n)%Z else Z.of_N n.
