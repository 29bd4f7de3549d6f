(** Model of the integer part of src/Argos/ParseValue.cpp, of the C library's
    strtol/strtoll/strtoul/strtoull (C11 7.22.1.4, glibc, "C" locale, LP64) and
    of std::to_string. No proofs in this file.

    Not modelled: the "0b" prefix that glibc 2.38 accepts in C23 mode. *)
From Verif Require Import Base.

(** [isspace] in the "C" locale. *)
Definition is_space (c : ascii) : bool :=
  let u := u8 c in ((u =? 32) || ((9 <=? u) && (u <=? 13)))%N.

(** The value of [c] as a digit of a base up to 36. *)
Definition digit_of (c : ascii) : option N :=
  let u := u8 c in
  if ((48 <=? u) && (u <=? 57))%N then Some (u - 48)%N
  else if ((97 <=? u) && (u <=? 122))%N then Some (u - 87)%N
  else if ((65 <=? u) && (u <=? 90))%N then Some (u - 55)%N
  else None.

Fixpoint skip_spaces (s : str) : str :=
  match s with
  | c :: r => if is_space c then skip_spaces r else s
  | [] => []
  end.

(** Reads digits of [base]; returns the value, whether there was any digit, and
    the rest. *)
Fixpoint read_digits (base : N) (acc : N) (any : bool) (s : str)
  : N * bool * str :=
  match s with
  | [] => (acc, any, [])
  | c :: r =>
      match digit_of c with
      | Some d => if (d <? base)%N
                  then read_digits base (acc * base + d)%N true r
                  else (acc, any, s)
      | None => (acc, any, s)
      end
  end.

(** Optional sign. *)
Definition read_sign (s : str) : bool * str :=
  match s with
  | c :: r => if Ascii.eqb c "-"%char then (true, r)
              else if Ascii.eqb c "+"%char then (false, r)
              else (false, s)
  | [] => (false, [])
  end.

(** "0x" or "0X" followed by a hexadecimal digit. *)
Definition has_hex_prefix (s : str) : bool :=
  match s with
  | z :: x :: h :: _ =>
      Ascii.eqb z "0"%char
      && (Ascii.eqb x "x"%char || Ascii.eqb x "X"%char)
      && match digit_of h with Some d => (d <? 16)%N | None => false end
  | _ => false
  end.

Definition starts_with_zero (s : str) : bool :=
  match s with c :: _ => Ascii.eqb c "0"%char | [] => false end.

(** The base actually used and the subject sequence without "0x". *)
Definition read_base (base : Z) (s : str) : N * str :=
  if ((base =? 0) || (base =? 16))%Z && has_hex_prefix s then (16%N, skipn 2 s)
  else if (base =? 0)%Z then ((if starts_with_zero s then 8 else 10)%N, s)
  else (Z.to_N base, s).

(** What strto* finds: sign, magnitude and the unread rest. [None]: no
    conversion is done ([*endp] is the start of the string) or the base is
    invalid (errno is EINVAL). *)
Definition scan_integer (s : str) (base : Z) : option (bool * N * str) :=
  if ((base <? 0) || (base =? 1) || (36 <? base))%Z then None
  else
    let (neg, s1) := read_sign (skip_spaces s) in
    let (b, s2) := read_base base s1 in
    let '(n, any, rest) := read_digits b 0 false s2 in
    if any then Some (neg, n, rest) else None.

(** strtol/strtoll: value and end pointer; the flag tells whether errno is 0.
    Out of range: ERANGE. *)
Definition LONG_MAX : Z := 9223372036854775807.
Definition LONG_MIN : Z := -9223372036854775808.
Definition ULONG_MAX : Z := 18446744073709551615.
Definition INT_MAX : Z := 2147483647.
Definition INT_MIN : Z := -2147483648.
Definition UINT_MAX : Z := 4294967295.

Definition strtol (s : str) (base : Z) : option (Z * bool * str) :=
  match scan_integer s base with
  | None => None
  | Some (neg, n, rest) =>
      let v := if neg then (- Z.of_N n)%Z else Z.of_N n in
      if (v <? LONG_MIN)%Z then Some (LONG_MIN, false, rest)
      else if (LONG_MAX <? v)%Z then Some (LONG_MAX, false, rest)
      else Some (v, true, rest)
  end.

(** strtoul/strtoull: a magnitude that does not fit is ERANGE; a minus sign
    negates the result in the unsigned type. *)
Definition strtoul (s : str) (base : Z) : option (Z * bool * str) :=
  match scan_integer s base with
  | None => None
  | Some (neg, n, rest) =>
      if (ULONG_MAX <? Z.of_N n)%Z then Some (ULONG_MAX, false, rest)
      else Some ((if neg then (- Z.of_N n) mod (ULONG_MAX + 1) else Z.of_N n)%Z,
                 true, rest)
  end.

(** ParseValue.cpp 49-60, [parse_integer_impl], over one of the two functions
    above. With no conversion [endp] is the start of a non-empty string (or null
    for an invalid base, with errno set), hence no result. The C functions stop
    at a NUL byte; here a NUL is a byte that is not part of a number, and it is
    in both cases left unread, so [endp] is not the end of the string. *)
Definition parse_integer_impl (f : str -> Z -> option (Z * bool * str))
  (s : str) (base : Z) : option Z :=
  if is_empty s then None
  else match f s base with
       | Some (v, true, []) => Some v
       | _ => None
       end.

(** ParseValue.cpp 63-76, [parse_integer<int>]. *)
Definition parse_int (s : str) (base : Z) : option Z :=
  match parse_integer_impl strtol s base with
  | None => None
  | Some n => if ((n <? INT_MIN) || (INT_MAX <? n))%Z then None else Some n
  end.

(** ParseValue.cpp 78-92, [parse_integer<unsigned>]. *)
Definition parse_uint (s : str) (base : Z) : option Z :=
  match parse_integer_impl strtoul s base with
  | None => None
  | Some n => if (UINT_MAX <? n)%Z then None else Some n
  end.

(** ParseValue.cpp 94-105, [parse_integer<long>] and [<long long>]. *)
Definition parse_long (s : str) (base : Z) : option Z :=
  parse_integer_impl strtol s base.

(** ParseValue.cpp 107-119, [parse_integer<unsigned long>] and
    [<unsigned long long>]. *)
Definition parse_ulong (s : str) (base : Z) : option Z :=
  parse_integer_impl strtoul s base.

(** std::to_string for naturals, with fuel for the number of digits. *)
Definition digit_char (d : N) : ascii := ascii_of_N (48 + d).

Fixpoint to_digits (fuel : nat) (n : N) (acc : str) : str :=
  match fuel with
  | O => acc
  | S f =>
      let acc' := digit_char (n mod 10) :: acc in
      if (n <? 10)%N then acc' else to_digits f (n / 10) acc'
  end.

(** The number of binary digits bounds the number of decimal digits. *)
Definition N_to_string (n : N) : str := to_digits (S (N.to_nat (N.size n))) n [].

(** std::to_string(long long), used by Option.cpp 162-172. *)
Definition Z_to_string (z : Z) : str :=
  if (z <? 0)%Z then c_dash :: N_to_string (Z.to_N (- z))
  else N_to_string (Z.to_N z).
