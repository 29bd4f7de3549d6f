(** Properties of integer conversion: C21-C23. The specification of the text of an
    integer, [integer_text], is in SValues.v. *)
From Verif Require Import Base MParseInt MData MValues SValues IntProofs.

(** C21. A signed conversion returns [n] exactly if the whole value is the text
    of [n] and [n] is in the range of the type. *)
Theorem C21_as_int : forall s default base n,
  as_int (Some s) default base = Val n <->
  exists neg m, integer_text base s neg m /\ n = signed neg m /\
    (- 2 ^ 31 <= n < 2 ^ 31)%Z.
Proof. exact as_int_proof. Qed.
Print Assumptions C21_as_int.

Theorem C21_as_long : forall s default base n,
  as_long (Some s) default base = Val n <->
  exists neg m, integer_text base s neg m /\ n = signed neg m /\
    (- 2 ^ 63 <= n < 2 ^ 63)%Z.
Proof. exact as_long_proof. Qed.
Print Assumptions C21_as_long.

Theorem C21_as_llong : forall s default base n,
  as_llong (Some s) default base = Val n <->
  exists neg m, integer_text base s neg m /\ n = signed neg m /\
    (- 2 ^ 63 <= n < 2 ^ 63)%Z.
Proof. exact as_long_proof. Qed.
Print Assumptions C21_as_llong.

(** Everything else is reported as an error; only a missing value gives the
    default. *)
Theorem C21_default_or_error : forall default base,
  as_int None default base = Val default /\
  forall s, (exists n, as_int (Some s) default base = Val n) \/
            as_int (Some s) default base = Exn EParseError.
Proof. exact as_int_total_proof. Qed.
Print Assumptions C21_default_or_error.

(** The text determines the number. *)
Theorem C21_text_unique : forall base s neg n neg' n',
  integer_text base s neg n -> integer_text base s neg' n' -> neg = neg' /\ n = n'.
Proof. exact integer_text_unique. Qed.
Print Assumptions C21_text_unique.

(** A list of values is converted one by one. *)
Theorem C21_as_ints : forall vs default base ns, vs <> [] ->
  (get_integers parse_int vs default base = Val ns <->
   Forall2 (fun s n => exists neg m, integer_text base s neg m /\ n = signed neg m /\
              (- 2 ^ 31 <= n < 2 ^ 31)%Z) vs ns).
Proof. exact as_ints_proof. Qed.
Print Assumptions C21_as_ints.

Example C21_example :
  as_int (Some ($" -0x7F")) 0 0 = Val (-127)%Z /\
  as_int (Some ($"2147483648")) 0 10 = Exn EParseError /\
  as_int (Some ($"-2147483648")) 0 10 = Val (-2147483648)%Z /\
  as_int (Some ($"12 ")) 0 10 = Exn EParseError /\
  as_int (Some ($"017")) 0 0 = Val 15%Z /\
  as_int (Some ($"-zZ")) 0 36 = Val (-1295)%Z /\
  as_int (Some []) 5 10 = Exn EParseError /\
  as_long (Some ($"9223372036854775808")) 0 10 = Exn EParseError /\
  integer_text 0 ($" -0x7F") true 127.
Proof.
  do 8 (split; [reflexivity|]). apply scan_spec. reflexivity.
Qed.

(** C22. Unsigned conversions. A minus sign is accepted: the number is then
    negated modulo 2^64, before the range of the type is checked. *)
Theorem C22_as_ulong : forall s default base n,
  as_ulong (Some s) default base = Val n <->
  exists neg m, integer_text base s neg m /\ (Z.of_N m < 2 ^ 64)%Z /\
    n = (signed neg m mod 2 ^ 64)%Z.
Proof. exact as_ulong_proof. Qed.
Print Assumptions C22_as_ulong.

Theorem C22_as_ullong : forall s default base n,
  as_ullong (Some s) default base = Val n <->
  exists neg m, integer_text base s neg m /\ (Z.of_N m < 2 ^ 64)%Z /\
    n = (signed neg m mod 2 ^ 64)%Z.
Proof. exact as_ulong_proof. Qed.
Print Assumptions C22_as_ullong.

Theorem C22_as_uint : forall s default base n,
  as_uint (Some s) default base = Val n <->
  exists neg m, integer_text base s neg m /\ (Z.of_N m < 2 ^ 64)%Z /\
    n = (signed neg m mod 2 ^ 64)%Z /\ (n < 2 ^ 32)%Z.
Proof. exact as_uint_proof. Qed.
Print Assumptions C22_as_uint.

(** For text without a minus sign the conversion is exact. *)
Theorem C22_non_negative : forall s default base m n, integer_text base s false m ->
  (as_uint (Some s) default base = Val n <-> n = Z.of_N m /\ (n < 2 ^ 32)%Z) /\
  (as_ulong (Some s) default base = Val n <-> n = Z.of_N m /\ (n < 2 ^ 64)%Z).
Proof. exact as_uint_non_negative_proof. Qed.
Print Assumptions C22_non_negative.

(** No result is outside the type. *)
Theorem C22_range : forall s default base n,
  (as_uint (Some s) default base = Val n -> (0 <= n < 2 ^ 32)%Z) /\
  (as_ulong (Some s) default base = Val n -> (0 <= n < 2 ^ 64)%Z).
Proof. exact as_uint_range_proof. Qed.
Print Assumptions C22_range.

(** A negative number is not rejected, not even by [as_uint]. *)
Theorem C22_negative_refuted : exists s1 s2 n1 n2,
  integer_text 10 s1 true 1 /\ as_ulong (Some s1) 0 10 = Val n1 /\
  integer_text 10 s2 true 18446744073709551615 /\ as_uint (Some s2) 0 10 = Val n2 /\
  n1 = (2 ^ 64 - 1)%Z /\ n2 = 1%Z.
Proof. exact negative_refuted_proof. Qed.
Print Assumptions C22_negative_refuted.

Example C22_example :
  as_uint (Some ($"4294967295")) 0 10 = Val 4294967295%Z /\
  as_uint (Some ($"4294967296")) 0 10 = Exn EParseError /\
  as_uint (Some ($"-1")) 0 10 = Exn EParseError /\
  as_ulong (Some ($"0xffffffffffffffff")) 0 16 = Val 18446744073709551615%Z /\
  as_ulong (Some ($"18446744073709551616")) 0 10 = Exn EParseError /\
  integer_text 16 ($"0xffffffffffffffff") false 18446744073709551615.
Proof. do 5 (split; [reflexivity|]). apply scan_spec. reflexivity. Qed.

(** C23. Decimal text made by std::to_string is read back, in base 10 and when
    the base is found out from the text. *)
Theorem C23_round_trip : forall n base, base = 0%Z \/ base = 10%Z ->
  ((- 2 ^ 31 <= n < 2 ^ 31)%Z -> forall d, as_int (Some (Z_to_string n)) d base = Val n) /\
  ((- 2 ^ 63 <= n < 2 ^ 63)%Z -> forall d, as_llong (Some (Z_to_string n)) d base = Val n) /\
  ((0 <= n < 2 ^ 32)%Z -> forall d, as_uint (Some (Z_to_string n)) d base = Val n) /\
  ((0 <= n < 2 ^ 64)%Z -> forall d, as_ullong (Some (Z_to_string n)) d base = Val n).
Proof. exact round_trip_proof. Qed.
Print Assumptions C23_round_trip.

Example C23_example :
  Z_to_string (-9223372036854775808) = $"-9223372036854775808" /\
  as_llong (Some (Z_to_string (-9223372036854775808))) 0 10 = Val (-9223372036854775808)%Z /\
  Z_to_string 0 = $"0" /\ Z_to_string 1050 = $"1050".
Proof. vm_compute. repeat split; reflexivity. Qed.
