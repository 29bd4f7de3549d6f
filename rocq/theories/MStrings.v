(** Model of src/Argos/StringUtilities.cpp. No proofs in this file. *)
From Verif Require Import Base.

(** StringUtilities.cpp 15-24, [are_equal_chars_ci]. *)
Definition are_equal_chars_ci (a b : ascii) : bool :=
  if Ascii.eqb a b then true
  else
    let ua := u8 a in
    let ub := u8 b in
    if negb (N.lxor ua ub =? 32)%N then false
    else ((65 <=? N.land ua 223) && (N.land ua 223 <=? 90))%N.

(** [std::equal(b2, e2, b1, pred)] where the first range is not longer than
    the second: the length comparison has already been made by the caller. *)
Fixpoint equal_range (p : ascii -> ascii -> bool) (a b : str) : bool :=
  match a, b with
  | [], _ => true
  | x :: a', y :: b' => p x y && equal_range p a' b'
  | _ :: _, [] => false
  end.

(** StringUtilities.cpp 26-31, [are_equal_ci]. *)
Definition are_equal_ci (s1 s2 : str) : bool :=
  if negb (length s1 =? length s2) then false
  else equal_range are_equal_chars_ci s2 s1.

(** StringUtilities.cpp 33-39, [are_equal]. *)
Definition are_equal (s1 s2 : str) (case_insensitive : bool) : bool :=
  if case_insensitive then are_equal_ci s1 s2 else str_eqb s1 s2.

(** StringUtilities.cpp 41-46, [starts_with(str, prefix)]. *)
Definition starts_with_cs (s prefix : str) : bool :=
  if length s <? length prefix then false
  else equal_range Ascii.eqb prefix s.

(** StringUtilities.cpp 48-54, [starts_with_ci]. *)
Definition starts_with_ci (s prefix : str) : bool :=
  if length s <? length prefix then false
  else equal_range are_equal_chars_ci prefix s.

(** StringUtilities.cpp 56-62, [starts_with(str, prefix, case_insensitive)]. *)
Definition starts_with (s prefix : str) (case_insensitive : bool) : bool :=
  if case_insensitive then starts_with_ci s prefix else starts_with_cs s prefix.

(** StringUtilities.cpp 64-73, [compare_ci]. The arguments are [char]s promoted
    to [int]; [char] is signed on x86, which is what [s8] gives. *)
Definition compare_ci (a b : ascii) : Z :=
  let c1 := s8 a in
  let c2 := s8 b in
  if (c1 =? c2)%Z then 0%Z
  else
    let ic1 := Z.of_N (N.land (u8 a) 223) in
    if ((ic1 <? 65) || (90 <? ic1))%Z then (c1 - c2)%Z
    else
      let ic2 := Z.of_N (N.land (u8 b) 223) in
      (ic1 - ic2)%Z.

(** StringUtilities.cpp 75-84, [is_less_ci]. *)
Fixpoint is_less_ci (s1 s2 : str) : bool :=
  match s1, s2 with
  | x :: s1', y :: s2' =>
      let cmp := compare_ci x y in
      if negb (cmp =? 0)%Z then (cmp <? 0)%Z else is_less_ci s1' s2'
  | [], _ :: _ => true
  | _, [] => false
  end.

(** [operator<] of std::string_view: lexicographic on unsigned bytes. *)
Fixpoint str_ltb (s1 s2 : str) : bool :=
  match s1, s2 with
  | x :: s1', y :: s2' =>
      if (u8 x <? u8 y)%N then true
      else if (u8 y <? u8 x)%N then false
      else str_ltb s1' s2'
  | [], _ :: _ => true
  | _, [] => false
  end.

(** StringUtilities.cpp 86-92, [is_less]. *)
Definition is_less (s1 s2 : str) (case_insensitive : bool) : bool :=
  if case_insensitive then is_less_ci s1 s2 else str_ltb s1 s2.

(** The part of [s] before the first [d] and, if there is one, the part after
    it: one round of the loop of [split_string]
    (StringUtilities.cpp 104-108: [find], [substr], [next_pos + 1]). *)
Fixpoint split_first (d : ascii) (s : str) : str * option str :=
  match s with
  | [] => ([], None)
  | x :: s' => if Ascii.eqb x d then ([], Some s')
               else let (a, r) := split_first d s' in (x :: a, r)
  end.

(** StringUtilities.cpp 102-114, the loop of [split_string]. [size] is
    [result.size()], [max_split] may be [None] for [npos], a limit that
    [result.size()] cannot reach. Fuel: the length of the string plus one. *)
Fixpoint split_loop (fuel : nat) (d : ascii) (max_split : option N) (size : N)
  (s : str) : list str :=
  match fuel with
  | O => []
  | S fuel' =>
      let (a, r) := split_first d s in
      match r with
      | None => [a]
      | Some rest =>
          let size' := (size + 1)%N in
          if match max_split with Some m => (size' =? m)%N | None => false end
          then [a; rest]
          else a :: split_loop fuel' d max_split size' rest
      end
  end.

(** StringUtilities.cpp 94-116, [split_string]. *)
Definition split_string (s : str) (d : ascii) (max_split : option N) : list str :=
  match max_split with
  | Some 0%N => [s]
  | _ => split_loop (S (length s)) d max_split 0 s
  end.

(** StringUtilities.cpp 118-122, [get_base_name]. *)
Definition get_base_name (s : str) : str :=
  match find_last_of ["/"%char; "\"%char] s with
  | None => s
  | Some pos => skipn (pos + 1) s
  end.

(** StringUtilities.cpp 124-140, [get_code_point_length]. *)
Definition get_code_point_length (c : ascii) : nat :=
  let u := u8 c in
  if (u <? 128)%N then 1
  else if (247 <? u)%N then 0
  else
    let k := N.land (N.shiftr u 4) 7 in
    if (k =? 7)%N then 4
    else if (k =? 6)%N then 3
    else if ((k =? 5) || (k =? 4))%N then 2
    else 0.

(** [(uint8_t(c) & 0xC0) == 0x80], StringUtilities.cpp 156, 186 and
    WordSplitter.cpp 19-22. *)
Definition is_utf8_continuation (c : ascii) : bool :=
  (N.land (u8 c) 192 =? 128)%N.

(** StringUtilities.cpp 144-165, the loop of [count_code_points]; [total] is
    [str.size()]. *)
Fixpoint count_cp_loop (total count char_len : nat) (s : str) : nat :=
  match s with
  | [] => count
  | c :: s' =>
      match char_len with
      | O =>
          match get_code_point_length c with
          | O => total
          | S l => count_cp_loop total (S count) l s'
          end
      | S l =>
          if is_utf8_continuation c then count_cp_loop total count l s'
          else total
      end
  end.

(** StringUtilities.cpp 142-166, [count_code_points]. *)
Definition count_code_points (s : str) : nat :=
  count_cp_loop (length s) 0 0 s.

(** StringUtilities.cpp 172-195, the loop of [find_nth_code_point]; [None] is
    [npos]. *)
Fixpoint find_nth_loop (n i count char_len : nat) (s : str) : option nat :=
  match s with
  | [] => match char_len with O => None | _ => Some n end
  | c :: s' =>
      match char_len with
      | O =>
          if count =? n then Some i
          else match get_code_point_length c with
               | O => Some n
               | S l => find_nth_loop n (S i) (S count) l s'
               end
      | S l =>
          if is_utf8_continuation c then find_nth_loop n (S i) count l s'
          else Some n
      end
  end.

(** StringUtilities.cpp 168-196, [find_nth_code_point]. *)
Definition find_nth_code_point (s : str) (n : nat) : option nat :=
  if length s <=? n then None else find_nth_loop n 0 0 0 s.

(** StringUtilities.cpp 198-201, [to_lower(char)]. Signed comparison. *)
Definition to_lower_char (c : ascii) : ascii :=
  if ((65 <=? s8 c) && (s8 c <=? 90))%Z then ascii_of_N (u8 c + 32) else c.

(** StringUtilities.cpp 203-214, [to_lower(string)]. *)
Definition to_lower (s : str) : str := map to_lower_char s.

(** StringUtilities.cpp 216-222, [is_lower]. *)
Definition is_lower (s : str) : bool :=
  forallb (fun c => ((s8 c <? 65) || (90 <? s8 c))%Z) s.
