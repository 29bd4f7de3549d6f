(** Model of src/Argos/ArgumentCounter.cpp. No proofs in this file.

    Counts are [N]. [size_t] wrap-around is modelled where the code guards
    against it ([get_min_max_count]); subtraction [max_count - min_count] is
    exact because Argument.cpp 135-145 rejects [max < min]. *)
From Verif Require Import Base MStrings MData.

(** [SIZE_MAX] on a 64 bit platform. *)
Definition SIZE_MAX : N := 18446744073709551615.

(** ArgumentCounter.hpp 15-43: [m_counters], [m_index], [m_counter],
    [m_first_optional]. *)
Record arg_counter := mk_counter {
  ac_counters : list (N * arg_data);
  ac_index : nat;
  ac_counter : N;
  ac_first_optional : nat
}.

(** ArgumentCounter.cpp 81-84: the default constructor. *)
Definition empty_counter : arg_counter := mk_counter [] 0 0 0.

(** ArgumentCounter.cpp 14-24, [find_first_optional]; [i] is the loop index,
    [result] the result so far. *)
Fixpoint find_first_optional_loop (args : list arg_data) (i result : nat) : nat :=
  match args with
  | [] => result
  | a :: r =>
      find_first_optional_loop r (S i)
        (if (0 <? a_min a)%N then i + 1 else result)
  end.

Definition find_first_optional (args : list arg_data) : nat :=
  find_first_optional_loop args 0 0.

(** ArgumentCounter.cpp 32-44: the loop of the first [make_argument_counters]. *)
Fixpoint make_counters_loop (args : list arg_data) (i first_optional : nat)
  : list (N * arg_data) :=
  match args with
  | [] => []
  | a :: r =>
      (if (i + 1 =? first_optional) && negb (a_min a =? a_max a)%N
       then [(a_min a, a); ((a_max a - a_min a)%N, a)]
       else [(a_max a, a)])
      ++ make_counters_loop r (S i) first_optional
  end.

(** ArgumentCounter.cpp 26-45 and 86-89: the counter of a command whose
    arguments can be distributed without knowing their number. *)
Definition plain_counter (args : list arg_data) : arg_counter :=
  let fo := find_first_optional args in
  mk_counter (make_counters_loop args 0 fo) 0 0 fo.

(** ArgumentCounter.cpp 129-145, [get_min_max_count]. *)
Definition get_min_max_count (args : list arg_data) : N * N :=
  fold_left (fun (acc : N * N) a =>
    let (lo, hi) := acc in
    ((lo + a_min a)%N,
     if negb (hi =? SIZE_MAX)%N then
       if (SIZE_MAX - hi <? a_max a)%N then SIZE_MAX else (hi + a_max a)%N
     else hi)) args (0%N, 0%N).

(** ArgumentCounter.cpp 59-77: distribution of the [n] surplus arguments. *)
Fixpoint distribute (args : list arg_data) (n : N) : list (N * arg_data) :=
  match args with
  | [] => []
  | a :: r =>
      if (n =? 0)%N || (a_min a =? a_max a)%N then
        (a_min a, a) :: distribute r n
      else if (a_min a + n <=? a_max a)%N then
        ((a_min a + n)%N, a) :: distribute r 0
      else
        (a_max a, a) :: distribute r (n - (a_max a - a_min a))
  end.

(** ArgumentCounter.cpp 47-78, the second [make_argument_counters]. *)
Definition make_counters_n (args : list arg_data) (n : N) : list (N * arg_data) :=
  let (lo, hi) := get_min_max_count args in
  let n' := if (n <? lo)%N then 0%N
            else if (hi <? n)%N then (hi - lo)%N
            else (n - lo)%N in
  distribute args n'.

(** ArgumentCounter.cpp 106-107: index of the first non-zero counter from the
    given suffix on. *)
Fixpoint skip_empty (l : list (N * arg_data)) (i : nat) : nat :=
  match l with
  | [] => i
  | (k, _) :: r => if (k =? 0)%N then skip_empty r (S i) else i
  end.

(** [--m_counters[i].first]. *)
Fixpoint decrement_at (l : list (N * arg_data)) (i : nat) : list (N * arg_data) :=
  match l, i with
  | [], _ => []
  | (k, a) :: r, O => ((k - 1)%N, a) :: r
  | x :: r, S i' => x :: decrement_at r i'
  end.

(** ArgumentCounter.cpp 104-115, [next_argument]. *)
Definition next_argument (ac : arg_counter) : option arg_data * arg_counter :=
  let i := skip_empty (skipn (ac_index ac) (ac_counters ac)) (ac_index ac) in
  match nth_error (ac_counters ac) i with
  | None => (None, mk_counter (ac_counters ac) i (ac_counter ac)
                     (ac_first_optional ac))
  | Some (_, a) =>
      (Some a, mk_counter (decrement_at (ac_counters ac) i) i
                 (ac_counter ac + 1)%N (ac_first_optional ac))
  end.

(** ArgumentCounter.cpp 97-101: consume the initial arguments. *)
Fixpoint consume_initial (k : nat) (ac : arg_counter) : arg_counter :=
  match k with
  | O => ac
  | S k' => match next_argument ac with
            | (None, ac') => ac'
            | (Some _, ac') => consume_initial k' ac'
            end
  end.

(** ArgumentCounter.cpp 91-102: the counter of a command for which the number of
    arguments is known. *)
Definition counted_counter (args : list arg_data) (n : N) (initial : N)
  : arg_counter :=
  let cs := make_counters_n args n in
  consume_initial (N.to_nat initial) (mk_counter cs 0 0 (length cs)).

(** ArgumentCounter.cpp 122-127, [is_complete]. The access
    [m_counters[m_index]] is shown to be in range (see the theorem
    [is_complete_in_range]); an access out of range would yield [false] here. *)
Definition is_complete (ac : arg_counter) : bool :=
  (ac_first_optional ac <=? ac_index ac)
  || ((ac_index ac + 1 =? ac_first_optional ac)
      && match nth_error (ac_counters ac) (ac_index ac) with
         | Some (k, _) => (k =? 0)%N
         | None => false
         end).

(** ArgumentCounter.cpp 147-158, [requires_argument_count]. *)
Fixpoint requires_count_loop (args : list arg_data) (deterministic : bool) : bool :=
  match args with
  | [] => false
  | a :: r =>
      if negb deterministic then true
      else requires_count_loop r (a_min a =? a_max a)%N
  end.

Definition requires_argument_count (args : list arg_data) : bool :=
  requires_count_loop args true.
