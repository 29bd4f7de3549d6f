(** Specification of the option index and of flag lookup (C09-C13). *)
From Coq Require Import Permutation Sorting.Sorted.
From Verif Require Import Base MStrings MData SStrings.

(** Flag [f] is declared by option [o]. *)
Definition declared (opts : list opt_data) (f : str) (o : opt_data) : Prop :=
  In o opts /\ In f (o_flags o).

(** [p] is the beginning of [s]. *)
Definition begins_with (s p : str) : Prop := exists t, s = p ++ t.

(** How strings are compared: exactly, or without regard to the case of ASCII
    letters. *)
Definition folded (ci : bool) (s : str) : str := if ci then lower s else s.

(** [s] is a complete flag of [o]. *)
Definition is_flag_of (ci : bool) (opts : list opt_data) (s : str) (o : opt_data) : Prop :=
  exists f, declared opts f o /\ folded ci f = folded ci s.

(** [s] begins exactly one declared flag, which belongs to [o]. *)
Definition is_abbreviation_of (ci : bool) (opts : list opt_data) (s : str)
  (o : opt_data) : Prop :=
  exists f, declared opts f o /\ begins_with (folded ci f) (folded ci s) /\
    forall f' o', declared opts f' o' ->
      begins_with (folded ci f') (folded ci s) -> f' = f.

(** Lookup of [s] without regard to a '=' at the end. *)
Definition names (ci abbrev : bool) (opts : list opt_data) (s : str) (o : opt_data)
  : Prop :=
  is_flag_of ci opts s o \/ (abbrev = true /\ is_abbreviation_of ci opts s o).

(** [s] selects option [o]. *)
Definition selects (ci abbrev : bool) (opts : list opt_data) (s : str)
  (o : opt_data) : Prop :=
  names ci abbrev opts s o \/
  ((forall o', ~ names ci abbrev opts s o') /\
   exists t, s = t ++ ["="%char] /\ 2 < length s /\
     names ci abbrev opts t o /\ o_argument o <> []).

(** All flags of a set of options. *)
Definition all_flags (opts : list opt_data) : list str := flat_map o_flags opts.

(** The result of any correct sorting algorithm: a permutation of the entries in
    which no entry is smaller than an earlier one. *)
Definition sorted_index (ci : bool) (opts : list opt_data)
  (index : list (str * opt_data)) : Prop :=
  Permutation (index_entries opts) index /\
  StronglySorted (fun a b => is_less (fst b) (fst a) ci = false) index.

(** All flags are over the safe alphabet; needed only without regard to case. *)
Definition safe_flags (ci : bool) (opts : list opt_data) : Prop :=
  ci = true -> forall f, In f (all_flags opts) -> safe f.
