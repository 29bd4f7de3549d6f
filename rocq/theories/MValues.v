(** Model of ParsedArgumentsImpl.cpp, ParsedArguments.cpp, ArgumentValue.cpp and
    ArgumentValues.cpp in src/Argos. No proofs in this file. *)
From Verif Require Import Base MStrings MParseInt MData.

(* ------------------------------------------------------------------------ *)
(** ** The multimap [m_values]: a list in key order *)

(** [multimap::insert]: after all elements with an equal or smaller key. *)
Fixpoint append_value (vs : store) (vid : N) (value : str) (aid : N) : store :=
  match vs with
  | [] => [(vid, (value, aid))]
  | (k, x) :: r =>
      if (vid <? k)%N then (vid, (value, aid)) :: (k, x) :: r
      else (k, x) :: append_value r vid value aid
  end.

(** Erases the leading elements with key [vid]: ParsedArgumentsImpl.cpp 99-101. *)
Fixpoint erase_leading (vs : store) (vid : N) : store :=
  match vs with
  | (k, x) :: r => if (k =? vid)%N then erase_leading r vid else vs
  | [] => []
  end.

(** ParsedArgumentsImpl.cpp 89-103, [assign_value]: walks to the lower bound of
    [vid], as multimap::lower_bound does. *)
Fixpoint assign_value (vs : store) (vid : N) (value : str) (aid : N) : store :=
  match vs with
  | [] => [(vid, (value, aid))]
  | (k, x) :: r =>
      if (k <? vid)%N then (k, x) :: assign_value r vid value aid
      else if (k =? vid)%N then (k, (value, aid)) :: erase_leading r vid
      else append_value vs vid value aid
  end.

(** ParsedArgumentsImpl.cpp 113-116, [clear_value]: multimap::erase(key). *)
Definition clear_value (vs : store) (vid : N) : store :=
  filter (fun p => negb (fst p =? vid)%N) vs.

(** ParsedArgumentsImpl.cpp 73-76, [has]. *)
Definition has_value (vs : store) (vid : N) : bool :=
  existsb (fun p => (fst p =? vid)%N) vs.

(** [multimap::lower_bound]. *)
Fixpoint from_lower_bound (vs : store) (vid : N) : store :=
  match vs with
  | (k, x) :: r => if (k <? vid)%N then from_lower_bound r vid else vs
  | [] => []
  end.

(** The loop of [get_values], ParsedArgumentsImpl.cpp 145-149. *)
Fixpoint take_key (vs : store) (vid : N) : list (str * N) :=
  match vs with
  | (k, x) :: r => if (k =? vid)%N then x :: take_key r vid else []
  | [] => []
  end.

(** ParsedArgumentsImpl.cpp 141-151, [get_values]. *)
Definition get_values (vs : store) (vid : N) : list (str * N) :=
  take_key (from_lower_bound vs vid) vid.

(** ParsedArgumentsImpl.cpp 129-139, [get_value]. *)
Definition get_value (vs : store) (vid : N) : exc (option (str * N)) :=
  match from_lower_bound vs vid with
  | [] => Val None
  | (k, x) :: r =>
      if negb (k =? vid)%N then Val None
      else match r with
           | (k2, _) :: _ => if (k2 =? vid)%N then Exn EMultipleValues
                             else Val (Some x)
           | [] => Val (Some x)
           end
  end.

(* ------------------------------------------------------------------------ *)
(** ** Names *)

(** [m_ids] elements: name, value id, argument id. *)
Definition id_entry : Type := (str * N * N)%type.

(** [operator<] of std::tuple<string_view, ValueId, ArgumentId>. *)
Definition id_entry_ltb (x y : id_entry) : bool :=
  let '(n1, v1, a1) := x in
  let '(n2, v2, a2) := y in
  if str_ltb n1 n2 then true
  else if str_ltb n2 n1 then false
  else if (v1 <? v2)%N then true
  else if (v2 <? v1)%N then false
  else (a1 <? a2)%N.

Definition id_entry_eqb (x y : id_entry) : bool :=
  let '(n1, v1, a1) := x in
  let '(n2, v2, a2) := y in
  str_eqb n1 n2 && (v1 =? v2)%N && (a1 =? a2)%N.

(** ParsedArgumentsImpl.cpp 43-58: the entries before sorting. *)
Definition id_entries (c : cmd_data) : list id_entry :=
  flat_map (fun a =>
    (a_name a, a_value_id a, a_argument_id a)
    :: (if negb (is_empty (a_alias a))
        then [(a_alias a, a_value_id a, a_argument_id a)] else []))
    (c_arguments c)
  ++
  flat_map (fun o =>
    match o_operation o with
    | OP_NONE => []
    | _ =>
        map (fun f => (f, o_value_id o, o_argument_id o)) (o_flags o)
        ++ (if negb (is_empty (o_alias o))
            then [(o_alias o, o_value_id o, o_argument_id o)] else [])
    end) (c_options c).

(** ParsedArgumentsImpl.cpp 63-68: entries with the same name but different
    argument ids get argument id 0. [p] is the previous entry, possibly already
    changed. *)
Fixpoint zero_shared (p : id_entry) (l : list id_entry) : list id_entry :=
  match l with
  | [] => [p]
  | e :: r =>
      let '(n1, v1, a1) := p in
      let '(n2, v2, a2) := e in
      if str_eqb n2 n1 && negb (a2 =? a1)%N
      then (n1, v1, 0%N) :: zero_shared (n2, v2, 0%N) r
      else p :: zero_shared e r
  end.

(** std::unique + erase, ParsedArgumentsImpl.cpp 69. *)
Fixpoint unique_entries (l : list id_entry) : list id_entry :=
  match l with
  | [] => []
  | e :: r =>
      match unique_entries r with
      | [] => [e]
      | e' :: r' => if id_entry_eqb e e' then e' :: r' else e :: e' :: r'
      end
  end.

(** ParsedArgumentsImpl.cpp 37-71: [m_ids] as built by the constructor. *)
Definition make_ids (c : cmd_data) : list id_entry :=
  match sort_by id_entry_ltb (id_entries c) with
  | [] => []
  | e :: r => unique_entries (zero_shared e r)
  end.

(** ParsedArgumentsImpl.cpp 118-127, [get_value_id]. Its own [lower_bound]
    (lines 21-34) bisects like std::lower_bound. *)
Definition get_value_id (c : cmd_data) (name : str) : exc N :=
  let ids := make_ids c in
  let i := lower_bound (fun e : id_entry => str_ltb (fst (fst e)) name) ids in
  match nth_error ids i with
  | Some (n, v, _) => if str_eqb n name then Val v else Exn (EUnknownValue name)
  | None => Exn (EUnknownValue name)
  end.

(* ------------------------------------------------------------------------ *)
(** ** ParsedArguments *)

(** include/Argos/Enums.hpp, ParserResultCode. *)
Inductive result_code := RC_NONE | RC_SUCCESS | RC_STOP | RC_FAILURE.

(** ParsedArgumentsImpl: one command's results. [l_subs] are [m_commands]; while
    a sub-command is being parsed it is held by the parser state instead and
    added here when it is finished (see MParser.v). *)
Inductive level := mk_level {
  l_command : cmd_data;
  l_values : store;
  l_unprocessed : list str;
  l_result : result_code;
  l_stop : option opt_data;
  l_subs : list level
}.

(** ParsedArgumentsImpl.cpp 37-41. *)
Definition new_level (c : cmd_data) : level := mk_level c [] [] RC_NONE None [].

Definition set_l_values (l : level) (vs : store) : level :=
  mk_level (l_command l) vs (l_unprocessed l) (l_result l) (l_stop l) (l_subs l).

(** ParsedArgumentsImpl.cpp 84-87, [add_unprocessed_argument], repeated. *)
Definition add_unprocessed (l : level) (args : list str) : level :=
  mk_level (l_command l) (l_values l) (l_unprocessed l ++ args) (l_result l)
    (l_stop l) (l_subs l).

(** ParsedArgumentsImpl.cpp 215-218, [set_result_code]. *)
Definition set_result (rc : result_code) (l : level) : level :=
  mk_level (l_command l) (l_values l) (l_unprocessed l) rc (l_stop l) (l_subs l).

(** ParsedArgumentsImpl.cpp 225-229, [set_breaking_option]. *)
Definition set_breaking_option (o : opt_data) (l : level) : level :=
  mk_level (l_command l) (l_values l) (l_unprocessed l) RC_STOP (Some o) (l_subs l).

(** ParsedArgumentsImpl.cpp 153-159, the [push_back] of [add_subcommand]. *)
Definition add_sub (l child : level) : level :=
  mk_level (l_command l) (l_values l) (l_unprocessed l) (l_result l) (l_stop l)
    (l_subs l ++ [child]).

(** ParsedArguments.cpp 43-46, [has(name)]. *)
Definition pa_has (l : level) (name : str) : exc bool :=
  match get_value_id (l_command l) name with
  | Val vid => Val (has_value (l_values l) vid)
  | Exn e => Exn e
  end.

(** ParsedArguments.cpp 61-68, [value(name)]: the string, if any. *)
Definition pa_value (l : level) (name : str) : exc (option str) :=
  match get_value_id (l_command l) name with
  | Val vid => match get_value (l_values l) vid with
               | Val v => Val (option_map fst v)
               | Exn e => Exn e
               end
  | Exn e => Exn e
  end.

(** ParsedArguments.cpp 78-83, [values(name)]: the strings. *)
Definition pa_values (l : level) (name : str) : exc (list str) :=
  match get_value_id (l_command l) name with
  | Val vid => Val (map fst (get_values (l_values l) vid))
  | Exn e => Exn e
  end.

(** ParsedArguments.cpp 123-129, [stop_option]. *)
Definition pa_stop_option (l : level) : exc opt_data :=
  match l_stop l with Some o => Val o | None => Exn ENoStopOption end.

(** ParsedArguments.cpp 146-154: the loop of [filter_parsed_arguments] over
    [argv[1..]]; [un] is the rest of the unprocessed arguments, not empty. *)
Fixpoint filter_loop (argv : list str) (u : str) (un : list str) : list str :=
  match argv with
  | [] => []
  | a :: r =>
      if str_eqb a u then
        a :: match un with [] => [] | u' :: un' => filter_loop r u' un' end
      else filter_loop r u un
  end.

(** ParsedArguments.cpp 137-157, [filter_parsed_arguments]. The result is
    [argv[0..argc)] after the call. *)
Definition filter_parsed_arguments (unprocessed argv : list str) : list str :=
  match argv with
  | [] => []
  | [p] => [p]
  | p :: r => p :: match unprocessed with
                   | [] => []
                   | u :: un => filter_loop r u un
                   end
  end.

(* ------------------------------------------------------------------------ *)
(** ** ArgumentValue *)

(** ArgumentValue.cpp 90-95, [as_bool]. *)
Definition as_bool (v : option str) (default : bool) : bool :=
  match v with
  | None => default
  | Some s => negb (is_empty s) && negb (str_eqb s ($"0"))
              && negb (str_eqb s ($"false"))
  end.

(** ArgumentValue.cpp 20-30, [get_integer], for a given [parse_integer<T>].
    [Exn EParseError] stands for [value.error()]: exit or exception. *)
Definition get_integer (parse : str -> Z -> option Z) (v : option str)
  (default : Z) (base : Z) : exc Z :=
  match v with
  | None => Val default
  | Some s => match parse s base with
              | Some n => Val n
              | None => Exn EParseError
              end
  end.

(** ArgumentValue.cpp 97-127. *)
Definition as_int := get_integer parse_int.
Definition as_uint := get_integer parse_uint.
Definition as_long := get_integer parse_long.
Definition as_llong := get_integer parse_long.
Definition as_ulong := get_integer parse_ulong.
Definition as_ullong := get_integer parse_ulong.

(** ArgumentValue.cpp 139-142, [as_string]. *)
Definition as_string (v : option str) (default : str) : str :=
  match v with Some s => s | None => default end.

(** ArgumentValues.cpp 57-76, [parse_integers] ([values.error] exits or
    throws). *)
Fixpoint parse_all (parse : str -> Z -> option Z) (base : Z) (vs : list str)
  : exc (list Z) :=
  match vs with
  | [] => Val []
  | v :: r => match parse v base with
              | None => Exn EParseError
              | Some n => match parse_all parse base r with
                          | Val ns => Val (n :: ns)
                          | Exn e => Exn e
                          end
              end
  end.

Definition get_integers (parse : str -> Z -> option Z) (vs : list str)
  (default : list Z) (base : Z) : exc (list Z) :=
  match vs with
  | [] => Val default
  | _ => parse_all parse base vs
  end.

(** [max_parts - 1] in size_t: 0 - 1 is [npos], a limit that is never
    reached. *)
Definition max_parts_minus_1 (max_parts : N) : option N :=
  if (max_parts =? 0)%N then None else Some (max_parts - 1)%N.

(** ArgumentValue.cpp 144-164, [split], for a value that is present. *)
Definition value_split (s : str) (sep : ascii) (min_parts max_parts : N)
  : exc (list str) :=
  let parts := split_string s sep (max_parts_minus_1 max_parts) in
  if (N.of_nat (length parts) <? min_parts)%N then Exn EParseError
  else Val parts.

(** ArgumentValues.cpp 225-246, [split]: all parts of all values. *)
Fixpoint values_split (vs : list str) (sep : ascii) (min_parts max_parts : N)
  : exc (list str) :=
  match vs with
  | [] => Val []
  | v :: r =>
      match value_split v sep min_parts max_parts with
      | Exn e => Exn e
      | Val ps => match values_split r sep min_parts max_parts with
                  | Exn e => Exn e
                  | Val qs => Val (ps ++ qs)
                  end
      end
  end.

(** ArgumentValues.cpp 149-156, [value(index)]: [vector::at] throws. *)
Definition values_at (vs : list str) (i : nat) : exc (option str) :=
  match vs with
  | [] => Val None
  | _ => match nth_error vs i with
         | Some v => Val (Some v)
         | None => Exn EParseError
         end
  end.

(** ArgumentValues.cpp 19-30, [get_argument_id]. *)
Fixpoint all_same (a : N) (l : list (str * N)) : bool :=
  match l with
  | [] => true
  | (_, b) :: r => (b =? a)%N && all_same b r
  end.
Definition values_argument_id (l : list (str * N)) : N :=
  match l with
  | [] => 0
  | (_, a) :: r => if all_same a r then a else 0
  end.
