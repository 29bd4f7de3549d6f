(** Model of src/Argos/StandardOptionIterator.cpp and src/Argos/OptionIterator.cpp.
    No proofs in this file.

    Simplification: [m_all_args] is the already consumed arguments followed by
    [m_args]; the consumed ones are only used for index arithmetic and are never
    read again, so the state holds [m_args] only, and copying the iterator
    (StandardOptionIterator.cpp 25-30, OptionIterator.cpp 26-32) is the identity.

    Every access that is undefined behaviour or throws std::out_of_range in C++
    has the distinct outcome [Bad]. *)
From Verif Require Import Base.

(** Result of an operation that may access memory out of range. *)
Inductive res (A : Type) := Ok (a : A) | Bad.
Arguments Ok {A} a.
Arguments Bad {A}.

(** [m_pos]: a size_t, where [Npos] is [std::string::npos]. *)
Inductive pos := At (n : nat) | Npos.

(** [m_pos != 0]. *)
Definition pos_nonzero (p : pos) : bool :=
  match p with At 0 => false | _ => true end.

(** Which of the two iterator classes is used, with [m_prefix] for
    OptionIterator (ArgumentIteratorImpl.cpp 28-41, [make_option_iterator]). *)
Inductive iter_kind := KStandard | KPrefix (prefix : ascii).

Record opt_iter := mk_iter {
  it_kind : iter_kind;
  it_args : list str;   (** [m_args] *)
  it_pos : pos          (** [m_pos] *)
}.

(** StandardOptionIterator.cpp 46-69: the part of [next] after the current
    argument is done with, i.e. [m_pos == 0]. *)
Definition std_first (args : list str) : res (option str * opt_iter) :=
  match args with
  | [] => Ok (None, mk_iter KStandard args (At 0))
  | a :: _ =>
      if (length a <=? 2) then
        Ok (Some a, mk_iter KStandard args Npos)
      else
        match nth_error a 0, nth_error a 1 with
        | Some c0, Some c1 =>
            if negb (Ascii.eqb c0 c_dash) then
              Ok (Some a, mk_iter KStandard args Npos)
            else if negb (Ascii.eqb c1 c_dash) then
              Ok (Some (firstn 2 a), mk_iter KStandard args (At 2))
            else
              match find_char c_eq a with
              | None => Ok (Some a, mk_iter KStandard args Npos)
              | Some p => Ok (Some (firstn (S p) a),
                              mk_iter KStandard args (At (S p)))
              end
        | _, _ => Bad
        end
  end.

(** StandardOptionIterator.cpp 32-70, [next]. *)
Definition std_next (it : opt_iter) : res (option str * opt_iter) :=
  let args := it_args it in
  let p := it_pos it in
  if pos_nonzero p then
    match args with
    | [] => Bad
    | a :: rest =>
        match p with
        | At k =>
            if k <? length a then
              match nth_error a 1, nth_error a k with
              | Some c1, Some c =>
                  if negb (Ascii.eqb c1 c_dash) then
                    let p' := if S k =? length a then Npos else At (S k) in
                    Ok (Some [c_dash; c], mk_iter KStandard args p')
                  else std_first rest
              | _, _ => Bad
              end
            else std_first rest
        | Npos => std_first rest
        end
    end
  else std_first args.

(** StandardOptionIterator.cpp 72-92, [next_value]. [substr(pos)] throws if
    [pos > size]. *)
Definition std_next_value (it : opt_iter) : res (option str * opt_iter) :=
  match it_args it with
  | [] => Ok (None, it)
  | a :: rest =>
      match it_pos it with
      | At k =>
          if k <=? length a then
            Ok (Some (skipn k a), mk_iter KStandard (a :: rest) Npos)
          else Bad
      | Npos =>
          match rest with
          | [] => Ok (None, mk_iter KStandard [] (At 0))
          | b :: _ => Ok (Some b, mk_iter KStandard rest Npos)
          end
      end
  end.

(** StandardOptionIterator.cpp 119-129, [split_concatenated_flags]. *)
Definition split_concatenated_flags (it : opt_iter) : res opt_iter :=
  if pos_nonzero (it_pos it) then
    match it_args it with
    | [] => Bad
    | a :: rest =>
        match it_pos it with
        | Npos => Ok it
        | At k =>
            if length a <=? k then Ok it
            else match nth_error a 1 with
                 | None => Bad
                 | Some c1 =>
                     if Ascii.eqb c1 c_dash then Ok it
                     else Ok (mk_iter (it_kind it)
                                (firstn k a :: (c_dash :: skipn k a) :: rest)
                                (At k))
                 end
        end
    end
  else Ok it.

(** [m_args.subspan(1)]: undefined on an empty span. *)
Definition subspan1 (args : list str) : res (list str) :=
  match args with [] => Bad | _ :: r => Ok r end.

(** The common tail of [remaining_arguments]: StandardOptionIterator.cpp 104,
    OptionIterator.cpp 94. *)
Definition remaining_tail (it : opt_iter) : res (list str * opt_iter) :=
  if pos_nonzero (it_pos it) then
    match subspan1 (it_args it) with
    | Ok r => Ok (r, it)
    | Bad => Bad
    end
  else Ok (it_args it, it).

(** StandardOptionIterator.cpp 101-105, [remaining_arguments]. *)
Definition std_remaining (it : opt_iter) : res (list str * opt_iter) :=
  match split_concatenated_flags it with
  | Ok it' => remaining_tail it'
  | Bad => Bad
  end.

(** The insertion itself: StandardOptionIterator.cpp 110-116,
    OptionIterator.cpp 99-105. Inserting one past the first of zero remaining
    arguments is out of range. *)
Definition insert_tail (it : opt_iter) (new : list str) : res opt_iter :=
  if pos_nonzero (it_pos it) then
    match it_args it with
    | [] => Bad
    | a :: rest => Ok (mk_iter (it_kind it) (a :: new ++ rest) (it_pos it))
    end
  else Ok (mk_iter (it_kind it) (new ++ it_args it) (it_pos it)).

(** StandardOptionIterator.cpp 107-117, [insert]. *)
Definition std_insert (it : opt_iter) (new : list str) : res opt_iter :=
  match split_concatenated_flags it with
  | Ok it' => insert_tail it' new
  | Bad => Bad
  end.

(** OptionIterator.cpp 42-59: the part of [next] after the current argument is
    done with. *)
Definition pre_first (prefix : ascii) (args : list str)
  : res (option str * opt_iter) :=
  match args with
  | [] => Ok (None, mk_iter (KPrefix prefix) args (At 0))
  | a :: _ =>
      if (length a <=? 2) then
        Ok (Some a, mk_iter (KPrefix prefix) args Npos)
      else
        match nth_error a 0 with
        | Some c0 =>
            if negb (Ascii.eqb c0 prefix) then
              Ok (Some a, mk_iter (KPrefix prefix) args Npos)
            else
              match find_char c_eq a with
              | None => Ok (Some a, mk_iter (KPrefix prefix) args Npos)
              | Some p => Ok (Some (firstn (S p) a),
                              mk_iter (KPrefix prefix) args (At (S p)))
              end
        | None => Bad
        end
  end.

(** OptionIterator.cpp 34-60, [next]. *)
Definition pre_next (prefix : ascii) (it : opt_iter)
  : res (option str * opt_iter) :=
  if pos_nonzero (it_pos it) then
    match it_args it with
    | [] => Bad
    | _ :: rest => pre_first prefix rest
    end
  else pre_first prefix (it_args it).

(** OptionIterator.cpp 62-83, [next_value]. Unlike the standard iterator it sets
    [m_pos] to the size of the argument after moving to it (line 82). *)
Definition pre_next_value (prefix : ascii) (it : opt_iter)
  : res (option str * opt_iter) :=
  match it_args it with
  | [] => Ok (None, it)
  | a :: rest =>
      match it_pos it with
      | At k =>
          if k <=? length a then
            Ok (Some (skipn k a), mk_iter (KPrefix prefix) (a :: rest) Npos)
          else Bad
      | Npos =>
          match rest with
          | [] => Ok (None, mk_iter (KPrefix prefix) [] (At 0))
          | b :: _ => Ok (Some b, mk_iter (KPrefix prefix) rest (At (length b)))
          end
      end
  end.

(** IOptionIterator: dispatch on the dynamic type. *)
Definition it_next (it : opt_iter) : res (option str * opt_iter) :=
  match it_kind it with
  | KStandard => std_next it
  | KPrefix p => pre_next p it
  end.

Definition it_next_value (it : opt_iter) : res (option str * opt_iter) :=
  match it_kind it with
  | KStandard => std_next_value it
  | KPrefix p => pre_next_value p it
  end.

(** StandardOptionIterator.cpp 101-105, OptionIterator.cpp 92-95. *)
Definition it_remaining (it : opt_iter) : res (list str * opt_iter) :=
  match it_kind it with
  | KStandard => std_remaining it
  | KPrefix _ => remaining_tail it
  end.

(** StandardOptionIterator.cpp 107-117, OptionIterator.cpp 97-106. *)
Definition it_insert (it : opt_iter) (new : list str) : res opt_iter :=
  match it_kind it with
  | KStandard => std_insert it new
  | KPrefix _ => insert_tail it new
  end.

(** StandardOptionIterator.cpp 94-99, OptionIterator.cpp 85-90, [current].
    [None]: throws ArgosException. *)
Definition it_current (it : opt_iter) : option str := hd_error (it_args it).

(** StandardOptionIterator.cpp 19-23, OptionIterator.cpp 19-24 (constructors;
    [m_pos] is initialised to 0 in the headers). *)
Definition it_start (k : iter_kind) (args : list str) : opt_iter :=
  mk_iter k args (At 0).
