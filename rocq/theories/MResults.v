(** Model of the rest of src/Argos/ParsedArguments.cpp and of the value objects of
    ArgumentValue.cpp, ArgumentValues.cpp, ArgumentValueIterator.cpp and of the
    floating point part of ParseValue.cpp. No proofs in this file.

    Simplifications: the shared pointer to the results ([m_args], [m_impl]) is the
    result itself, [None] for a default-constructed ArgumentValue; a string_view into
    the stored values is the string; the values of the results do not change while
    value objects exist (ParsedArguments offers no function that changes them). *)
From Verif Require Import Base MStrings MParseInt MData MValues MText MHelp.

(* ------------------------------------------------------------------------ *)
(** ** Views *)

(** A pointer to an IArgumentView: an ArgumentView or an OptionView. *)
Inductive iview := ArgumentView (a : arg_data) | OptionView (o : opt_data).

(** ArgumentView.cpp 62-70, OptionView.cpp 52-55, 87-90. *)
Definition view_value_id (i : iview) : N :=
  match i with ArgumentView a => a_value_id a | OptionView o => o_value_id o end.
Definition view_argument_id (i : iview) : N :=
  match i with ArgumentView a => a_argument_id a | OptionView o => o_argument_id o end.

(** ParsedArguments.cpp 91-109, [all_arguments] and [all_options], one after the other
    as in lines 202-208. *)
Definition all_views (c : cmd_data) : list iview :=
  map ArgumentView (c_arguments c) ++ map OptionView (c_options c).

(** ParsedArgumentsImpl.cpp 167-182, [get_argument_views]. *)
Definition get_argument_views (c : cmd_data) (vid : N) : list iview :=
  map ArgumentView (filter (fun a => (a_value_id a =? vid)%N) (c_arguments c)) ++
  map OptionView (filter (fun o => (o_value_id o =? vid)%N) (c_options c)).

(** ParsedArgumentsImpl.cpp 184-198, [get_argument_view]. *)
Definition get_argument_view (c : cmd_data) (aid : N) : option iview :=
  match find (fun a => (a_argument_id a =? aid)%N) (c_arguments c) with
  | Some a => Some (ArgumentView a)
  | None => option_map OptionView (find (fun o => (o_argument_id o =? aid)%N) (c_options c))
  end.

(* ------------------------------------------------------------------------ *)
(** ** Outcomes *)

(** How a call on a value ends: with a result, by exit(code) or by an exception after
    writing [out], by an exception without output (ARGOS_THROW elsewhere, or
    std::out_of_range of [vector::at]), because writing the message fails, or in
    undefined behaviour. *)
Inductive value_exn := XParseError | XNotInitialized | XNoValue | XOutOfRange | XOther (e : exn).
Inductive value_end (A : Type) :=
| VGot (a : A)
| VExit (code : Z) (out : str)
| VThrow (e : value_exn) (out : str)
| VWriteFails
| VCrash.
Arguments VGot {A}. Arguments VExit {A}. Arguments VThrow {A}.
Arguments VWriteFails {A}. Arguments VCrash {A}.

Definition vbind {A B} (x : value_end A) (f : A -> value_end B) : value_end B :=
  match x with
  | VGot a => f a
  | VExit c s => VExit c s
  | VThrow e s => VThrow e s
  | VWriteFails => VWriteFails
  | VCrash => VCrash
  end.

Section WithParser.
(** The width of the console (ConsoleWidth.cpp) and [m_data]. *)
Variable console : nat.
Variable d : parser_data.

(** ParsedArgumentsImpl.cpp 240-248, [error(message, argument_id)]. *)
Definition report {A} (l : level) (msg : str) (aid : N) : value_end A :=
  match write_argument_error console d (l_command l) msg aid with
  | TOk f => if s_auto_exit (d_settings d)
             then VExit (s_error_exit (d_settings d)) (w_out (f_writer f))
             else VThrow XParseError (w_out (f_writer f))
  | _ => VWriteFails
  end.

(* ------------------------------------------------------------------------ *)
(** ** ArgumentValue *)

(** include/Argos/ArgumentValue.hpp: the members. *)
Record arg_value := mk_av {
  av_value : option str;
  av_args : option level;
  av_value_id : N;
  av_argument_id : N
}.

(** ArgumentValue.cpp 45-48, the default constructor. *)
Definition no_argument_value : arg_value := mk_av None None 0 0.

(** ArgumentValue.cpp 78-83, [argument]. *)
Definition av_argument (v : arg_value) : value_end (option iview) :=
  match av_args v with
  | None => VThrow XNotInitialized []
  | Some l => VGot (get_argument_view (l_command l) (av_argument_id v))
  end.

(** ArgumentValue.cpp 172-177, [error(message)]. *)
Definition av_error_msg {A} (v : arg_value) (msg : str) : value_end A :=
  match av_args v with
  | None => VThrow XNotInitialized []
  | Some l => report l msg (av_argument_id v)
  end.

(** ArgumentValue.cpp 179-184, [error()]. *)
Definition av_error {A} (v : arg_value) : value_end A :=
  match av_value v with
  | None => VThrow XNoValue []
  | Some s => av_error_msg v ($"Invalid value: " ++ s ++ $".")
  end.

(** ArgumentValue.cpp 20-42, [get_integer] and [get_floating_point]: [parse] is
    [parse_integer<T>] in the given base or [parse_floating_point<T>]. *)
Definition av_get {T} (parse : str -> option T) (v : arg_value) (default : T) : value_end T :=
  match av_value v with
  | None => VGot default
  | Some s => match parse s with
              | Some n => VGot n
              | None => av_error v
              end
  end.

(** ArgumentValue.cpp 144-164, [split]. *)
Definition av_split (v : arg_value) (sep : ascii) (min_parts max_parts : N)
  : value_end (list (str * N)) :=
  match av_args v with
  | None => VThrow XNotInitialized []
  | Some l =>
      match av_value v with
      | None => VGot []
      | Some s =>
          let parts := split_string s sep (max_parts_minus_1 max_parts) in
          if (N.of_nat (length parts) <? min_parts)%N
          then report l ($"Invalid value: """ ++ s ++ $""". Must have at least "
                         ++ N_to_string min_parts ++ $" values separated by """
                         ++ [sep] ++ $""".") (av_argument_id v)
          else VGot (map (fun p => (p, av_argument_id v)) parts)
      end
  end.

(* ------------------------------------------------------------------------ *)
(** ** ArgumentValues *)

(** include/Argos/ArgumentValues.hpp: the members. [m_args] is never null. *)
Record arg_values := mk_avs {
  avs_values : list (str * N);
  avs_args : level;
  avs_value_id : N
}.

(** ArgumentValues.cpp 109-113, [arguments]. *)
Definition avs_arguments (v : arg_values) : list iview :=
  get_argument_views (l_command (avs_args v)) (avs_value_id v).

(** ArgumentValues.cpp 115-119, [error]. *)
Definition avs_error {A} (v : arg_values) (msg : str) : value_end A :=
  report (avs_args v) msg (values_argument_id (avs_values v)).

(** ArgumentValues.cpp 131-138, [values], and the iterators (lines 250-259,
    ArgumentValueIterator.cpp 23-39): the values one by one. *)
Definition avs_list (v : arg_values) : list arg_value :=
  map (fun x => mk_av (Some (fst x)) (Some (avs_args v)) (avs_value_id v) (snd x))
    (avs_values v).

(** ArgumentValues.cpp 149-156, [value(index)] and [operator[]]. *)
Definition avs_at (v : arg_values) (i : nat) : value_end arg_value :=
  match avs_values v with
  | [] => VGot (mk_av None (Some (avs_args v)) (avs_value_id v) 0)
  | _ => match nth_error (avs_values v) i with
         | Some (s, aid) => VGot (mk_av (Some s) (Some (avs_args v)) (avs_value_id v) aid)
         | None => VThrow XOutOfRange []
         end
  end.

(** ArgumentValues.cpp 46-53 and 66-73: the loops of [parse_floats] and
    [parse_integers]. *)
Fixpoint avs_parse_loop {T} (parse : str -> option T) (v : arg_values) (l : list (str * N))
  : value_end (list T) :=
  match l with
  | [] => VGot []
  | (s, _) :: r =>
      match parse s with
      | None => avs_error v ($"Invalid value: " ++ s ++ $".")
      | Some n => vbind (avs_parse_loop parse v r) (fun ns => VGot (n :: ns))
      end
  end.

(** ArgumentValues.cpp 37-76. *)
Definition avs_get {T} (parse : str -> option T) (v : arg_values) (default : list T)
  : value_end (list T) :=
  match avs_values v with
  | [] => VGot default
  | l => avs_parse_loop parse v l
  end.

(** ArgumentValues.cpp 211-222, [as_strings]. *)
Definition avs_strings (v : arg_values) (default : list str) : list str :=
  match avs_values v with [] => default | l => map fst l end.

(** ArgumentValues.cpp 229-242, the loop of [split]. *)
Fixpoint avs_split_loop (v : arg_values) (sep : ascii) (min_parts max_parts : N)
  (l : list (str * N)) : value_end (list (str * N)) :=
  match l with
  | [] => VGot []
  | (s, aid) :: r =>
      let parts := split_string s sep (max_parts_minus_1 max_parts) in
      if (N.of_nat (length parts) <? min_parts)%N
      then avs_error v ($"Invalid value: """ ++ s ++ $""". Must be at least "
                        ++ N_to_string min_parts ++ $" values separated by """
                        ++ [sep] ++ $""".")
      else vbind (avs_split_loop v sep min_parts max_parts r)
             (fun ps => VGot (map (fun p => (p, aid)) parts ++ ps))
  end.

(** ArgumentValues.cpp 224-242, [split]. *)
Definition avs_split (v : arg_values) (sep : ascii) (min_parts max_parts : N)
  : value_end arg_values :=
  vbind (avs_split_loop v sep min_parts max_parts (avs_values v))
    (fun l => VGot (mk_avs l (avs_args v) (avs_value_id v))).

End WithParser.

(* ------------------------------------------------------------------------ *)
(** ** ParsedArguments *)

Definition of_exc {A} (x : exc A) : value_end A :=
  match x with Val a => VGot a | Exn e => VThrow (XOther e) [] end.

(** ParsedArguments.cpp 61-68, [value(name)]. *)
Definition value_by_name (l : level) (name : str) : value_end arg_value :=
  vbind (of_exc (get_value_id (l_command l) name)) (fun vid =>
  vbind (of_exc (get_value (l_values l) vid)) (fun v =>
  VGot (match v with
        | Some (s, aid) => mk_av (Some s) (Some l) vid aid
        | None => mk_av None (Some l) vid 0
        end))).

(** ParsedArguments.cpp 70-76, [value(view)]: the ids are those of the view. *)
Definition value_by_view (l : level) (i : iview) : value_end arg_value :=
  vbind (of_exc (get_value (l_values l) (view_value_id i))) (fun v =>
  VGot (mk_av (option_map fst v) (Some l) (view_value_id i) (view_argument_id i))).

(** ParsedArguments.cpp 78-83, [values(name)]. *)
Definition values_by_name (l : level) (name : str) : value_end arg_values :=
  vbind (of_exc (get_value_id (l_command l) name)) (fun vid =>
  VGot (mk_avs (get_values (l_values l) vid) l vid)).

(** ParsedArguments.cpp 85-89, [values(view)]. *)
Definition values_by_view (l : level) (i : iview) : arg_values :=
  mk_avs (get_values (l_values l) (view_value_id i)) l (view_value_id i).

(** ParsedArguments.cpp 48-51, [has(view)]. *)
Definition has_by_view (l : level) (i : iview) : bool :=
  has_value (l_values l) (view_value_id i).

(* ------------------------------------------------------------------------ *)
(** ** print *)

(** ParsedArguments.cpp 170-179: the loop over the flags in [get_name]. *)
Fixpoint add_names (s : str) (flags : list str) : str :=
  match flags with
  | [] => s
  | f :: r => add_names ((if is_empty s then s else s ++ $", ") ++ f) r
  end.

(** ParsedArguments.cpp 166-182, [get_name]. *)
Definition view_name (i : iview) : str :=
  match i with
  | ArgumentView a => a_name a
  | OptionView o => add_names [] (o_flags o)
  end.

(** ParsedArguments.cpp 184-192, [print_argument]. *)
Definition print_argument (label : str) (vs : list (str * N)) : str :=
  label ++ $":" ++ concat (map (fun v => $" """ ++ fst v ++ $"""") vs) ++ [c_lf].

(** ParsedArguments.cpp 214-221: the labels. [racc] is the vector reversed. *)
Fixpoint make_labels (racc : list (iview * str)) (l : list iview) : list (iview * str) :=
  match l with
  | [] => rev racc
  | i :: r =>
      make_labels
        (match racc with
         | (j, s) :: t =>
             if (view_value_id j =? view_value_id i)%N
             then (j, s ++ $", " ++ view_name i) :: t
             else (i, view_name i) :: racc
         | [] => [(i, view_name i)]
         end) r
  end.

(** ParsedArguments.cpp 199-238, [print]. std::stable_sort is the insertion sort of
    MData.v, which is stable. *)
Fixpoint print (l : level) : str :=
  match l with
  | mk_level c vs un _ _ subs =>
      let sorted := sort_by (fun a b => (view_value_id a <? view_value_id b)%N) (all_views c) in
      concat (map (fun p => print_argument (snd p) (get_values vs (view_value_id (fst p))))
                (make_labels [] sorted))
      ++ (if is_empty un then []
          else $"Unprocessed arguments:" ++ concat (map (fun a => $" """ ++ a ++ $"""") un))
      ++ concat (map (fun s => [c_lf] ++ $"Subcommand: " ++ c_name (l_command s) ++ [c_lf] ++ print s)
                   subs)
  end.

(* ------------------------------------------------------------------------ *)
(** ** Floating point numbers *)

(** What strtof and strtod (C11 7.22.1.3, "C" locale) may find: an infinity, a NaN, or
    the exact number [(-1)^neg * m * b^e] with [b] 2 or 10. *)
Inductive float_text :=
| FInf (neg : bool)
| FNan (neg : bool)
| FNum (neg : bool) (m : N) (b : N) (e : Z).

(** Lower case of an ASCII letter, tolower in the "C" locale. *)
Definition lower_ascii (c : ascii) : ascii :=
  if ((65 <=? u8 c) && (u8 c <=? 90))%N then ascii_of_N (u8 c + 32) else c.

(** [Some rest] if [s] begins with [w] (in lower case) without regard to case. *)
Fixpoint skip_word (w s : str) : option str :=
  match w, s with
  | [], _ => Some s
  | x :: w', c :: s' => if Ascii.eqb (lower_ascii c) x then skip_word w' s' else None
  | _, [] => None
  end.

(** The n-char-sequence of "nan(...)": letters, digits and '_'. *)
Definition nan_char (c : ascii) : bool :=
  match digit_of c with Some _ => true | None => Ascii.eqb c "_"%char end.
Fixpoint skip_nan_chars (s : str) : str :=
  match s with
  | c :: r => if nan_char c then skip_nan_chars r else s
  | [] => []
  end.

(** Digits of [base], at most one point among them: the mantissa, the number of digits
    after the point, whether there was a digit, and the rest. *)
Fixpoint read_fraction (base acc : N) (after : Z) (any : bool) (s : str) : N * Z * bool * str :=
  match s with
  | [] => (acc, after, any, [])
  | c :: r =>
      match digit_of c with
      | Some x => if (x <? base)%N
                  then read_fraction base (acc * base + x) (after + 1) true r
                  else (acc, after, any, s)
      | None => (acc, after, any, s)
      end
  end.
Definition read_mantissa (base : N) (s : str) : N * Z * bool * str :=
  let '(m, any, r) := read_digits base 0 false s in
  match r with
  | c :: r' =>
      if Ascii.eqb c "."%char then
        let '(m', after, any', r'') := read_fraction base m 0 any r' in
        if any' then (m', after, true, r'') else (0%N, 0%Z, false, s)
      else (m, 0%Z, any, r)
  | [] => (m, 0%Z, any, r)
  end.

(** The exponent: a letter [e], an optional sign and digits; nothing is read if there
    is no digit. *)
Definition read_exponent (e : ascii) (s : str) : Z * str :=
  match s with
  | c :: r =>
      if Ascii.eqb (lower_ascii c) e then
        let (neg, r1) := read_sign r in
        let '(n, any, r2) := read_digits 10 0 false r1 in
        if any then ((if neg then - Z.of_N n else Z.of_N n)%Z, r2) else (0%Z, s)
      else (0%Z, s)
  | [] => (0%Z, [])
  end.

(** "0x" followed by a hexadecimal digit, or by a point and a hexadecimal digit. *)
Definition hex_digit (c : ascii) : bool :=
  match digit_of c with Some x => (x <? 16)%N | None => false end.
Definition has_hex_float_prefix (s : str) : bool :=
  match s with
  | z :: x :: h :: r =>
      Ascii.eqb z "0"%char && Ascii.eqb (lower_ascii x) "x"%char
      && (hex_digit h || (Ascii.eqb h "."%char && match r with c :: _ => hex_digit c | [] => false end))
  | _ => false
  end.

Definition scan_number (neg : bool) (s : str) : option (float_text * str) :=
  if has_hex_float_prefix s then
    let '(m, after, any, r) := read_mantissa 16 (skipn 2 s) in
    let (e, r') := read_exponent "p"%char r in
    if any then Some (FNum neg m 2 (e - 4 * after), r') else None
  else
    let '(m, after, any, r) := read_mantissa 10 s in
    let (e, r') := read_exponent "e"%char r in
    if any then Some (FNum neg m 10 (e - after), r') else None.

(** The subject sequence and the rest; [None] if no conversion can be done. *)
Definition scan_float (s : str) : option (float_text * str) :=
  let (neg, s1) := read_sign (skip_spaces s) in
  match skip_word ($"infinity") s1 with
  | Some r => Some (FInf neg, r)
  | None =>
      match skip_word ($"inf") s1 with
      | Some r => Some (FInf neg, r)
      | None =>
          match skip_word ($"nan") s1 with
          | Some r =>
              match r with
              | c :: r1 =>
                  if Ascii.eqb c "("%char then
                    match skip_nan_chars r1 with
                    | c2 :: r2 => if Ascii.eqb c2 ")"%char then Some (FNan neg, r2)
                                  else Some (FNan neg, r)
                    | [] => Some (FNan neg, r)
                    end
                  else Some (FNan neg, r)
              | [] => Some (FNan neg, r)
              end
          | None => scan_number neg s1
          end
      end
  end.

(** ParseValue.cpp 138-149, [parse_floating_point_impl]. [convert] is what strtof or
    strtod makes of the text it has found: the number and whether errno stays 0. *)
Definition parse_floating_point {F} (convert : float_text -> F * bool) (s : str) : option F :=
  if is_empty s then None
  else match scan_float s with
       | Some (t, []) => let (x, ok) := convert t in if ok then Some x else None
       | _ => None
       end.
