(** Specification of what the results of parsing look like through values, views and
    print (C66-C68). Of the model only the data types are used, and [get_values], which
    C18 and C19 are about. *)
From Verif Require Import Base MStrings MParseInt MData MValues MResults SDef SValues SStrings SText SFormat SHelp SStep SOutput.

(** ** Views *)

(** The arguments and options of a command. *)
Definition listed (c : cmd_data) : list iview :=
  map ArgumentView (c_arguments c) ++ map OptionView (c_options c).

Definition view_names (i : iview) : list str :=
  match i with ArgumentView a => [a_name a] | OptionView o => o_flags o end.

(** ** print *)

(** An option with operation NONE has no value. *)
Definition valueless (i : iview) : bool :=
  match i with
  | OptionView o => match o_operation o with OP_NONE => true | _ => false end
  | _ => false
  end.

Definition same_value (i j : iview) : bool := (view_value_id i =? view_value_id j)%N.

(** The first of the items that share a value. *)
Fixpoint firsts (before l : list iview) : list iview :=
  match l with
  | [] => []
  | i :: r => if existsb (same_value i) before then firsts (i :: before) r
              else i :: firsts (i :: before) r
  end.

(** The items line by line: those that share a value are on one line, in the order in
    which they have been defined. All items without value are on the first line. *)
Definition print_groups (c : cmd_data) : list (list iview) :=
  let valued := filter (fun i => negb (valueless i)) (listed c) in
  match filter valueless (listed c) with [] => [] | g => [g] end ++
  map (fun i => filter (same_value i) valued) (firsts [] valued).

Definition quoted (s : str) : str := $" """ ++ s ++ $"""".

Definition print_line (vs : store) (g : list iview) : str :=
  join ($", ") (flat_map view_names g) ++ $":" ++
  flat_map (fun v => quoted (fst v))
    (match g with i :: _ => get_values vs (view_value_id i) | [] => [] end) ++ [c_lf].

Fixpoint printed (l : level) : str :=
  match l with
  | mk_level c vs un _ _ subs =>
      flat_map (print_line vs) (print_groups c) ++
      match un with [] => [] | _ => $"Unprocessed arguments:" ++ flat_map quoted un end ++
      flat_map (fun s => [c_lf] ++ $"Subcommand: " ++ c_name (l_command s) ++ [c_lf] ++ printed s) subs
  end.

(** ** Errors about values *)

(** The text [t] was given by the item [i] of command [c]. *)
Definition given_by (args : list str) (top c : cmd_data) (i : iview) (t : str) : Prop :=
  In i (listed c) /\
  match i with
  | ArgumentView _ => given args t
  | OptionView o =>
      (c = top /\ t = o_initial_value o /\ t <> []) \/
      (t = o_constant o /\ t <> [] /\ (o_operation o = OP_ASSIGN \/ o_operation o = OP_APPEND)) \/
      (takes_value o /\ given args t)
  end.

Definition view_label (i : iview) : str := join ($", ") (view_names i).

(** A message about an item. *)
Definition about (label msg : str) : str :=
  match label with [] => msg | _ => label ++ $": " ++ msg end.

(** [out] is the error message [msg] of command [c] as C56 and C79 describe it. *)
Definition error_text (console : nat) (q : parser_data) (c : cmd_data) (msg out : str) : Prop :=
  is_error_text (d_word_rules q) (help_width console q) c msg out.

(** The program exits with the error code or an exception is thrown, after [out] has been
    written. *)
Definition ends_with {A} (q : parser_data) (out : str) : value_end A :=
  if s_auto_exit (d_settings q) then VExit (s_error_exit (d_settings q)) out
  else VThrow XParseError out.

Definition invalid (s : str) : str := $"Invalid value: " ++ s ++ $".".
Definition too_few (verb : str) (s : str) (min : N) (sep : ascii) : str :=
  $"Invalid value: """ ++ s ++ $""". Must " ++ verb ++ $" at least " ++ N_to_string min ++
  $" values separated by """ ++ [sep] ++ $""".".

(** ** Floating point numbers *)

(** [ds] are digits of base [b] with value [n] (no digits: 0). *)
Definition digits (b : N) (ds : str) (n : N) : Prop :=
  (ds = [] /\ n = 0%N) \/ number b ds n.

(** The word [w] of small letters, in any case. *)
Inductive any_case : str -> str -> Prop :=
| any_nil : any_case [] []
| any_cons : forall c x w s, (x = c \/ (97 <= u8 c <= 122)%N /\ u8 x = (u8 c - 32)%N) ->
    any_case w s -> any_case (c :: w) (x :: s).

(** An exponent: nothing, or a letter, a sign and digits. *)
Inductive exponent (l u : ascii) : str -> Z -> Prop :=
| exponent_none : exponent l u [] 0
| exponent_some : forall c sg neg ds n, c = l \/ c = u -> sign sg neg -> number 10 ds n ->
    exponent l u (c :: sg ++ ds) (signed neg n).

(** Digits with at most one point and at least one digit: the number is
    [m * b ^ - after]. *)
Inductive mantissa (b : N) : str -> N -> Z -> Prop :=
| mantissa_whole : forall ds n, number b ds n -> mantissa b ds n 0
| mantissa_point : forall ds fs n m, digits b ds n -> digits b fs m -> ds ++ fs <> [] ->
    mantissa b (ds ++ "."%char :: fs) (n * b ^ N.of_nat (length fs) + m) (Z.of_nat (length fs)).

(** The text of a number, infinity or NaN without sign. *)
Inductive unsigned_float : str -> bool -> float_text -> Prop :=
| uf_decimal : forall ms m after es e neg, mantissa 10 ms m after -> exponent "e" "E" es e ->
    unsigned_float (ms ++ es) neg (FNum neg m 10 (e - after))
| uf_hex : forall x ms m after es e neg, x = "x"%char \/ x = "X"%char ->
    mantissa 16 ms m after -> exponent "p" "P" es e ->
    unsigned_float ("0"%char :: x :: ms ++ es) neg (FNum neg m 2 (e - 4 * after))
| uf_inf : forall s neg, any_case ($"inf") s \/ any_case ($"infinity") s -> unsigned_float s neg (FInf neg)
| uf_nan : forall s neg, any_case ($"nan") s -> unsigned_float s neg (FNan neg)
| uf_nan_chars : forall s cs neg, any_case ($"nan") s ->
    (forall c, In c cs -> (exists d, SValues.is_digit c d) \/ c = "_"%char) ->
    unsigned_float (s ++ "("%char :: cs ++ [")"%char]) neg (FNan neg).

(** The whole of [s] is the text of a floating point number. *)
Definition whole_float (s : str) (t : float_text) : Prop :=
  exists ws sg neg u, s = ws ++ sg ++ u /\ (forall c, In c ws -> In c SValues.white_space) /\
    sign sg neg /\ unsigned_float u neg t.
