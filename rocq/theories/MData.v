(** Model of ArgumentData.hpp, OptionData.{hpp,cpp}, CommandData.{hpp,cpp} and
    ParserData.{hpp,cpp} in src/Argos. No proofs in this file.

    Simplifications: the user-defined [int id] of arguments, options and commands
    is left out (it is only handed back to the user); a TextSource is a string
    (a text callback is replaced by the text it returns); a pointer to an
    ArgumentData/OptionData is the record itself, which carries its unique
    argument_id once the definition is finished. *)
From Verif Require Import Base MStrings.

(** include/Argos/Enums.hpp 21-47, OptionStyle. *)
Inductive option_style := STANDARD | SLASH | DASH.

(** include/Argos/Enums.hpp 50-75, OptionOperation. *)
Inductive option_operation := OP_NONE | OP_ASSIGN | OP_APPEND | OP_CLEAR.

(** include/Argos/Enums.hpp 78-125, OptionType. *)
Inductive option_type :=
  OT_NORMAL | OT_HELP | OT_STOP | OT_EXIT | OT_LAST_ARGUMENT | OT_LAST_OPTION.

Definition option_type_eqb (a b : option_type) : bool :=
  match a, b with
  | OT_NORMAL, OT_NORMAL | OT_HELP, OT_HELP | OT_STOP, OT_STOP
  | OT_EXIT, OT_EXIT | OT_LAST_ARGUMENT, OT_LAST_ARGUMENT
  | OT_LAST_OPTION, OT_LAST_OPTION => true
  | _, _ => false
  end.

(** include/Argos/Enums.hpp, Visibility: bit 0 is USAGE, bit 1 is TEXT. *)
Record visibility := mk_vis { vis_usage : bool; vis_text : bool }.
Definition vis_normal : visibility := mk_vis true true.
Definition vis_hidden : visibility := mk_vis false false.

(** include/Argos/Enums.hpp 201-260, TextId. *)
Inductive text_id :=
  TX_INITIAL_TEXT | TX_USAGE_TITLE | TX_USAGE | TX_ABOUT | TX_SUBCOMMANDS_TITLE
| TX_ARGUMENTS_TITLE | TX_OPTIONS_TITLE | TX_HELP | TX_FINAL_TEXT | TX_ERROR_USAGE.

Definition text_id_eqb (a b : text_id) : bool :=
  match a, b with
  | TX_INITIAL_TEXT, TX_INITIAL_TEXT | TX_USAGE_TITLE, TX_USAGE_TITLE
  | TX_USAGE, TX_USAGE | TX_ABOUT, TX_ABOUT
  | TX_SUBCOMMANDS_TITLE, TX_SUBCOMMANDS_TITLE
  | TX_ARGUMENTS_TITLE, TX_ARGUMENTS_TITLE
  | TX_OPTIONS_TITLE, TX_OPTIONS_TITLE | TX_HELP, TX_HELP
  | TX_FINAL_TEXT, TX_FINAL_TEXT | TX_ERROR_USAGE, TX_ERROR_USAGE => true
  | _, _ => false
  end.

(** Exceptions (ARGOS_THROW) by cause. *)
Inductive exn :=
| ENoFlags                       (* "Option must have one or more flags." *)
| EInvalidFlag (flag : str)
| EEqualMiddle (flag : str)
| EEqualNoArgument (flag : str)
| EArgumentAndConstant
| ENoneConstant
| ENoneAlias
| EAppendNothing
| EClearMandatory
| ERequireNoCommands
| EDuplicateFlag (flag : str)
| EConflictingFlags (f1 f2 : str)
| EEmptyItem                     (* already added *)
| EArgumentsAndCommands
| ENoName
| EDuplicateText
| EUnknownValue (name : str)
| EMultipleValues
| ENextAfterError
| ENoCurrent
| EParseError                    (* "Error while parsing arguments." *)
| ECallback                      (* thrown by the user's callback itself *)
| EMovedParser
| EMovedItem                     (* an Argument, Option or Command after release() *)
| ENoStopOption
| EStyleChange
| EBadCount
| EUnknownCommand (name : str)
| ENoArgv.                       (* "argc and argv must at least contain ..." *)

(** Result of an operation that may throw. *)
Inductive exc (A : Type) := Val (a : A) | Exn (e : exn).
Arguments Val {A} a.
Arguments Exn {A} e.

(** [ParsedArgumentsImpl::m_values], a
    std::multimap<ValueId, pair<string, ArgumentId>>, in iteration order. *)
Definition store := list (N * (str * N)).

(** What a callback may do through its CallbackArguments
    (include/Argos/Callbacks.hpp 25-61, ParsedArgumentsBuilder.cpp 20-118):
    write to the stream, change values by name or by view (a view carries a
    value id and an argument id), report an error, add arguments, throw. *)
Inductive value_key := ByName (name : str) | ByView (vid aid : N).
Inductive value_op :=
| VAssign (k : value_key) (v : str)
| VAppend (k : value_key) (v : str)
| VClear (k : value_key)
| VError (msg : str)
| VErrorAt (msg : str) (aid : N).   (** [error(msg, view)] *)

Record cb_effect := mk_eff {
  eff_out : list str;
  eff_ops : list value_op;
  eff_throws : bool;       (** throws after having done the above *)
  eff_new : list str       (** [new_arguments] *)
}.

(** A callback may depend on its own state, hence on the number of callback
    invocations so far, on the value and on the values parsed so far. *)
Definition callback := nat -> str -> store -> cb_effect.

(** ArgumentData.hpp 16-29. *)
Record arg_data := mk_arg {
  a_name : str;
  a_help : str;
  a_section : str;
  a_alias : str;
  a_callback : option callback;
  a_min : N;
  a_max : N;
  a_visibility : visibility;
  a_value_id : N;
  a_argument_id : N
}.

(** OptionData.hpp 17-34. *)
Record opt_data := mk_opt {
  o_flags : list str;
  o_help : str;
  o_section : str;
  o_alias : str;
  o_argument : str;
  o_constant : str;
  o_initial_value : str;
  o_callback : option callback;
  o_operation : option_operation;
  o_type : option_type;
  o_visibility : visibility;
  o_optional : bool;
  o_argument_id : N;
  o_value_id : N
}.

(** CommandData.hpp 16-75. [c_index] is [option_index]. *)
Inductive cmd_data := mk_cmd {
  c_arguments : list arg_data;
  c_options : list opt_data;
  c_commands : list cmd_data;
  c_current_section : str;
  c_name : str;
  c_full_name : str;
  c_texts : list (text_id * str);
  c_visibility : visibility;
  c_require : option bool;
  c_multi : bool;
  c_section : str;
  c_argument_id : N;
  c_index : list (str * opt_data)
}.

(** ParserData.hpp 28-41, ParserSettings. *)
Record settings := mk_settings {
  s_argument_callback : option (arg_data -> callback);
  s_option_callback : option (opt_data -> callback);
  s_style : option_style;
  s_auto_exit : bool;
  s_abbreviations : bool;
  s_ignore_options : bool;
  s_ignore_arguments : bool;
  s_case_insensitive : bool;
  s_generate_help : bool;
  s_normal_exit : Z;
  s_error_exit : Z
}.

(** The callbacks for all arguments and options: they are given a view of the argument or
    option that they are called for (include/Argos/Callbacks.hpp 25-34). *)
Definition argument_cb (s : settings) (a : arg_data) : option callback :=
  option_map (fun f => f a) (s_argument_callback s).
Definition option_cb (s : settings) (o : opt_data) : option callback :=
  option_map (fun f => f o) (s_option_callback s).

(** ParserData.hpp 28-41: the default member initialisers. *)
Definition default_settings : settings :=
  mk_settings None None STANDARD true false false false false true 0 64.

(** ParserData.hpp 50-56, ParserData. Of HelpSettings only what the modelled
    code uses: the line width and the word split rules. *)
Record parser_data := mk_data {
  d_command : cmd_data;
  d_settings : settings;
  d_version : str;
  d_line_width : N;
  d_word_rules : list str
}.

(** Default-constructed data (the headers' member initialisers), with the name
    set as the constructors in Argument.cpp, Option.cpp and Command.cpp do. *)
Definition new_argument (name : str) : arg_data :=
  mk_arg name [] [] [] None 1 1 vis_normal 0 0.
Definition new_option (flags : list str) : opt_data :=
  mk_opt flags [] [] [] [] [] [] None OP_ASSIGN OT_NORMAL vis_normal true 0 0.
Definition new_command (name : str) : cmd_data :=
  mk_cmd [] [] [] [] name [] [] vis_normal None false [] 0 [].

(** Field updates. *)
Definition set_o_constant (o : opt_data) (c : str) : opt_data :=
  mk_opt (o_flags o) (o_help o) (o_section o) (o_alias o) (o_argument o) c
    (o_initial_value o) (o_callback o) (o_operation o) (o_type o)
    (o_visibility o) (o_optional o) (o_argument_id o) (o_value_id o).
Definition set_o_section (o : opt_data) (s : str) : opt_data :=
  mk_opt (o_flags o) (o_help o) s (o_alias o) (o_argument o) (o_constant o)
    (o_initial_value o) (o_callback o) (o_operation o) (o_type o)
    (o_visibility o) (o_optional o) (o_argument_id o) (o_value_id o).
Definition set_o_ids (o : opt_data) (aid vid : N) : opt_data :=
  mk_opt (o_flags o) (o_help o) (o_section o) (o_alias o) (o_argument o)
    (o_constant o) (o_initial_value o) (o_callback o) (o_operation o) (o_type o)
    (o_visibility o) (o_optional o) aid vid.
Definition set_a_section (a : arg_data) (s : str) : arg_data :=
  mk_arg (a_name a) (a_help a) s (a_alias a) (a_callback a) (a_min a) (a_max a)
    (a_visibility a) (a_value_id a) (a_argument_id a).
Definition set_a_ids (a : arg_data) (aid vid : N) : arg_data :=
  mk_arg (a_name a) (a_help a) (a_section a) (a_alias a) (a_callback a)
    (a_min a) (a_max a) (a_visibility a) vid aid.
Definition set_c_section (c : cmd_data) (s : str) : cmd_data :=
  mk_cmd (c_arguments c) (c_options c) (c_commands c) (c_current_section c)
    (c_name c) (c_full_name c) (c_texts c) (c_visibility c) (c_require c)
    (c_multi c) s (c_argument_id c) (c_index c).
Definition set_c_items (c : cmd_data) (args : list arg_data)
  (opts : list opt_data) (cmds : list cmd_data) : cmd_data :=
  mk_cmd args opts cmds (c_current_section c)
    (c_name c) (c_full_name c) (c_texts c) (c_visibility c) (c_require c)
    (c_multi c) (c_section c) (c_argument_id c) (c_index c).
Definition set_c_name (c : cmd_data) (name : str) : cmd_data :=
  mk_cmd (c_arguments c) (c_options c) (c_commands c) (c_current_section c)
    name (c_full_name c) (c_texts c) (c_visibility c) (c_require c)
    (c_multi c) (c_section c) (c_argument_id c) (c_index c).

(* ------------------------------------------------------------------------ *)
(** ** OptionData.cpp *)

(** OptionData.cpp 15-26, [check_flag_with_equal]. *)
Definition check_flag_with_equal (flag : str) (o : opt_data) : exc bool :=
  match find_char c_eq flag with
  | None => Val true
  | Some p =>
      if negb (p =? length flag - 1) then Exn (EEqualMiddle flag)
      else if is_empty (o_argument o) then Exn (EEqualNoArgument flag)
      else Val true
  end.

Definition white_space : str := [c_space; c_tab; c_lf; c_cr].

(** OptionData.cpp 28-42, [check_standard_flag]. *)
Definition check_standard_flag (flag : str) (o : opt_data) : exc bool :=
  match find_first_of white_space flag with
  | Some _ => Val false
  | None =>
      if length flag <? 2 then Val false
      else match flag with
           | c0 :: c1 :: _ =>
               if negb (Ascii.eqb c0 c_dash) then Val false
               else if length flag =? 2 then Val true
               else if negb (Ascii.eqb c1 c_dash) then Val false
               else check_flag_with_equal flag o
           | _ => Val false
           end
  end.

(** OptionData.cpp 44-54, [check_flag]. *)
Definition check_flag (flag : str) (prefix : ascii) (o : opt_data) : exc bool :=
  if length flag <? 2 then Val false
  else match flag with
       | c0 :: _ =>
           if negb (Ascii.eqb c0 prefix) then Val false
           else match find_first_of white_space flag with
                | Some _ => Val false
                | None => if length flag =? 2 then Val true
                          else check_flag_with_equal flag o
                end
       | [] => Val false
       end.

(** OptionData.cpp 62-81, the loop over the flags. *)
Fixpoint check_flags (style : option_style) (o : opt_data) (flags : list str)
  : exc unit :=
  match flags with
  | [] => Val tt
  | f :: r =>
      match (match style with
             | STANDARD => check_standard_flag f o
             | SLASH => check_flag f c_slash o
             | DASH => check_flag f c_dash o
             end) with
      | Exn e => Exn e
      | Val false => Exn (EInvalidFlag f)
      | Val true => check_flags style o r
      end
  end.

(** OptionData.cpp 57-109, [validate_and_update]. *)
Definition validate_and_update (o : opt_data) (style : option_style)
  : exc opt_data :=
  if is_empty (o_flags o) then Exn ENoFlags
  else
    match check_flags style o (o_flags o) with
    | Exn e => Exn e
    | Val _ =>
        let no_arg := is_empty (o_argument o) in
        let no_const := is_empty (o_constant o) in
        if negb no_arg && negb no_const then Exn EArgumentAndConstant
        else
          match o_operation o with
          | OP_NONE =>
              if negb no_const then Exn ENoneConstant
              else if negb (is_empty (o_alias o)) then Exn ENoneAlias
              else Val o
          | OP_ASSIGN =>
              if no_arg && no_const then Val (set_o_constant o ($"1"))
              else Val o
          | OP_APPEND =>
              if no_arg && no_const then Exn EAppendNothing else Val o
          | OP_CLEAR =>
              let o' := if negb no_arg || negb no_const
                        then set_o_constant o ($"1") else o in
              if negb (o_optional o) then Exn EClearMandatory else Val o'
          end
    end.

(* ------------------------------------------------------------------------ *)
(** ** CommandData.cpp *)

(** CommandData.cpp 22-42 and 62-92: the copy constructor and copy assignment.
    [visibility] and [option_index] are not copied by the constructor: the copy
    gets the defaults. *)
Fixpoint copy_command (c : cmd_data) : cmd_data :=
  mk_cmd (c_arguments c) (c_options c) (map copy_command (c_commands c))
    (c_current_section c) (c_name c) (c_full_name c) (c_texts c) vis_normal
    (c_require c) (c_multi c) (c_section c) (c_argument_id c) [].

(** CommandData.cpp 114-125, [add(ArgumentData)]. [None] is a null pointer. *)
Definition add_argument (c : cmd_data) (a : option arg_data) : exc cmd_data :=
  match a with
  | None => Exn EEmptyItem
  | Some a =>
      if negb (is_empty (c_commands c)) then Exn EArgumentsAndCommands
      else if is_empty (a_name a) then Exn ENoName
      else
        let a' := if is_empty (a_section a)
                  then set_a_section a (c_current_section c) else a in
        Val (set_c_items c (c_arguments c ++ [a']) (c_options c) (c_commands c))
  end.

(** CommandData.cpp 127-136, [add(OptionData)]. *)
Definition add_option (c : cmd_data) (o : option opt_data) : exc cmd_data :=
  match o with
  | None => Exn EEmptyItem
  | Some o =>
      if is_empty (o_flags o) then Exn ENoFlags
      else
        let o' := if is_empty (o_section o)
                  then set_o_section o (c_current_section c) else o in
        Val (set_c_items c (c_arguments c) (c_options c ++ [o']) (c_commands c))
  end.

(** CommandData.cpp 138-149, [add(CommandData)]. *)
Definition add_command (c : cmd_data) (d : option cmd_data) : exc cmd_data :=
  match d with
  | None => Exn EEmptyItem
  | Some d =>
      if negb (is_empty (c_arguments c)) then Exn EArgumentsAndCommands
      else if is_empty (c_name d) then Exn ENoName
      else
        let d' := if is_empty (c_section d)
                  then set_c_section d (c_current_section c) else d in
        Val (set_c_items c (c_arguments c) (c_options c) (c_commands c ++ [d']))
  end.

Definition find_text (ts : list (text_id * str)) (t : text_id) : option str :=
  option_map snd (find (fun p => text_id_eqb (fst p) t) ts).

(** Insertion sort, standing for std::sort: insertion from the back, as
    libstdc++ does for short ranges. [racc] is the sorted part, reversed. *)
Fixpoint insert_back {A} (lt : A -> A -> bool) (x : A) (racc : list A) : list A :=
  match racc with
  | [] => [x]
  | y :: r => if lt x y then y :: insert_back lt x r else x :: y :: r
  end.

Definition sort_by {A} (lt : A -> A -> bool) (l : list A) : list A :=
  rev (fold_left (fun racc x => insert_back lt x racc) l []).

(** [std::adjacent_find]. *)
Fixpoint adjacent_find {A} (eq : A -> A -> bool) (l : list A) : option (A * A) :=
  match l with
  | x :: r =>
      match r with
      | y :: _ => if eq x y then Some (x, y) else adjacent_find eq r
      | [] => None
      end
  | [] => None
  end.

(** CommandData.cpp 175-180: the entries of the index before sorting. *)
Definition index_entries (opts : list opt_data) : list (str * opt_data) :=
  flat_map (fun o => map (fun f => (f, o)) (o_flags o)) opts.

(** CommandData.cpp 187-207: what [build_option_index] does with the sorted
    entries. *)
Definition check_index (ci : bool) (index : list (str * opt_data))
  : exc (list (str * opt_data)) :=
  match adjacent_find (fun a b => are_equal (fst a) (fst b) ci) index with
  | None => Val index
  | Some (a, b) =>
      if str_eqb (fst a) (fst b) then Exn (EDuplicateFlag (fst a))
      else Exn (EConflictingFlags (fst a) (fst b))
  end.

(** CommandData.cpp 173-208, [build_option_index]. *)
Definition build_option_index (ci : bool) (opts : list opt_data)
  : exc (list (str * opt_data)) :=
  check_index ci
    (sort_by (fun a b => is_less (fst a) (fst b) ci) (index_entries opts)).

(** [std::lower_bound] by bisection: returns the index of the first element for
    which [lt elem] is false (if the range is partitioned). [fuel] bounds the
    number of halvings by [len]. *)
Fixpoint lower_bound_loop {A} (lt : A -> bool) (l : list A)
  (fuel first len : nat) : nat :=
  match fuel with
  | O => first
  | S fuel' =>
      match len with
      | O => first
      | _ =>
          let half := Nat.div2 len in
          match nth_error l (first + half) with
          | Some m =>
              if lt m then lower_bound_loop lt l fuel' (first + half + 1) (len - half - 1)
              else lower_bound_loop lt l fuel' first half
          | None => first
          end
      end
  end.

Definition lower_bound {A} (lt : A -> bool) (l : list A) : nat :=
  lower_bound_loop lt l (length l) 0 (length l).

(** CommandData.cpp 227-255, [find_option_impl]. *)
Definition find_option_impl (index : list (str * opt_data)) (flag : str)
  (abbrev ci : bool) : option opt_data :=
  let i := lower_bound (fun e => is_less (fst e) flag ci) index in
  match nth_error index i with
  | None => None
  | Some (f, o) =>
      if str_eqb f flag then Some o
      else if ci && are_equal_ci f flag then Some o
      else if negb abbrev then None
      else if negb (starts_with f flag ci) then None
      else match nth_error index (S i) with
           | Some (g, _) => if starts_with g flag ci then None else Some o
           | None => Some o
           end
  end.

(** CommandData.cpp 210-225, [find_option], on the index. *)
Definition find_option_in (index : list (str * opt_data)) (flag : str)
  (abbrev ci : bool) : option opt_data :=
  match find_option_impl index flag abbrev ci with
  | Some o => Some o
  | None =>
      if (2 <? length flag)
         && match last_char flag with Some c => Ascii.eqb c c_eq | None => false end
      then
        match find_option_impl index (firstn (length flag - 1) flag) abbrev ci with
        | Some o => if is_empty (o_argument o) then None else Some o
        | None => None
        end
      else None
  end.

Definition find_option (c : cmd_data) (flag : str) (abbrev ci : bool)
  : option opt_data :=
  find_option_in (c_index c) flag abbrev ci.

(** CommandData.cpp 257-266, [find_command]. *)
Definition find_command (c : cmd_data) (name : str) (ci : bool)
  : option cmd_data :=
  find (fun d => are_equal (c_name d) name ci) (c_commands c).

(** CommandData.cpp 270-279, [update_require_command]. *)
Definition update_require (require : option bool) (cmds : list cmd_data)
  : exc (option bool) :=
  if match require with Some true => is_empty cmds | _ => false end
  then Exn ERequireNoCommands
  else match require with
       | None => Val (Some (negb (is_empty cmds)))
       | Some _ => Val require
       end.

(** CommandData.cpp 281-289, [has_help_option]. *)
Definition has_help_option (opts : list opt_data) : bool :=
  existsb (fun o => option_type_eqb (o_type o) OT_HELP) opts.

(** CommandData.cpp 410-423, [has_flag]. *)
Definition has_flag (opts : list opt_data) (flag : str) (ci : bool) : bool :=
  existsb (fun o => existsb (fun f => are_equal f flag ci) (o_flags o)) opts.

(** CommandData.cpp 297-316: the flags of the generated help option. *)
Definition help_flags (opts : list opt_data) (st : settings) : list str :=
  let ci := s_case_insensitive st in
  match s_style st with
  | STANDARD =>
      (if negb (has_flag opts ($"-h") ci) then [$"-h"] else [])
      ++ (if negb (has_flag opts ($"--help") ci) then [$"--help"] else [])
  | SLASH => if negb (has_flag opts ($"/?") ci) then [$"/?"] else []
  | DASH =>
      if negb (has_flag opts ($"-h") ci) then [$"-h"]
      else if negb (has_flag opts ($"-help") ci) then [$"-help"] else []
  end.

(** CommandData.cpp 291-326, [add_help_option]. *)
Definition add_help_option (opts : list opt_data) (section : str) (st : settings)
  : list opt_data :=
  if negb (s_generate_help st) then opts
  else if has_help_option opts then opts
  else
    let flags := help_flags opts st in
    if is_empty flags then opts
    else opts ++ [mk_opt flags ($"Display this help text.") section [] []
                    ($"1") [] None OP_ASSIGN OT_HELP vis_normal true 0 0].

(** CommandData.cpp 333-372, struct InternalIdMaker: [explicit_ids] and [id]. *)
Record id_maker := mk_ids { im_map : list (str * N); im_id : N }.

(** CommandData.cpp 343-349, [find_value_id]. *)
Definition im_find (m : id_maker) (name : str) : option N :=
  option_map snd (find (fun p => str_eqb (fst p) name) (im_map m)).

(** [explicit_ids.emplace(name, id)]: does nothing if the key exists. *)
Definition im_emplace (m : id_maker) (name : str) (id : N) : id_maker :=
  match im_find m name with
  | Some _ => m
  | None => mk_ids ((name, id) :: im_map m) (im_id m)
  end.

(** CommandData.cpp 351-358, [get_value_id(name)]. *)
Definition im_get (m : id_maker) (name : str) : N * id_maker :=
  match im_find m name with
  | Some id => (id, m)
  | None =>
      let id := (im_id m + 1)%N in
      (id, im_emplace (mk_ids (im_map m) id) name id)
  end.

(** CommandData.cpp 362-366: the first name that has an id already. *)
Fixpoint im_find_any (m : id_maker) (names : list str) : option N :=
  match names with
  | [] => None
  | n :: r => match im_find m n with
              | Some id => Some id
              | None => im_find_any m r
              end
  end.

Definition im_emplace_all (m : id_maker) (names : list str) (id : N) : id_maker :=
  fold_left (fun m n => im_emplace m n id) names m.

(** CommandData.cpp 360-371, [get_value_id(names)]. *)
Definition im_get_any (m : id_maker) (names : list str) : N * id_maker :=
  match im_find_any m names with
  | Some id => (id, m)
  | None =>
      let id := (im_id m + 1)%N in
      (id, im_emplace_all (mk_ids (im_map m) id) names id)
  end.

(** CommandData.cpp 376-388: ids of the arguments. *)
Fixpoint set_argument_ids (m : id_maker) (aid : N) (args : list arg_data)
  : list arg_data * id_maker * N :=
  match args with
  | [] => ([], m, aid)
  | a :: r =>
      let aid' := (aid + 1)%N in
      let (vid, m') :=
        if negb (is_empty (a_alias a)) then
          let (v, m1) := im_get m (a_alias a) in (v, im_emplace m1 (a_name a) v)
        else im_get m (a_name a) in
      let '(r', m'', aid'') := set_argument_ids m' aid' r in
      (set_a_ids a aid' vid :: r', m'', aid'')
  end.

(** CommandData.cpp 389-404: ids of the options. *)
Fixpoint set_option_ids (m : id_maker) (aid : N) (opts : list opt_data)
  : list opt_data * id_maker * N :=
  match opts with
  | [] => ([], m, aid)
  | o :: r =>
      let aid' := (aid + 1)%N in
      let (vid, m') :=
        match o_operation o with
        | OP_NONE => (o_value_id o, m)
        | _ =>
            if negb (is_empty (o_alias o)) then
              let (v, m1) := im_get m (o_alias o) in
              (v, im_emplace_all m1 (o_flags o) v)
            else im_get_any m (o_flags o)
        end in
      let '(r', m'', aid'') := set_option_ids m' aid' r in
      (set_o_ids o aid' vid :: r', m'', aid'')
  end.

(** CommandData.cpp 328-407, [set_internal_ids]: the updated arguments and
    options and the last value id and argument id used. *)
Definition set_internal_ids (args : list arg_data) (opts : list opt_data)
  (vid aid : N) : list arg_data * list opt_data * N * N :=
  let '(args', m1, aid1) := set_argument_ids (mk_ids [] vid) aid args in
  let '(opts', m2, aid2) := set_option_ids m1 aid1 opts in
  (args', opts', im_id m2, aid2).

(** CommandData.cpp 433-434: validation of all options. *)
Fixpoint validate_all (style : option_style) (opts : list opt_data)
  : exc (list opt_data) :=
  match opts with
  | [] => Val []
  | o :: r =>
      match validate_and_update o style with
      | Exn e => Exn e
      | Val o' => match validate_all style r with
                  | Exn e => Exn e
                  | Val r' => Val (o' :: r')
                  end
      end
  end.

(** CommandData.cpp 426-448, [finish_initialization(CommandData)]. [full_name]
    is the full name given by the parent (line 445); for the top-level command
    see [finish_parser]. *)
Fixpoint finish_command (st : settings) (full_name : str) (start_id argument_id : N)
  (c : cmd_data) {struct c} : exc cmd_data :=
  match c with
  | mk_cmd args opts cmds cursec name _ texts vis require multi sec _ _ =>
      match validate_all (s_style st) opts with
      | Exn e => Exn e
      | Val opts1 =>
          match update_require require cmds with
          | Exn e => Exn e
          | Val require' =>
              let opts2 := add_help_option opts1 cursec st in
              let aid := (argument_id + 1)%N in
              let '(args', opts', vid', aid') :=
                set_internal_ids args opts2 start_id aid in
              match build_option_index (s_case_insensitive st) opts' with
              | Exn e => Exn e
              | Val index =>
                  match
                    (fix go (l : list cmd_data) : exc (list cmd_data) :=
                       match l with
                       | [] => Val []
                       | d :: r =>
                           match finish_command st (name ++ c_space :: c_name d)
                                   vid' aid' d with
                           | Exn e => Exn e
                           | Val d' => match go r with
                                       | Exn e => Exn e
                                       | Val r' => Val (d' :: r')
                                       end
                           end
                       end) cmds
                  with
                  | Exn e => Exn e
                  | Val cmds' =>
                      Val (mk_cmd args' opts' cmds' cursec name full_name texts
                             vis require' multi sec aid index)
                  end
              end
          end
      end
  end.

(* ------------------------------------------------------------------------ *)
(** ** ParserData.cpp *)

(** ParserData.cpp 22-37: the flag of the generated version option. *)
Definition version_flag (style : option_style) : str :=
  match style with
  | STANDARD => $"--version"
  | SLASH => $"/VERSION"
  | DASH => $"-version"
  end.

(** ParserData.cpp 17-57, [add_version_option]. The callback writes the program
    name (ParsedArgumentsBuilder.cpp 126-129) and the version. *)
Definition add_version_option (opts : list opt_data) (section name version : str)
  (st : settings) : list opt_data :=
  if is_empty version then opts
  else
    let flag := version_flag (s_style st) in
    if has_flag opts flag (s_case_insensitive st) then opts
    else opts ++ [mk_opt [flag] ($"Display the program version.") section [] []
                    ($"1") []
                    (Some (fun _ _ _ =>
                       mk_eff [name ++ c_space :: version ++ [c_lf]] [] false []))
                    OP_ASSIGN OT_STOP vis_normal true 0 0].

(** ParserData.cpp 60-64, [finish_initialization(ParserData)], and
    CommandData.cpp 431-432 for the full name of the top-level command. The
    initial ids are 0 (CommandData.hpp 84-88, default arguments). *)
Definition finish_parser (d : parser_data) : exc parser_data :=
  let c := d_command d in
  let opts := add_version_option (c_options c) (c_current_section c) (c_name c)
                (d_version d) (d_settings d) in
  let c1 := set_c_items c (c_arguments c) opts (c_commands c) in
  let full := if is_empty (c_full_name c) then c_name c else c_full_name c in
  match finish_command (d_settings d) full 0 0 c1 with
  | Exn e => Exn e
  | Val c2 => Val (mk_data c2 (d_settings d) (d_version d) (d_line_width d)
                     (d_word_rules d))
  end.

(** HelpText.cpp 427-428: the loop of [get_name]. *)
Fixpoint name_flags (name : str) (flags : list str) : str :=
  match flags with
  | [] => name
  | f :: r => name_flags (name ++ $", " ++ f) r
  end.

(** HelpText.cpp 415-433, [get_name]. *)
Definition get_name (c : cmd_data) (argument_id : N) : str :=
  match find (fun a => (a_argument_id a =? argument_id)%N) (c_arguments c) with
  | Some a => a_name a
  | None =>
      match find (fun o => (o_argument_id o =? argument_id)%N) (c_options c) with
      | Some o => match o_flags o with f :: r => name_flags f r | [] => [] end
      | None => []
      end
  end.
