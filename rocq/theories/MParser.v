(** Model of src/Argos/ArgumentIteratorImpl.cpp and ArgumentIterator.cpp.
    No proofs in this file. *)
From Verif Require Import Base MStrings MParseInt MOptIter MData MCounter MValues.

(** ArgumentIteratorImpl.cpp 20-26, [is_option]. *)
Definition is_option (s : str) (style : option_style) : bool :=
  match s with
  | c :: _ :: _ =>
      Ascii.eqb c (match style with SLASH => c_slash | _ => c_dash end)
  | _ => false
  end.

(** ArgumentIteratorImpl.cpp 28-41, [make_option_iterator]. *)
Definition make_option_iterator (style : option_style) (args : list str)
  : opt_iter :=
  match style with
  | SLASH => it_start (KPrefix c_slash) args
  | DASH => it_start (KPrefix c_dash) args
  | STANDARD => it_start KStandard args
  end.

(** The error messages, by cause; the text is given by [error_text]. *)
Inductive errmsg :=
| MsgNoValue (flag : str)
| MsgUnknownOption (current : str)
| MsgUnknownCommand (arg : str)
| MsgTooManyArguments (value : str)
| MsgNoCommand
| MsgTooFewArguments (exact : bool) (expected received : N)
| MsgMandatoryMissing (flags : str)
| MsgUser (text : str).

(** ArgumentIteratorImpl.cpp 127, 165, 182, 271, 316, 414, 428-432, 521. *)
Definition error_text (m : errmsg) : str :=
  match m with
  | MsgNoValue flag => flag ++ $": no value given."
  | MsgUnknownOption cur => $"Unknown option: " ++ cur
  | MsgUnknownCommand arg => $"Unknown command: " ++ arg
  | MsgTooManyArguments v =>
      $"Too many arguments, starting from """ ++ v ++ $"""."
  | MsgNoCommand => $"No command was given."
  | MsgTooFewArguments exact lo n =>
      (if exact then $"Too few arguments. Expected "
       else $"Too few arguments. Expected at least ")
      ++ N_to_string lo ++ $", received " ++ N_to_string n ++ $"."
  | MsgMandatoryMissing flags => $"Mandatory option is missing: " ++ flags
  | MsgUser t => t
  end.

(** Observable effects in order: text written by callbacks, help texts and error
    messages (with the command they are written for), callback invocations
    (argument id of the option or argument, value, and whether it is the
    parser-wide callback). The layout of help and error text is left to
    MText.v/HelpText.cpp. *)
Inductive event :=
| EvText (s : str)
| EvHelp (command : cmd_data)
| EvError (command : cmd_data) (m : errmsg)
| EvOptionCallback (global : bool) (aid : N) (value : str)
| EvArgumentCallback (global : bool) (aid : N) (value : str).

(** ArgumentIteratorImpl.hpp: enum State. *)
Inductive pmode := ARGUMENTS_AND_OPTIONS | ARGUMENTS_ONLY | ST_DONE | ST_ERROR.

(** ArgumentIteratorImpl.hpp 19-30: IteratorResultCode and IteratorResult. *)
Inductive iter_code := IC_ARGUMENT | IC_OPTION | IC_COMMAND | IC_DONE
                     | IC_UNKNOWN | IC_ERROR.
Inductive iter_item := ItNone | ItArgument (a : arg_data) | ItOption (o : opt_data)
                     | ItCommand (c : cmd_data).
Record iter_result := mk_ir { ir_code : iter_code; ir_item : iter_item; ir_value : str }.

(** The members of ArgumentIteratorImpl. [m_parsed_args] is [ps_cur] (its
    [back()]) and [ps_parents] (the others, nearest first): the vector is never
    empty. A sub-command's results are in [m_commands] of its parent from the
    start in C++ (ParsedArgumentsImpl.cpp 153-159); here they are added to the
    parent when the level is closed, see [pop_levels] and [all_levels].
    [ps_calls] counts callback invocations and [ps_events] records effects. *)
Record pstate := mk_ps {
  ps_command : cmd_data;          (** [m_command] *)
  ps_cur : level;
  ps_parents : list level;
  ps_iter : opt_iter;             (** [m_iterator] *)
  ps_counter : arg_counter;       (** [m_argument_counter] *)
  ps_mode : pmode;                (** [m_state] *)
  ps_calls : nat;
  ps_events : list event
}.

Definition set_cur (st : pstate) (l : level) : pstate :=
  mk_ps (ps_command st) l (ps_parents st) (ps_iter st) (ps_counter st)
    (ps_mode st) (ps_calls st) (ps_events st).
Definition set_parents (st : pstate) (ls : list level) : pstate :=
  mk_ps (ps_command st) (ps_cur st) ls (ps_iter st) (ps_counter st)
    (ps_mode st) (ps_calls st) (ps_events st).
Definition set_iter (st : pstate) (it : opt_iter) : pstate :=
  mk_ps (ps_command st) (ps_cur st) (ps_parents st) it (ps_counter st)
    (ps_mode st) (ps_calls st) (ps_events st).
Definition set_counter (st : pstate) (ac : arg_counter) : pstate :=
  mk_ps (ps_command st) (ps_cur st) (ps_parents st) (ps_iter st) ac
    (ps_mode st) (ps_calls st) (ps_events st).
Definition set_mode (st : pstate) (m : pmode) : pstate :=
  mk_ps (ps_command st) (ps_cur st) (ps_parents st) (ps_iter st)
    (ps_counter st) m (ps_calls st) (ps_events st).
Definition add_event (st : pstate) (e : event) : pstate :=
  mk_ps (ps_command st) (ps_cur st) (ps_parents st) (ps_iter st)
    (ps_counter st) (ps_mode st) (ps_calls st) (ps_events st ++ [e]).
Definition count_call (st : pstate) : pstate :=
  mk_ps (ps_command st) (ps_cur st) (ps_parents st) (ps_iter st)
    (ps_counter st) (ps_mode st) (S (ps_calls st)) (ps_events st).
Definition set_values (st : pstate) (vs : store) : pstate :=
  set_cur st (set_l_values (ps_cur st) vs).

(** How an operation may end: normally, by exit(code), by an exception, in
    undefined behaviour, or by running out of fuel (non-termination). *)
Inductive outcome (A : Type) :=
| Ret (a : A) (st : pstate)
| Exits (code : Z) (st : pstate)
| Throws (e : exn) (st : pstate)
| Undefined
| NoFuel.
Arguments Ret {A} a st.
Arguments Exits {A} code st.
Arguments Throws {A} e st.
Arguments Undefined {A}.
Arguments NoFuel {A}.

Definition M (A : Type) := pstate -> outcome A.
Definition ret {A} (a : A) : M A := fun st => Ret a st.
Definition bind {A B} (m : M A) (f : A -> M B) : M B := fun st =>
  match m st with
  | Ret a st' => f a st'
  | Exits c st' => Exits c st'
  | Throws e st' => Throws e st'
  | Undefined => Undefined
  | NoFuel => NoFuel
  end.
Notation "x <- m ;; f" := (bind m (fun x => f))
  (at level 61, m at next level, right associativity).
Notation "m ;;; f" := (bind m (fun _ => f)) (at level 61, right associativity).
Definition modify (f : pstate -> pstate) : M unit := fun st => Ret tt (f st).
Definition gets {A} (f : pstate -> A) : M A := fun st => Ret (f st) st.
Definition throw {A} (e : exn) : M A := fun st => Throws e st.
Definition exit_with {A} (code : Z) : M A := fun st => Exits code st.
Definition emit (e : event) : M unit := modify (fun st => add_event st e).

(** The tokenizer operations on [m_iterator]. *)
Definition m_next : M (option str) := fun st =>
  match it_next (ps_iter st) with
  | Ok (r, it) => Ret r (set_iter st it)
  | Bad => Undefined
  end.
Definition m_next_value : M (option str) := fun st =>
  match it_next_value (ps_iter st) with
  | Ok (r, it) => Ret r (set_iter st it)
  | Bad => Undefined
  end.
Definition m_current : M str := fun st =>
  match it_current (ps_iter st) with
  | Some s => Ret s st
  | None => Throws ENoCurrent st
  end.

Section WithSettings.
(** [m_data->parser_settings]. *)
Variable cfg : settings.

(** ArgumentIteratorImpl.cpp 339-344,
    [copy_remaining_arguments_to_parser_result]. *)
Definition copy_remaining : M unit := fun st =>
  match it_remaining (ps_iter st) with
  | Ok (args, it) =>
      Ret tt (set_cur (set_iter st it) (add_unprocessed (ps_cur st) args))
  | Bad => Undefined
  end.

(** Sets the result code of all of [m_parsed_args]:
    ArgumentIteratorImpl.cpp 421-422, 505-506. *)
Definition set_all_results (rc : result_code) (st : pstate) : pstate :=
  set_parents (set_cur st (set_result rc (ps_cur st)))
    (map (set_result rc) (ps_parents st)).

(** ArgumentIteratorImpl.cpp 496-508, [error]. *)
Definition error (m : errmsg) : M unit :=
  c <- gets ps_command ;;
  emit (EvError c m) ;;;
  (if s_auto_exit cfg then exit_with (s_error_exit cfg)
   else
     copy_remaining ;;;
     modify (set_all_results RC_FAILURE) ;;;
     modify (fun st => set_mode st ST_ERROR)).

(** ArgumentIteratorImpl.cpp 437-452, [find_first_multi_command_parent]: the
    number of levels to go up (vector index [size - 1 - k]). *)
Fixpoint multi_parent_loop (parents : list level) (k : nat) : option nat :=
  match parents with
  | [] => None
  | p :: r => if c_multi (l_command p) then Some k else multi_parent_loop r (S k)
  end.
Definition find_first_multi_command_parent (st : pstate) : option nat :=
  multi_parent_loop (ps_parents st) 1.

(** [m_parsed_args[size - 1 - k]->command()]. *)
Definition parent_command (st : pstate) (k : nat) : option cmd_data :=
  match k with
  | O => Some (l_command (ps_cur st))
  | S k' => option_map l_command (nth_error (ps_parents st) k')
  end.

(** ArgumentIteratorImpl.cpp 454-470, [find_sibling_command]. *)
Definition find_sibling_command (st : pstate) (name : str)
  : option (cmd_data * nat) :=
  if negb (is_complete (ps_counter st)) then None
  else match find_first_multi_command_parent st with
       | None => None
       | Some k =>
           match parent_command st k with
           | None => None
           | Some p => match find_command p name (s_case_insensitive cfg) with
                       | Some c => Some (c, k)
                       | None => None
                       end
           end
       end.

(** Closing the innermost [k] levels: each is added to its parent's
    sub-commands. *)
Fixpoint pop_levels (k : nat) (cur : level) (parents : list level)
  : level * list level :=
  match k, parents with
  | S k', p :: r => pop_levels k' (add_sub p cur) r
  | _, _ => (cur, parents)
  end.

(** ArgumentIteratorImpl.cpp 472-478, [reactivate_multi_command_parent]. *)
Definition reactivate (k : nat) : M unit := modify (fun st =>
  let (cur, parents) := pop_levels k (ps_cur st) (ps_parents st) in
  mk_ps (l_command cur) cur parents (ps_iter st) empty_counter ARGUMENTS_ONLY
    (ps_calls st) (ps_events st)).

(** Result of the look-ahead. *)
Inductive count_result := CountOk (n : N) | CountBad | CountNoFuel.

(** A bound on the number of tokens that can be read from an iterator. *)
Definition args_size (args : list str) : nat :=
  list_sum (map (fun a => length a + 2) args).
Definition iter_fuel (it : opt_iter) : nat := S (args_size (it_args it)).

(** ArgumentIteratorImpl.cpp 393-403: the second loop of [count_arguments]. *)
Fixpoint count_values (fuel : nat) (st : pstate) (min : N) (it : opt_iter)
  (result : N) : count_result :=
  match fuel with
  | O => CountNoFuel
  | S fuel' =>
      match it_next_value it with
      | Bad => CountBad
      | Ok (None, _) => CountOk result
      | Ok (Some arg, it') =>
          match find_command (ps_command st) arg (s_case_insensitive cfg) with
          | Some _ => CountOk result
          | None =>
              if (min <=? result)%N
                 && match find_sibling_command st arg with
                    | Some _ => true | None => false end
              then CountOk result
              else count_values fuel' st min it' (result + 1)
          end
      end
  end.

(** ArgumentIteratorImpl.cpp 351-391: the first loop of [count_arguments]. *)
Fixpoint count_tokens (fuel : nat) (st : pstate) (min : N) (it : opt_iter)
  (result : N) : count_result :=
  match fuel with
  | O => CountNoFuel
  | S fuel' =>
      match it_next it with
      | Bad => CountBad
      | Ok (None, it') => count_values (iter_fuel it') st min it' result
      | Ok (Some arg, it') =>
          match find_option (ps_command st) arg (s_abbreviations cfg)
                  (s_case_insensitive cfg) with
          | Some o =>
              let r := if negb (is_empty (o_argument o))
                       then match it_next_value it' with
                            | Ok (_, it'') => Ok it''
                            | Bad => Bad
                            end
                       else Ok it' in
              match r with
              | Bad => CountBad
              | Ok it'' =>
                  match o_type o with
                  | OT_HELP | OT_LAST_ARGUMENT | OT_STOP => CountOk result
                  | OT_LAST_OPTION => count_values (iter_fuel it'') st min it'' result
                  | _ => count_tokens fuel' st min it'' result
                  end
              end
          | None =>
              if is_option arg (s_style cfg)
              then count_tokens fuel' st min it' result
              else
                match find_command (ps_command st) arg (s_case_insensitive cfg) with
                | Some _ => CountOk result
                | None =>
                    if (min <=? result)%N
                       && match find_sibling_command st arg with
                          | Some _ => true | None => false end
                    then CountOk result
                    else count_tokens fuel' st min it' (result + 1)
                end
          end
      end
  end.

(** ArgumentIteratorImpl.cpp 346-404, [count_arguments]. *)
Definition count_arguments : M N := fun st =>
  let min := fst (get_min_max_count (c_arguments (ps_command st))) in
  match count_tokens (iter_fuel (ps_iter st)) st min (ps_iter st) 0 with
  | CountOk n => Ret n st
  | CountBad => Undefined
  | CountNoFuel => NoFuel
  end.

(** ArgumentIteratorImpl.cpp 65-73 and 325-333: a new counter for
    [m_command]. *)
Definition start_counter : M unit :=
  c <- gets ps_command ;;
  if negb (requires_argument_count (c_arguments c)) then
    modify (fun st => set_counter st (plain_counter (c_arguments c)))
  else
    n <- count_arguments ;;
    modify (fun st => set_counter st (counted_counter (c_arguments c) n 0)).

(** ArgumentIteratorImpl.cpp 480-494, [update_arguments]. *)
Definition update_arguments (new : list str) : M unit :=
  if is_empty new then ret tt
  else
    (fun st => match it_insert (ps_iter st) new with
               | Ok it => Ret tt (set_iter st it)
               | Bad => Undefined
               end) ;;;
    c <- gets ps_command ;;
    if negb (requires_argument_count (c_arguments c)) then ret tt
    else
      current <- gets (fun st => ac_counter (ps_counter st)) ;;
      n <- count_arguments ;;
      modify (fun st =>
        set_counter st (counted_counter (c_arguments c) (current + n) current)).

(** One operation of a callback on its ParsedArgumentsBuilder
    (ParsedArgumentsBuilder.cpp 20-64, 109-118; ParsedArgumentsImpl.cpp
    231-248). *)
Definition resolve_key (k : value_key) : M (N * N) := fun st =>
  match k with
  | ByView vid aid => Ret (vid, aid) st
  | ByName name => match get_value_id (l_command (ps_cur st)) name with
                   | Val vid => Ret (vid, 0%N) st
                   | Exn e => Throws e st
                   end
  end.

(** ParsedArgumentsImpl.cpp 231-238, [error(message)]. *)
Definition user_error (msg : str) : M unit :=
  c <- gets (fun st => l_command (ps_cur st)) ;;
  emit (EvError c (MsgUser msg)) ;;;
  if s_auto_exit cfg then exit_with (s_error_exit cfg)
  else throw EParseError.

(** [VErrorAt]: ParsedArgumentsImpl.cpp 240-248 and HelpText.cpp 472-481. *)
Definition run_value_op (op : value_op) : M unit :=
  match op with
  | VAssign k v =>
      ids <- resolve_key k ;;
      modify (fun st => set_values st
                (assign_value (l_values (ps_cur st)) (fst ids) v (snd ids)))
  | VAppend k v =>
      ids <- resolve_key k ;;
      modify (fun st => set_values st
                (append_value (l_values (ps_cur st)) (fst ids) v (snd ids)))
  | VClear k =>
      ids <- resolve_key k ;;
      modify (fun st => set_values st
                (clear_value (l_values (ps_cur st)) (fst ids)))
  | VError msg => user_error msg
  | VErrorAt msg aid =>
      name <- gets (fun st => get_name (l_command (ps_cur st)) aid) ;;
      user_error (if is_empty name then msg else name ++ $": " ++ msg)
  end.

Fixpoint run_value_ops (ops : list value_op) : M unit :=
  match ops with
  | [] => ret tt
  | op :: r => run_value_op op ;;; run_value_ops r
  end.

Fixpoint emit_texts (ts : list str) : M unit :=
  match ts with
  | [] => ret tt
  | t :: r => emit (EvText t) ;;; emit_texts r
  end.

(** Calls a callback, if there is one, and inserts its new arguments:
    ArgumentIteratorImpl.cpp 193-204, 295-307. *)
Definition run_callback (cb : option callback) (ev : event) (value : str)
  : M unit :=
  match cb with
  | None => ret tt
  | Some f =>
      emit ev ;;;
      eff <- gets (fun st => f (ps_calls st) value (l_values (ps_cur st))) ;;
      modify count_call ;;;
      emit_texts (eff_out eff) ;;;
      run_value_ops (eff_ops eff) ;;;
      (if eff_throws eff then throw ECallback else ret tt) ;;;
      update_arguments (eff_new eff)
  end.

(** ArgumentIteratorImpl.cpp 518-520: the flags of an option, comma separated. *)
Fixpoint join_flags (flags : list str) : str :=
  match flags with
  | [] => []
  | [f] => f
  | f :: r => f ++ $", " ++ join_flags r
  end.

(** ArgumentIteratorImpl.cpp 510-527, [has_all_mandatory_options]. *)
Fixpoint has_all_mandatory (opts : list opt_data) : M bool :=
  match opts with
  | [] => ret true
  | o :: r =>
      vs <- gets (fun st => l_values (ps_cur st)) ;;
      if negb (o_optional o) && negb (has_value vs (o_value_id o)) then
        error (MsgMandatoryMissing (join_flags (o_flags o))) ;;; ret false
      else has_all_mandatory r
  end.

(** ArgumentIteratorImpl.cpp 406-435, [check_argument_and_option_counts].
    [*require_subcommand] of an empty optional is undefined behaviour. *)
Definition check_counts : M bool :=
  c <- gets ps_command ;;
  ok <- has_all_mandatory (c_options c) ;;
  if negb ok then ret false
  else
    match c_require c with
    | None => fun _ => Undefined
    | Some req =>
        subs <- gets (fun st => l_subs (ps_cur st)) ;;
        if req && is_empty subs then error MsgNoCommand ;;; ret false
        else
          ac <- gets ps_counter ;;
          if is_complete ac then
            modify (fun st => set_all_results RC_SUCCESS (set_mode st ST_DONE)) ;;;
            ret true
          else
            let (lo, hi) := get_min_max_count (c_arguments c) in
            error (MsgTooFewArguments (lo =? hi)%N lo (ac_counter ac)) ;;;
            ret false
    end.

(** ArgumentIteratorImpl.hpp: enum OptionResult. *)
Inductive option_result := OR_NORMAL | OR_LAST_ARGUMENT | OR_STOP | OR_EXIT | OR_ERROR.

(** ArgumentIteratorImpl.cpp 150-191: the operation of an option. Returns the
    value read from the command line ("" if none), or [None] after an error. *)
Definition apply_operation (o : opt_data) (flag : str) : M (option str) :=
  match o_operation o with
  | OP_ASSIGN =>
      if negb (is_empty (o_constant o)) then
        modify (fun st => set_values st
          (assign_value (l_values (ps_cur st)) (o_value_id o) (o_constant o)
             (o_argument_id o))) ;;;
        ret (Some [])
      else
        v <- m_next_value ;;
        match v with
        | Some value =>
            modify (fun st => set_values st
              (assign_value (l_values (ps_cur st)) (o_value_id o) value
                 (o_argument_id o))) ;;;
            ret (Some value)
        | None => error (MsgNoValue flag) ;;; ret None
        end
  | OP_APPEND =>
      if negb (is_empty (o_constant o)) then
        modify (fun st => set_values st
          (append_value (l_values (ps_cur st)) (o_value_id o) (o_constant o)
             (o_argument_id o))) ;;;
        ret (Some [])
      else
        v <- m_next_value ;;
        match v with
        | Some value =>
            modify (fun st => set_values st
              (append_value (l_values (ps_cur st)) (o_value_id o) value
                 (o_argument_id o))) ;;;
            ret (Some value)
        | None => error (MsgNoValue flag) ;;; ret None
        end
  | OP_CLEAR =>
      modify (fun st => set_values st
        (clear_value (l_values (ps_cur st)) (o_value_id o))) ;;;
      ret (Some [])
  | OP_NONE => ret (Some [])
  end.

(** ArgumentIteratorImpl.cpp 206-228: the effect of the option's type. *)
Definition apply_type (o : opt_data) : M option_result :=
  match o_type o with
  | OT_NORMAL => ret OR_NORMAL
  | OT_HELP =>
      c <- gets ps_command ;;
      emit (EvHelp c) ;;;
      modify (fun st => set_mode st ST_DONE) ;;;
      modify (fun st => set_cur st (set_breaking_option o (ps_cur st))) ;;;
      ret OR_EXIT
  | OT_EXIT =>
      modify (fun st => set_mode st ST_DONE) ;;;
      modify (fun st => set_cur st (set_breaking_option o (ps_cur st))) ;;;
      ret OR_EXIT
  | OT_STOP =>
      modify (fun st => set_mode st ST_DONE) ;;;
      modify (fun st => set_cur st (set_breaking_option o (ps_cur st))) ;;;
      ret OR_STOP
  | OT_LAST_ARGUMENT =>
      modify (fun st => set_mode st ST_DONE) ;;; ret OR_LAST_ARGUMENT
  | OT_LAST_OPTION =>
      modify (fun st => set_mode st ARGUMENTS_ONLY) ;;; ret OR_NORMAL
  end.

(** ArgumentIteratorImpl.cpp 144-229, [process_option(opt, flag)]. *)
Definition process_known_option (o : opt_data) (flag : str)
  : M (option_result * str) :=
  v <- apply_operation o flag ;;
  match v with
  | None => ret (OR_ERROR, [])
  | Some arg =>
      run_callback (o_callback o)
        (EvOptionCallback false (o_argument_id o) arg) arg ;;;
      run_callback (option_cb cfg o)
        (EvOptionCallback true (o_argument_id o) arg) arg ;;;
      r <- apply_type o ;;
      ret (r, arg)
  end.

(** ArgumentIteratorImpl.cpp 231-280, [process_option(flag)]. *)
Definition process_option (flag : str) : M iter_result :=
  c <- gets ps_command ;;
  match find_option c flag (s_abbreviations cfg) (s_case_insensitive cfg) with
  | Some o =>
      ra <- process_known_option o flag ;;
      let (r, arg) := (ra : option_result * str) in
      match r with
      | OR_EXIT =>
          if s_auto_exit cfg then exit_with (s_normal_exit cfg)
          else copy_remaining ;;; ret (mk_ir IC_OPTION (ItOption o) arg)
      | OR_ERROR => ret (mk_ir IC_ERROR (ItOption o) [])
      | OR_LAST_ARGUMENT =>
          ok <- check_counts ;;
          if negb ok then ret (mk_ir IC_ERROR ItNone [])
          else
            k <- gets find_first_multi_command_parent ;;
            match k with
            | Some k => reactivate k ;;; ret (mk_ir IC_OPTION (ItOption o) arg)
            | None => copy_remaining ;;; ret (mk_ir IC_OPTION (ItOption o) arg)
            end
      | OR_STOP => copy_remaining ;;; ret (mk_ir IC_OPTION (ItOption o) arg)
      | OR_NORMAL => ret (mk_ir IC_OPTION (ItOption o) arg)
      end
  | None =>
      if negb (s_ignore_options cfg) then
        cur <- m_current ;;
        error (MsgUnknownOption cur) ;;;
        ret (mk_ir IC_ERROR ItNone [])
      else
        cur <- m_current ;;
        if negb (starts_with_cs cur flag) then
          error (MsgUnknownOption cur) ;;;
          ret (mk_ir IC_ERROR ItNone [])
        else
          modify (fun st => set_cur st (add_unprocessed (ps_cur st) [cur])) ;;;
          ret (mk_ir IC_UNKNOWN ItNone cur)
  end.

(** ArgumentIteratorImpl.cpp 320-336, [process_command]. *)
Definition process_command (c : cmd_data) : M iter_result :=
  modify (fun st =>
    mk_ps c (new_level c) (ps_cur st :: ps_parents st) (ps_iter st)
      (ps_counter st) (ps_mode st) (ps_calls st) (ps_events st)) ;;;
  start_counter ;;;
  modify (fun st => set_mode st ARGUMENTS_AND_OPTIONS) ;;;
  cur <- m_current ;;
  ret (mk_ir IC_COMMAND (ItCommand c) cur).

(** [m_argument_counter.next_argument()]. *)
Definition m_next_argument : M (option arg_data) := fun st =>
  let (a, ac) := next_argument (ps_counter st) in Ret a (set_counter st ac).

(** ArgumentIteratorImpl.cpp 282-318, [process_argument]. *)
Definition process_argument (value : str) : M iter_result :=
  sib <- gets (fun st => find_sibling_command st value) ;;
  match sib with
  | Some (c, k) => reactivate k ;;; process_command c
  | None =>
      a <- m_next_argument ;;
      match a with
      | Some a =>
          modify (fun st => set_values st
            (append_value (l_values (ps_cur st)) (a_value_id a) value
               (a_argument_id a))) ;;;
          run_callback (a_callback a)
            (EvArgumentCallback false (a_argument_id a) value) value ;;;
          run_callback (argument_cb cfg a)
            (EvArgumentCallback true (a_argument_id a) value) value ;;;
          ret (mk_ir IC_ARGUMENT (ItArgument a) value)
      | None =>
          if s_ignore_arguments cfg then
            modify (fun st => set_cur st (add_unprocessed (ps_cur st) [value])) ;;;
            cur <- m_current ;;
            ret (mk_ir IC_UNKNOWN ItNone cur)
          else
            error (MsgTooManyArguments value) ;;;
            ret (mk_ir IC_ERROR ItNone [])
      end
  end.

(** ArgumentIteratorImpl.cpp 111-129: what [next] does with a token. *)
Definition process_token (mode : pmode) (arg : str) : M iter_result :=
  c <- gets ps_command ;;
  if match mode with ARGUMENTS_AND_OPTIONS => true | _ => false end
     && is_option arg (s_style cfg)
  then process_option arg
  else if is_empty (c_commands c) then process_argument arg
  else match find_command c arg (s_case_insensitive cfg) with
       | Some d => process_command d
       | None => error (MsgUnknownCommand arg) ;;; ret (mk_ir IC_ERROR ItNone [])
       end.

(** ArgumentIteratorImpl.cpp 93-130, [next]. *)
Definition next : M iter_result :=
  mode <- gets ps_mode ;;
  match mode with
  | ST_ERROR => throw ENextAfterError
  | ST_DONE => ret (mk_ir IC_DONE ItNone [])
  | _ =>
      t <- (match mode with
            | ARGUMENTS_AND_OPTIONS => m_next
            | _ => m_next_value
            end) ;;
      match t with
      | None =>
          ok <- check_counts ;;
          ret (mk_ir (if (ok : bool) then IC_DONE else IC_ERROR) ItNone [])
      | Some arg => process_token mode arg
      end
  end.

(** ArgumentIteratorImpl.cpp 81-89: the loop of [parse]. *)
Fixpoint parse_loop (fuel : nat) : M unit :=
  match fuel with
  | O => fun _ => NoFuel
  | S fuel' =>
      r <- next ;;
      match ir_code r with
      | IC_ERROR | IC_DONE => ret tt
      | _ => parse_loop fuel'
      end
  end.

(** ArgumentIteratorImpl.cpp 54-63: the initial values of the top-level
    options. *)
Definition initial_values (opts : list opt_data) : store :=
  fold_left (fun vs o =>
    if negb (is_empty (o_initial_value o))
    then append_value vs (o_value_id o) (o_initial_value o) (o_argument_id o)
    else vs) opts [].

(** ArgumentIteratorImpl.cpp 44-74, the constructor, up to the counter
    ([m_state] starts as ARGUMENTS_AND_OPTIONS, ArgumentIteratorImpl.hpp). *)
Definition initial_state (c : cmd_data) (args : list str) : pstate :=
  mk_ps c (set_l_values (new_level c) (initial_values (c_options c))) []
    (make_option_iterator (s_style cfg) args) empty_counter
    ARGUMENTS_AND_OPTIONS 0 [].

(** ArgumentIteratorImpl.cpp 76-91, [parse]: constructor, loop. *)
Definition run_parser (fuel : nat) (c : cmd_data) (args : list str)
  : outcome unit :=
  (start_counter ;;; parse_loop fuel) (initial_state c args).

End WithSettings.

(** The complete results, top level first, as seen through
    [toplevel_parsed_arguments()] (ArgumentIteratorImpl.cpp 138-142): open levels
    are the last sub-command of their parent. *)
Definition toplevel (st : pstate) : level :=
  fst (pop_levels (length (ps_parents st)) (ps_cur st) (ps_parents st)).

(** ArgumentIterator.cpp 34-66, [next(arg, value)]: true for an item. *)
Definition api_next_result (r : iter_result) : bool :=
  match ir_code r with
  | IC_ARGUMENT | IC_OPTION | IC_COMMAND | IC_UNKNOWN => true
  | IC_DONE | IC_ERROR => false
  end.
