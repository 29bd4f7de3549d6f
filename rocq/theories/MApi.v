(** Model of Argument.cpp, Option.cpp, Command.cpp and ArgumentParser.cpp in src/Argos.
    No proofs in this file.

    Simplifications: the callbacks' [int id] and the output stream are left out (as in
    MData.v); getters, which only read a member, are left out; an object is not added to
    itself. Copying and moving Argument, Option, Command and ArgumentParser objects by
    their constructors and assignments is the copying and moving of [option] values, where
    [None] is an object that has been moved from. *)
From Verif Require Import Base MStrings MOptIter MData MCounter MValues MParser MText MHelp.

(** How a call ends: normally, by an exception, or by dereferencing a null pointer. *)
Inductive call (A : Type) :=
| Done (a : A)
| Raised (e : exn)
| Crash.
Arguments Done {A}. Arguments Raised {A}. Arguments Crash {A}.

(* ------------------------------------------------------------------------ *)
(** ** Argument.cpp *)

(** The calls that change an Argument, Argument.cpp 55-145. *)
Inductive arg_call :=
| A_help (s : str) | A_section (s : str) | A_alias (s : str) | A_name (s : str)
| A_callback (cb : option callback) | A_visibility (v : visibility)
| A_optional (b : bool) | A_mandatory (b : bool) | A_count (n : N) | A_counts (lo hi : N).

(** Argument.cpp 111-120: [optional]. *)
Definition arg_optional (b : bool) (a : arg_data) : arg_data :=
  let lo := if b then 0%N else if (a_min a =? 0)%N then 1%N else a_min a in
  mk_arg (a_name a) (a_help a) (a_section a) (a_alias a) (a_callback a) lo (a_max a)
    (a_visibility a) (a_value_id a) (a_argument_id a).

Definition arg_counts (lo hi : N) (a : arg_data) : arg_data :=
  mk_arg (a_name a) (a_help a) (a_section a) (a_alias a) (a_callback a) lo hi
    (a_visibility a) (a_value_id a) (a_argument_id a).

(** The exceptions thrown before [check_argument()]: Argument.cpp 128-129, 137-140. *)
Definition arg_precheck (c : arg_call) : option exn :=
  match c with
  | A_count n => if (n =? 0)%N then Some EBadCount else None
  | A_counts lo hi => if (hi =? 0)%N || (hi <? lo)%N then Some EBadCount else None
  | _ => None
  end.

Definition arg_update (c : arg_call) (a : arg_data) : arg_data :=
  match c with
  | A_help s => mk_arg (a_name a) s (a_section a) (a_alias a) (a_callback a) (a_min a)
                  (a_max a) (a_visibility a) (a_value_id a) (a_argument_id a)
  | A_section s => set_a_section a s
  | A_alias s => mk_arg (a_name a) (a_help a) (a_section a) s (a_callback a) (a_min a)
                   (a_max a) (a_visibility a) (a_value_id a) (a_argument_id a)
  | A_name s => mk_arg s (a_help a) (a_section a) (a_alias a) (a_callback a) (a_min a)
                  (a_max a) (a_visibility a) (a_value_id a) (a_argument_id a)
  | A_callback cb => mk_arg (a_name a) (a_help a) (a_section a) (a_alias a) cb (a_min a)
                       (a_max a) (a_visibility a) (a_value_id a) (a_argument_id a)
  | A_visibility v => mk_arg (a_name a) (a_help a) (a_section a) (a_alias a) (a_callback a)
                        (a_min a) (a_max a) v (a_value_id a) (a_argument_id a)
  | A_optional b => arg_optional b a
  | A_mandatory b => arg_optional (negb b) a
  | A_count n => arg_counts n n a
  | A_counts lo hi => arg_counts lo hi a
  end.

(** A call: how it ends and the object afterwards. *)
Definition call_argument (c : arg_call) (o : option arg_data) : call unit * option arg_data :=
  match arg_precheck c, o with
  | Some e, _ => (Raised e, o)
  | None, None => (Raised EMovedItem, o)
  | None, Some a => (Done tt, Some (arg_update c a))
  end.

(** A program that makes calls and handles the exceptions. *)
Fixpoint call_arguments (cs : list arg_call) (o : option arg_data) : option arg_data :=
  match cs with
  | [] => o
  | c :: r => call_arguments r (snd (call_argument c o))
  end.

(** Argument.cpp 147-151, Option.cpp 206-210, [release]. *)
Definition release {A} (o : option A) : call A * option A :=
  match o with
  | Some a => (Done a, None)
  | None => (Raised EMovedItem, None)
  end.

(* ------------------------------------------------------------------------ *)
(** ** Option.cpp *)

(** The calls that change an Option, Option.cpp 68-198. [constant(bool)] and
    [constant(int)] are [O_constant] of the decimal digits. *)
Inductive opt_call :=
| O_help (s : str) | O_section (s : str) | O_alias (s : str) | O_operation (op : option_operation)
| O_visibility (v : visibility) | O_flags (l : list str) | O_argument (s : str)
| O_initial_value (s : str) | O_constant (s : str) | O_callback (cb : option callback)
| O_type (t : option_type) | O_optional (b : bool) | O_mandatory (b : bool).

Definition opt_update (c : opt_call) (o : opt_data) : opt_data :=
  match o with
  | mk_opt flags help section alias argument constant initial cb op ty vis optional aid vid =>
      match c with
      | O_help s => mk_opt flags s section alias argument constant initial cb op ty vis optional aid vid
      | O_section s => mk_opt flags help s alias argument constant initial cb op ty vis optional aid vid
      | O_alias s => mk_opt flags help section s argument constant initial cb op ty vis optional aid vid
      | O_operation x => mk_opt flags help section alias argument constant initial cb x ty vis optional aid vid
      | O_visibility v => mk_opt flags help section alias argument constant initial cb op ty v optional aid vid
      | O_flags l => mk_opt l help section alias argument constant initial cb op ty vis optional aid vid
      | O_argument s => mk_opt flags help section alias s constant initial cb op ty vis optional aid vid
      | O_initial_value s => mk_opt flags help section alias argument constant s cb op ty vis optional aid vid
      | O_constant s => mk_opt flags help section alias argument s initial cb op ty vis optional aid vid
      | O_callback x => mk_opt flags help section alias argument constant initial x op ty vis optional aid vid
      | O_type t => mk_opt flags help section alias argument constant initial cb op t vis optional aid vid
      | O_optional b => mk_opt flags help section alias argument constant initial cb op ty vis b aid vid
      | O_mandatory b => mk_opt flags help section alias argument constant initial cb op ty vis (negb b) aid vid
      end
  end.

(** Option.cpp 212-217, [check_option]. *)
Definition call_option (c : opt_call) (o : option opt_data) : call unit * option opt_data :=
  match o with
  | None => (Raised EMovedItem, None)
  | Some d => (Done tt, Some (opt_update c d))
  end.

(* ------------------------------------------------------------------------ *)
(** ** Command.cpp *)

(** [texts[id] = text]. *)
Fixpoint set_text (ts : list (text_id * str)) (id : text_id) (s : str) : list (text_id * str) :=
  match ts with
  | [] => [(id, s)]
  | (i, t) :: r => if text_id_eqb i id then (i, s) :: r else (i, t) :: set_text r id s
  end.

(** The calls that change a Command without involving another object, Command.cpp
    90-165. *)
Inductive cmd_call :=
| C_name (s : str) | C_help (s : str) | C_about (s : str) | C_section (s : str)
| C_current_section (s : str) | C_text (id : text_id) (s : str) | C_visibility (v : visibility)
| C_multi (b : bool) | C_require (b : bool).

Definition cmd_update (c : cmd_call) (d : cmd_data) : cmd_data :=
  match d with
  | mk_cmd args opts cmds cursec name full texts vis require multi sec aid index =>
      match c with
      | C_name s => mk_cmd args opts cmds cursec s full texts vis require multi sec aid index
      | C_help s => mk_cmd args opts cmds cursec name full (set_text texts TX_HELP s) vis require multi sec aid index
      | C_about s => mk_cmd args opts cmds cursec name full (set_text texts TX_ABOUT s) vis require multi sec aid index
      | C_section s => mk_cmd args opts cmds cursec name full texts vis require multi s aid index
      | C_current_section s => mk_cmd args opts cmds s name full texts vis require multi sec aid index
      | C_text i s => mk_cmd args opts cmds cursec name full (set_text texts i s) vis require multi sec aid index
      | C_visibility v => mk_cmd args opts cmds cursec name full texts v require multi sec aid index
      | C_multi b => mk_cmd args opts cmds cursec name full texts vis require b sec aid index
      | C_require b => mk_cmd args opts cmds cursec name full texts vis (Some b) multi sec aid index
      end
  end.

(** Command.cpp 185-189, [check_command]. *)
Definition call_command (c : cmd_call) (o : option cmd_data) : call unit * option cmd_data :=
  match o with
  | None => (Raised EMovedItem, None)
  | Some d => (Done tt, Some (cmd_update c d))
  end.

(** Command.cpp 54-88, ArgumentParser.cpp 77-111: adding an object to a command. The
    object has been released, whether the addition is refused or not. [checked] is false
    for Command, whose release() does not check (Command.cpp 174-177). *)
Definition add_to {A} (checked : bool) (add : cmd_data -> option A -> exc cmd_data)
  (x : option A) (o : option cmd_data) : call unit * option A * option cmd_data :=
  match o with
  | None => (Raised EMovedItem, x, None)
  | Some d =>
      match x with
      | None => if checked then (Raised EMovedItem, None, o)
                else match add d None with
                     | Exn e => (Raised e, None, o)
                     | Val d' => (Done tt, None, Some d')
                     end
      | Some _ =>
          match add d x with
          | Exn e => (Raised e, None, o)
          | Val d' => (Done tt, None, Some d')
          end
      end
  end.
Definition add_argument_to (a : option arg_data) (c : option cmd_data) := add_to true add_argument a c.
Definition add_option_to (o : option opt_data) (c : option cmd_data) := add_to true add_option o c.
Definition add_command_to (d : option cmd_data) (c : option cmd_data) := add_to false add_command d c.

(** CommandData.cpp 162-167: the texts when the loop ends, and whether it ends normally. *)
Fixpoint copy_texts (ts src : list (text_id * str)) : list (text_id * str) * bool :=
  match src with
  | [] => (ts, true)
  | (t, x) :: r =>
      match find_text ts t with
      | Some _ => (ts, false)
      | None => copy_texts (ts ++ [(t, x)]) r
      end
  end.

(** CommandData.cpp 151-171, [copy_from], with the object that is left if it throws. *)
Definition copy_into (c src : cmd_data) : call unit * cmd_data :=
  let (ts, ok) := copy_texts (c_texts c) (c_texts src) in
  (if ok then Done tt else Raised EDuplicateText,
   mk_cmd (c_arguments c ++ c_arguments src) (c_options c ++ c_options src)
     (c_commands c ++ map copy_command (c_commands src)) (c_current_section c) (c_name c)
     (c_full_name c) ts (c_visibility c) (c_require c)
     (if ok then c_multi c || c_multi src else c_multi c) (c_section c) (c_argument_id c) (c_index c)).

(** Command.cpp 167-172, [copy_from(Command&)]: the source is dereferenced unchecked. *)
Definition command_copy_from (src o : option cmd_data) : call unit * option cmd_data :=
  match o, src with
  | None, _ => (Raised EMovedItem, None)
  | Some _, None => (Crash, o)
  | Some d, Some s => let (r, d') := copy_into d s in (r, Some d')
  end.

(* ------------------------------------------------------------------------ *)
(** ** ArgumentParser.cpp *)

(** ArgumentParser.cpp 32. *)
Definition DEFAULT_NAME : str := $"UNINITIALIZED".

(** ArgumentParser.cpp 55-62, the constructor. *)
Definition new_parser (program_name : str) (extract_file_name : bool) : parser_data :=
  mk_data (new_command (if extract_file_name then get_base_name program_name else program_name))
    default_settings [] 0 [].

(** ArgumentParser.cpp 23-30, [make_copy]: the version is not copied, and the assignment
    of the command (CommandData.cpp 62-92) copies sub-commands without their visibility. *)
Definition make_copy (d : parser_data) : parser_data :=
  mk_data (copy_command (d_command d)) (d_settings d) [] (d_line_width d) (d_word_rules d).

(** How parse() ends. [PReturn] carries the final state, from which the results are read
    ([toplevel]); [PThrow] is an exception. *)
Inductive parse_end :=
| PReturn (st : pstate)
| PExit (code : Z) (st : pstate)
| PThrow (e : exn)
| PUndefined
| PNoFuel.

(** ArgumentParser.cpp 34-40, [parse_arguments]. *)
Definition parse_arguments (fuel : nat) (d : parser_data) (args : list str) : parse_end :=
  match finish_parser d with
  | Exn e => PThrow e
  | Val q =>
      match run_parser (d_settings q) fuel (d_command q) args with
      | Ret _ st => PReturn st
      | Exits code st => PExit code st
      | Throws e _ => PThrow e
      | Undefined => PUndefined
      | NoFuel => PNoFuel
      end
  end.

(** ArgumentParser.cpp 141-145: the parser gives its data away ([m_data] is moved into the
    shared pointer that [parse_arguments] takes, before the call). *)
Definition parse_vector (fuel : nat) (p : option parser_data) (args : list str)
  : parse_end * option parser_data :=
  match p with
  | None => (PThrow EMovedParser, None)
  | Some d => (parse_arguments fuel d args, None)
  end.

(** ArgumentParser.cpp 147-151. *)
Definition parse_vector_const (fuel : nat) (p : option parser_data) (args : list str) : parse_end :=
  match p with
  | None => PThrow EMovedParser
  | Some d => parse_arguments fuel (make_copy d) args
  end.

Definition set_d_name (d : parser_data) (name : str) : parser_data :=
  mk_data (set_c_name (d_command d) name) (d_settings d) (d_version d) (d_line_width d) (d_word_rules d).

(** ArgumentParser.cpp 120-132: [argv] are the [argc] strings. [m_data] is used before
    it is checked (line 125). *)
Definition parse_argv (fuel : nat) (p : option parser_data) (argv : list str)
  : parse_end * option parser_data :=
  match argv with
  | [] => parse_vector fuel p []
  | name :: args =>
      match p with
      | None => (PUndefined, None)
      | Some d =>
          let d' := if str_eqb (c_name (d_command d)) DEFAULT_NAME && negb (is_empty name)
                    then set_d_name d (get_base_name name) else d in
          parse_vector fuel (Some d') args
      end
  end.

(** ArgumentParser.cpp 134-139. *)
Definition parse_argv_const (fuel : nat) (p : option parser_data) (argv : list str) : parse_end :=
  match argv with
  | [] => parse_vector_const fuel p []
  | _ :: args => parse_vector_const fuel p args
  end.

(** ArgumentParser.cpp 42-48, [make_argument_iterator]: the settings and the state of the
    iterator after construction (ArgumentIteratorImpl.cpp 44-74). *)
Definition make_argument_iterator (d : parser_data) (args : list str) : call (settings * pstate) :=
  match finish_parser d with
  | Exn e => Raised e
  | Val q =>
      match start_counter (d_settings q) (initial_state (d_settings q) (d_command q) args) with
      | Ret _ st => Done (d_settings q, st)
      | Throws e _ => Raised e
      | _ => Crash
      end
  end.

(** ArgumentParser.cpp 167-173 and 175-180, [make_iterator]. *)
Definition make_iterator (p : option parser_data) (args : list str)
  : call (settings * pstate) * option parser_data :=
  match p with
  | None => (Raised EMovedParser, None)
  | Some d => (make_argument_iterator d args, None)
  end.
Definition make_iterator_const (p : option parser_data) (args : list str) : call (settings * pstate) :=
  match p with
  | None => Raised EMovedParser
  | Some d => make_argument_iterator (make_copy d) args
  end.

(** ArgumentParser.cpp 153-158: with [argc] and [argv]. *)
Definition make_iterator_argv (p : option parser_data) (argv : list str)
  : call (settings * pstate) * option parser_data :=
  match argv with
  | [] => (Raised ENoArgv, p)
  | _ :: args => make_iterator p args
  end.

(** ArgumentParser.cpp 240-251, [option_style(value)]. *)
Definition style_eqb (a b : option_style) : bool :=
  match a, b with
  | STANDARD, STANDARD | SLASH, SLASH | DASH, DASH => true
  | _, _ => false
  end.
Definition set_style (s : settings) (style : option_style) : settings :=
  mk_settings (s_argument_callback s) (s_option_callback s) style (s_auto_exit s)
    (s_abbreviations s) (s_ignore_options s) (s_ignore_arguments s) (s_case_insensitive s)
    (s_generate_help s) (s_normal_exit s) (s_error_exit s).
Definition set_option_style (style : option_style) (p : option parser_data)
  : call unit * option parser_data :=
  match p with
  | None => (Raised EMovedParser, None)
  | Some d =>
      if style_eqb style (s_style (d_settings d)) then (Done tt, p)
      else if negb (is_empty (c_options (d_command d))) then (Raised EStyleChange, p)
      else (Done tt, Some (mk_data (d_command d) (set_style (d_settings d) style)
                             (d_version d) (d_line_width d) (d_word_rules d)))
  end.

(** How writing a help text ends: with the bytes in the stream, by an exception of
    the definition, or as the formatter says. *)
Inductive help_end :=
| HText (out : str)
| HRaised (e : exn)
| HFormat (r : tres formatter).

(** ArgumentParser.cpp 420-425: the command that a path leads to. *)
Fixpoint find_path (ci : bool) (c : cmd_data) (path : list str) : exc cmd_data :=
  match path with
  | [] => Val c
  | name :: r =>
      match find_command c name ci with
      | None => Exn (EUnknownCommand name)
      | Some d => find_path ci d r
      end
  end.

(** ArgumentParser.cpp 414-427, [write_subcommand_help_text]; 409-412 is the case of
    the empty path. What has not been flushed when the formatter is destroyed is lost. *)
Definition write_subcommand_help_text (console : nat) (p : option parser_data) (path : list str)
  : help_end :=
  match p with
  | None => HRaised EMovedParser
  | Some d =>
      match finish_parser (make_copy d) with
      | Exn e => HRaised e
      | Val q =>
          match find_path (s_case_insensitive (d_settings q)) (d_command q) path with
          | Exn e => HRaised e
          | Val c =>
              match write_help_text console q c with
              | TOk f => HText (w_out (f_writer f))
              | r => HFormat r
              end
          end
      end
  end.

(** ** All calls of an ArgumentParser *)

(** The setters of ParserSettings, ArgumentParser.cpp 188-238, 279-330, 443-449. *)
Inductive setting_call :=
| S_abbreviations (b : bool) | S_auto_exit (b : bool) | S_case_insensitive (b : bool)
| S_generate_help (b : bool) | S_ignore_arguments (b : bool) | S_ignore_options (b : bool)
| S_argument_callback (cb : option (arg_data -> callback))
| S_option_callback (cb : option (opt_data -> callback))
| S_exit_codes (error normal : Z).

Definition update_settings (c : setting_call) (s : settings) : settings :=
  match s with
  | mk_settings acb ocb style exit abb iopt iarg ci help normal error =>
      match c with
      | S_abbreviations b => mk_settings acb ocb style exit b iopt iarg ci help normal error
      | S_auto_exit b => mk_settings acb ocb style b abb iopt iarg ci help normal error
      | S_case_insensitive b => mk_settings acb ocb style exit abb iopt iarg b help normal error
      | S_generate_help b => mk_settings acb ocb style exit abb iopt iarg ci b normal error
      | S_ignore_arguments b => mk_settings acb ocb style exit abb iopt b ci help normal error
      | S_ignore_options b => mk_settings acb ocb style exit abb b iarg ci help normal error
      | S_argument_callback cb => mk_settings cb ocb style exit abb iopt iarg ci help normal error
      | S_option_callback cb => mk_settings acb cb style exit abb iopt iarg ci help normal error
      | S_exit_codes e n => mk_settings acb ocb style exit abb iopt iarg ci help n e
      end
  end.

(** [P_command] stands for program_name, about, text, current_section, section,
    require_subcommand and allow_multiple_subcommands, which set a member of the command
    (ArgumentParser.cpp 253-277, 345-402). *)
Inductive parser_call :=
| P_add_argument (a : option arg_data) | P_add_option (o : option opt_data)
| P_add_command (c : option cmd_data) | P_copy_from (c : option cmd_data)
| P_command (c : cmd_call) | P_setting (c : setting_call) | P_style (s : option_style)
| P_version (s : str) | P_line_width (n : N) | P_word_rule (s : str)
| P_parse (args : list str) | P_parse_const (args : list str)
| P_parse_argv (argv : list str) | P_parse_argv_const (argv : list str)
| P_iterator (args : list str) | P_iterator_const (args : list str)
| P_iterator_argv (argv : list str) | P_iterator_argv_const (argv : list str)
| P_help (console : nat) (path : list str).

(** What a call yields. *)
Inductive parser_result :=
| R_call (r : call unit)
| R_parse (r : parse_end)
| R_iterator (r : call (settings * pstate))
| R_help (r : help_end).

Definition set_d_command (d : parser_data) (c : cmd_data) : parser_data :=
  mk_data c (d_settings d) (d_version d) (d_line_width d) (d_word_rules d).
Definition set_d_settings (d : parser_data) (s : settings) : parser_data :=
  mk_data (d_command d) s (d_version d) (d_line_width d) (d_word_rules d).

(** A setter: ArgumentParser.cpp 451-455, [check_data], and an assignment. *)
Definition set_data (f : parser_data -> parser_data) (p : option parser_data)
  : parser_result * option parser_data :=
  match p with
  | None => (R_call (Raised EMovedParser), None)
  | Some d => (R_call (Done tt), Some (f d))
  end.

(** ArgumentParser.cpp 77-111: [add]. *)
Definition add_data {A} (checked : bool) (add : cmd_data -> option A -> exc cmd_data)
  (x : option A) (p : option parser_data) : parser_result * option parser_data :=
  match p with
  | None => (R_call (Raised EMovedParser), None)
  | Some d => match add_to checked add x (Some (d_command d)) with
              | (r, _, Some c) => (R_call r, Some (set_d_command d c))
              | (r, _, None) => (R_call r, p)
              end
  end.

Definition call_parser (fuel : nat) (c : parser_call) (p : option parser_data)
  : parser_result * option parser_data :=
  match c with
  | P_add_argument a => add_data true add_argument a p
  | P_add_option o => add_data true add_option o p
  | P_add_command d => add_data false add_command d p
  | P_copy_from src =>                                   (* ArgumentParser.cpp 113-118 *)
      match p, src with
      | None, _ => (R_call (Raised EMovedParser), None)
      | Some _, None => (R_call (Raised EMovedItem), p)
      | Some d, Some s => let (r, c') := copy_into (d_command d) s in
                          (R_call r, Some (set_d_command d c'))
      end
  | P_command u => set_data (fun d => set_d_command d (cmd_update u (d_command d))) p
  | P_setting u => set_data (fun d => set_d_settings d (update_settings u (d_settings d))) p
  | P_style s => let (r, p') := set_option_style s p in (R_call r, p')
  | P_version s => set_data (fun d => mk_data (d_command d) (d_settings d) s (d_line_width d) (d_word_rules d)) p
  | P_line_width n => set_data (fun d => mk_data (d_command d) (d_settings d) (d_version d) n (d_word_rules d)) p
  | P_word_rule s =>
      set_data (fun d => mk_data (d_command d) (d_settings d) (d_version d) (d_line_width d) (d_word_rules d ++ [s])) p
  | P_parse args => let (r, p') := parse_vector fuel p args in (R_parse r, p')
  | P_parse_const args => (R_parse (parse_vector_const fuel p args), p)
  | P_parse_argv argv => let (r, p') := parse_argv fuel p argv in (R_parse r, p')
  | P_parse_argv_const argv => (R_parse (parse_argv_const fuel p argv), p)
  | P_iterator args => let (r, p') := make_iterator p args in (R_iterator r, p')
  | P_iterator_const args => (R_iterator (make_iterator_const p args), p)
  | P_iterator_argv argv => let (r, p') := make_iterator_argv p argv in (R_iterator r, p')
  | P_iterator_argv_const argv =>                        (* ArgumentParser.cpp 160-165 *)
      (R_iterator (match argv with [] => Raised ENoArgv | _ :: args => make_iterator_const p args end), p)
  | P_help console path => (R_help (write_subcommand_help_text console p path), p)
  end.

(** A program that makes calls, whatever their results. *)
Fixpoint call_parsers (fuel : nat) (cs : list parser_call) (p : option parser_data)
  : list parser_result * option parser_data :=
  match cs with
  | [] => ([], p)
  | c :: r => let (x, p1) := call_parser fuel c p in
              let (xs, p2) := call_parsers fuel r p1 in (x :: xs, p2)
  end.

(* ------------------------------------------------------------------------ *)
(** ** ArgumentIterator *)

(** ArgumentIterator.cpp 34-66: a program that calls [next] until it returns false.
    The items are what it gets. *)
Fixpoint iterate (cfg : settings) (fuel : nat) : M (list iter_result) :=
  match fuel with
  | O => fun _ => NoFuel
  | S fuel' =>
      r <- next cfg ;;
      if api_next_result r then l <- iterate cfg fuel' ;; ret (r :: l) else ret []
  end.
