(** Model of what parse() writes: MParser.v records that a help text or an error message
    is written and for which command, MHelp.v gives the bytes. No proofs in this file. *)
From Verif Require Import Base MStrings MOptIter MData MCounter MValues MParser MText MHelp MApi.

(** std::cout, std::cerr, and the stream given to ArgumentParser::stream()
    (ArgumentParser.cpp 337-342). *)
Inductive channel := Stdout | Stderr | Custom.

(** TextWriter.cpp 17 (std::cout is the default), HelpText.cpp 441-442 (help), 460-463
    (errors), ParsedArgumentsBuilder.cpp 120-124 and ParserData.cpp 42-51 (callbacks).
    [custom]: a stream has been given. *)
Definition event_channel (custom : bool) (e : event) : channel :=
  if custom then Custom
  else match e with
       | EvError _ _ => Stderr
       | _ => Stdout
       end.

(** The bytes. ArgumentIteratorImpl.cpp 211 (help), 499 (errors), ParsedArgumentsImpl.cpp
    231-248 (the callbacks' error()). Calling a callback writes nothing. *)
Definition event_text (console : nat) (d : parser_data) (e : event) : tres str :=
  match e with
  | EvText s => TOk s
  | EvHelp c => tbind (write_help_text console d c) (fun f => TOk (w_out (f_writer f)))
  | EvError c m => tbind (write_error_message console d c (error_text m)) (fun f => TOk (w_out (f_writer f)))
  | EvOptionCallback _ _ _ | EvArgumentCallback _ _ _ => TOk []
  end.

Fixpoint write_events (console : nat) (custom : bool) (d : parser_data) (evs : list event)
  : tres (list (channel * str)) :=
  match evs with
  | [] => TOk []
  | e :: r =>
      tbind (event_text console d e) (fun s =>
      tbind (write_events console custom d r) (fun out =>
      TOk (match s with [] => out | _ => (event_channel custom e, s) :: out end)))
  end.

(** How parse() ends, with what has been written. [WFormat] is an exception of the
    formatter: nothing in the parser catches it. What was written before such an exception
    is not modelled. *)
Inductive written_end :=
| WReturn (st : pstate) (out : list (channel * str))
| WExit (code : Z) (st : pstate) (out : list (channel * str))
| WThrow (e : exn) (out : list (channel * str))
| WFormat (e : text_exn)
| WUndefined
| WNoFuel.

Definition with_output (console : nat) (custom : bool) (q : parser_data) (evs : list event)
  (k : list (channel * str) -> written_end) : written_end :=
  match write_events console custom q evs with
  | TOk out => k out
  | TThrows e => WFormat e
  | TBad => WUndefined
  | TNoFuel => WNoFuel
  end.

(** ArgumentParser.cpp 34-40, [parse_arguments]. *)
Definition parse_and_write (console : nat) (custom : bool) (fuel : nat) (d : parser_data) (args : list str)
  : written_end :=
  match finish_parser d with
  | Exn e => WThrow e []
  | Val q =>
      match run_parser (d_settings q) fuel (d_command q) args with
      | Ret _ st => with_output console custom q (ps_events st) (WReturn st)
      | Exits code st => with_output console custom q (ps_events st) (WExit code st)
      | Throws e st => with_output console custom q (ps_events st) (WThrow e)
      | Undefined => WUndefined
      | NoFuel => WNoFuel
      end
  end.
