(** Model of callbacks as programs that use their ParsedArgumentsBuilder step by step
    (src/Argos/ParsedArgumentsBuilder.cpp, include/Argos/Callbacks.hpp). In the other files a
    callback is a function from the values it finds to all of its effects; here each call
    of a member of the builder is a step, whose result the next steps may depend on.
    Simplified: program_name() is a constant that the program knows anyway; the methods of
    ArgumentValue and ArgumentValues (MResults.v) are not steps of their own, they use the
    text they hold and report errors by error(). No proofs in this file. *)
From Verif Require Import Base MOptIter MData MCounter MValues MParser.

(** The calls that read: has, value and values, by name or by view. *)
Inductive query := QHas (k : value_key) | QValue (k : value_key) | QValues (k : value_key).

(** What they return. An ArgumentValue is its text, if any, a value id and an argument id. *)
Inductive answer :=
| AHas (b : bool)
| AValue (text : option str) (vid aid : N)
| AValues (texts : list (str * N)) (vid : N).

(** [h] is what the program does if the call throws; [None]: it lets the exception out. *)
Inductive program :=
| Finish (new : list str)                                     (** return, with [new_arguments] *)
| Raise                                                       (** throw something of its own *)
| Write (text : str) (p : program)                            (** stream() << text *)
| Change (op : value_op) (h : option program) (p : program)   (** assign, append, clear, error *)
| Read (q : query) (h : option program) (k : answer -> program).

(** ParsedArgumentsBuilder.cpp 24, 40, 56, 68, 87, 100: [get_value_id] and the ids of views. *)
Definition ids_of (c : cmd_data) (k : value_key) : exc (N * N) :=
  match k with
  | ByView vid aid => Val (vid, aid)
  | ByName name => match get_value_id c name with
                   | Val vid => Val (vid, 0%N)
                   | Exn e => Exn e
                   end
  end.

(** ParsedArgumentsBuilder.cpp 66-82 [value], 84-96 [values], 98-107 [has]. *)
Definition ask (c : cmd_data) (vs : store) (q : query) : exc answer :=
  match q with
  | QHas k => match ids_of c k with
              | Val (vid, _) => Val (AHas (has_value vs vid))
              | Exn e => Exn e
              end
  | QValue k =>
      match ids_of c k with
      | Exn e => Exn e
      | Val (vid, aid) =>
          match get_value vs vid with
          | Exn e => Exn e
          | Val None => Val (AValue None vid aid)
          | Val (Some (s, by_id)) =>
              Val (AValue (Some s) vid (match k with ByName _ => by_id | ByView _ _ => aid end))
          end
      end
  | QValues k => match ids_of c k with
                 | Val (vid, _) => Val (AValues (get_values vs vid) vid)
                 | Exn e => Exn e
                 end
  end.

(** Runs the steps; the result is [new_arguments]. *)
Fixpoint run_program (cfg : settings) (p : program) : M (list str) := fun st =>
  match p with
  | Finish new => Ret new st
  | Raise => Throws ECallback st
  | Write text p => run_program cfg p (add_event st (EvText text))
  | Change op h p =>
      match run_value_op cfg op st with
      | Ret _ st1 => run_program cfg p st1
      | Throws e st1 => match h with
                        | Some h => run_program cfg h st1
                        | None => Throws e st1
                        end
      | Exits n st1 => Exits n st1
      | Undefined => Undefined
      | NoFuel => NoFuel
      end
  | Read q h k =>
      match ask (l_command (ps_cur st)) (l_values (ps_cur st)) q with
      | Val a => run_program cfg (k a) st
      | Exn e => match h with
                 | Some h => run_program cfg h st
                 | None => Throws e st
                 end
      end
  end.

(** ArgumentIteratorImpl.cpp 193-204, 295-307 with a callback that is a program: it may
    depend on how many callbacks have been called and on the value it gets. *)
Definition run_steps (cfg : settings) (P : nat -> str -> program) (ev : event) (value : str) : M unit :=
  emit ev ;;;
  p <- gets (fun st => P (ps_calls st) value) ;;
  modify count_call ;;;
  new <- run_program cfg p ;;
  update_arguments cfg new.
