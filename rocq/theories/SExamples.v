(** Definitions used by the examples beside the theorems. *)
From Verif Require Import Base MStrings MOptIter MData MCounter MValues MParser.

Definition ex_option (flags : list str) (arg const : str) (op : option_operation)
  (ty : option_type) (optional : bool) (cb : option callback) : opt_data :=
  mk_opt flags [] [] [] arg const [] cb op ty vis_normal optional 0 0.
Definition ex_argument (name : str) (lo hi : N) (cb : option callback) : arg_data :=
  mk_arg name [] [] [] cb lo hi vis_normal 0 0.
Definition ex_command (name : str) (args : list arg_data) (opts : list opt_data)
  (cmds : list cmd_data) (multi : bool) : cmd_data :=
  mk_cmd args opts cmds [] name [] [] vis_normal None multi [] 0 [].
Definition ex_settings (auto_exit ignore : bool) : settings :=
  mk_settings None None STANDARD auto_exit false ignore ignore false true 0 64.
Definition ex_data (auto_exit ignore : bool) (c : cmd_data) : parser_data :=
  mk_data c (ex_settings auto_exit ignore) [] 0 [].

(** The definition after parse() has completed it. *)
Definition completed (d : parser_data) : parser_data :=
  match finish_parser d with Val q => q | Exn _ => d end.

(** The state at the end, if parse() returns or exits. *)
Definition final (d : parser_data) (args : list str) : pstate :=
  match run_parser (d_settings (completed d)) 1000 (d_command (completed d)) args with
  | Ret _ st | Exits _ st | Throws _ st => st
  | _ => initial_state (d_settings d) (d_command d) args
  end.

(** The state after [n] calls of next(). *)
Fixpoint nexts (cfg : settings) (n : nat) (st : pstate) : pstate :=
  match n with
  | O => st
  | S n' => match next cfg st with Ret _ st' => nexts cfg n' st' | _ => st end
  end.
Definition after (d : parser_data) (args : list str) (n : nat) : pstate :=
  match start_counter (d_settings (completed d))
          (initial_state (d_settings (completed d)) (d_command (completed d)) args) with
  | Ret _ st => nexts (d_settings (completed d)) n st
  | _ => initial_state (d_settings d) (d_command d) args
  end.

(** A callback that prints, and one that inserts two arguments the first time. *)
Definition cb_print (text : str) : callback :=
  fun n v vs => mk_eff [text ++ $":" ++ v] [] false [].
Definition cb_insert_once (new : list str) : callback :=
  fun n v vs => mk_eff [] [] false (if Nat.eqb n 0 then new else []).

(** copy SRC [DST [DST]] with some options. *)
Definition ex_copy : cmd_data := ex_command ($"copy")
  [ex_argument ($"SRC") 1 1 None; ex_argument ($"DST") 0 2 None]
  [ex_option [$"-v"; $"--verbose"] [] ($"1") OP_APPEND OT_NORMAL true None;
   ex_option [$"-o"; $"--out="] ($"FILE") [] OP_ASSIGN OT_NORMAL false None;
   ex_option [$"-s"; $"--stop"] [] [] OP_NONE OT_STOP true None;
   ex_option [$"-e"; $"--exit"] [] [] OP_NONE OT_EXIT true None;
   ex_option [$"--"] [] [] OP_NONE OT_LAST_OPTION true None;
   ex_option [$"--end"] [] [] OP_NONE OT_LAST_ARGUMENT true None]
  [] false.

(** A program with sub-commands, several of which may be given. *)
Definition ex_tool : cmd_data := ex_command ($"tool") []
  [ex_option [$"-C"] ($"DIR") [] OP_ASSIGN OT_NORMAL false None]
  [ex_command ($"add") [ex_argument ($"FILE") 1 2 None]
     [ex_option [$"-m"; $"--message="] ($"TEXT") [] OP_ASSIGN OT_NORMAL false None;
      ex_option [$"-s"] [] [] OP_NONE OT_STOP true None] [] false;
   ex_command ($"remote") []
     [ex_option [$"-q"] [] ($"1") OP_ASSIGN OT_NORMAL true None]
     [ex_command ($"list") [] [] [] false] false]
  true.
