(** C96: the generated help and version options are the same as options that are added by
    hand. *)
From Verif Require Import Base MStrings MOptIter MData MCounter MValues MParser MApi MOutput
  SHand SExamples HandProofs.
Open Scope nat_scope.

(** The same definitions are accepted, the same exceptions are thrown for the others, and
    the commands that are parsed are the same, with the same options in the same order. *)
Theorem C96_definitions : forall p, s_generate_help (d_settings p) = true ->
  finish_parser (by_hand p) =
  match finish_parser p with
  | Val q => Val (mk_data (d_command q) (with_generation false (d_settings q)) [] (d_line_width q) (d_word_rules q))
  | Exn e => Exn e
  end.
Proof. exact by_hand_finish. Qed.
Print Assumptions C96_definitions.

(** parse() gives the same and writes the same. *)
Theorem C96_parse : forall console custom fuel p args, s_generate_help (d_settings p) = true ->
  parse_and_write console custom fuel (by_hand p) args = parse_and_write console custom fuel p args.
Proof. exact by_hand_program. Qed.
Print Assumptions C96_parse.

(** The iterator starts in the same state, and every call of next() does the same. *)
Theorem C96_iterator : forall p args, s_generate_help (d_settings p) = true ->
  match make_argument_iterator p args, make_argument_iterator (by_hand p) args with
  | Done (s, st), Done (s', st') => s' = with_generation false s /\ st' = st
  | Raised e, Raised e' => e' = e
  | Crash, Crash => True
  | _, _ => False
  end /\
  forall s st, next (with_generation false s) st = next s st.
Proof. exact (fun p args G => conj (by_hand_iterator p args G) (generation_next false)). Qed.
Print Assumptions C96_iterator.

(** A program with a version, one of its own options called -h, and two commands, the second
    of which has its own help option. *)
Definition ex_hand : parser_data :=
  mk_data (ex_command ($"tool") [] [ex_option [$"-h"] [] [] OP_ASSIGN OT_NORMAL true None]
      [ex_command ($"add") [ex_argument ($"FILE") 1 1 None] [] [] false;
       ex_command ($"del") [] [ex_option [$"--usage"] [] [] OP_NONE OT_HELP true None] [] false] false)
    (ex_settings true false) ($"1.2") 40 [].

(** The flags of all options, with their types. *)
Fixpoint ex_hand_flags (c : cmd_data) : list (str * list (list str * option_type)) :=
  match c with
  | mk_cmd args opts cmds cursec name full texts vis require multi sec aid index =>
      (name, map (fun o => (o_flags o, o_type o)) opts) :: concat (map ex_hand_flags cmds)
  end.

Example ex_hand_definition : s_generate_help (d_settings ex_hand) = true /\
  finish_parser ex_hand = Val (completed ex_hand) /\
  d_version (by_hand ex_hand) = [] /\ s_generate_help (d_settings (by_hand ex_hand)) = false /\
  ex_hand_flags (d_command (by_hand ex_hand)) =
    [ ($"tool", [([$"-h"], OT_NORMAL); ([$"--version"], OT_STOP); ([$"--help"], OT_HELP)]);
      ($"add", [([$"-h"; $"--help"], OT_HELP)]);
      ($"del", [([$"--usage"], OT_HELP)]) ].
Proof. vm_compute. repeat split; reflexivity. Qed.

(** What is written for "--version", and the number of pieces and the code for "add -h". *)
Example ex_hand_runs :
  match parse_and_write 80 false 100 (by_hand ex_hand) [$"--version"] with
  | WReturn _ out => out = [(Stdout, $"tool 1.2" ++ [c_lf])]
  | _ => False
  end /\
  match parse_and_write 80 false 100 (by_hand ex_hand) [$"add"; $"-h"] with
  | WExit code _ [(Stdout, _)] => code = 0%Z
  | _ => False
  end.
Proof. vm_compute. split; reflexivity. Qed.
