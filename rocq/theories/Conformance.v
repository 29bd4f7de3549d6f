(** The project's own tests (tests/ArgosTest), run on the model.

    These are not proofs of properties: they are evidence that the model computes what the
    code computes. Each [Example] names the test case it reproduces and checks every
    REQUIRE of it that concerns modelled code. What is left out: the ids of items, which the
    model does not have, and the conversion of decimal fractions to binary ones. *)
From Verif Require Import Base MStrings MOptIter MData MCounter MValues MParseInt MParser MText
  MHelp MApi MResults.

(** ** Helpers: writing definitions as the tests do *)

Definition Arg (name : str) (cs : list arg_call) : option arg_data :=
  call_arguments cs (Some (new_argument name)).
Definition Opt (flags : list str) (cs : list opt_call) : option opt_data :=
  fold_left (fun o c => snd (call_option c o)) cs (Some (new_option flags)).

Inductive part :=
| PartArg (a : option arg_data) | PartOpt (o : option opt_data) | PartCmd (c : option cmd_data)
| PartSet (c : cmd_call) | PartCopy (c : option cmd_data).
Definition add_part (c : option cmd_data) (p : part) : option cmd_data :=
  match p with
  | PartArg a => snd (add_argument_to a c)
  | PartOpt o => snd (add_option_to o c)
  | PartCmd d => snd (add_command_to d c)
  | PartSet u => snd (call_command u c)
  | PartCopy s => snd (command_copy_from s c)
  end.
Definition Cmd (name : str) (ps : list part) : option cmd_data :=
  fold_left add_part ps (Some (new_command name)).

Definition auto_exit b := P_setting (S_auto_exit b).

(** A parser after some calls. *)
Definition Parser (name : str) (cs : list parser_call) : option parser_data :=
  snd (call_parsers 1000 cs (Some (new_parser name true))).

(** What the last call of a program gives. *)
Definition results (name : str) (cs : list parser_call) : list parser_result :=
  fst (call_parsers 1000 cs (Some (new_parser name true))).

(** The results of [parse(argc, argv)]. *)
Definition parsed (p : option parser_data) (argv : list str) : option level :=
  match fst (parse_argv 1000 p argv) with PReturn st => Some (toplevel st) | _ => None end.
Definition parsed_vector (p : option parser_data) (args : list str) : option level :=
  parsed p ($"UNUSED" :: args).
Definition events (p : option parser_data) (argv : list str) : list event :=
  match fst (parse_argv 1000 p argv) with PReturn st => ps_events st | _ => [] end.

(** The commands whose help text is written, and those named by error messages. *)
Definition help_for (e : event) : list str := match e with EvHelp c => [c_full_name c] | _ => [$"OTHER"] end.
Definition error_for (e : event) : list str := match e with EvError c _ => [c_full_name c] | _ => [$"OTHER"] end.

Definition throws_parse (p : option parser_data) (args : list str) : bool :=
  match fst (parse_vector 1000 p args) with PThrow _ => true | _ => false end.
Definition returns_parse (p : option parser_data) (args : list str) : bool :=
  match fst (parse_vector 1000 p args) with PReturn _ => true | _ => false end.

Definition code (l : option level) : option result_code := option_map l_result l.
Definition text_of (l : option level) (name : str) : exc (option str) :=
  match l with Some l => pa_value l name | None => Exn ENoCurrent end.
Definition texts_of (l : option level) (name : str) : exc (list str) :=
  match l with Some l => pa_values l name | None => Exn ENoCurrent end.
Definition bool_of (l : option level) (name : str) : option bool :=
  match text_of l name with Val v => Some (as_bool v false) | Exn _ => None end.
Definition has (l : option level) (name : str) : exc bool :=
  match l with Some l => pa_has l name | None => Exn ENoCurrent end.
Definition throws {A} (x : exc A) : bool := match x with Exn _ => true | Val _ => false end.
Definition sub (n : nat) (l : option level) : option level :=
  match l with Some l => nth_error (l_subs l) n | None => None end.
Definition name_of (l : option level) : option str := option_map (fun l => c_name (l_command l)) l.
Definition subs (l : option level) : option nat := option_map (fun l => length (l_subs l)) l.

Definition int_parser (s : str) : option Z := parse_int s 10.
Definition ints_of (l : option level) (name : str) : option (list Z) :=
  match l with
  | None => None
  | Some l =>
      match values_by_name l name with
      | VGot v => match avs_get 80 (new_parser [] true) int_parser v [] with
                  | VGot r => Some r
                  | _ => None
                  end
      | _ => None
      end
  end.

Definition lf : str := [c_lf].
Fixpoint lines (l : list str) : str := match l with [] => [] | s :: r => s ++ lf ++ lines r end.
Definition help (p : option parser_data) (path : list str) : help_end :=
  write_subcommand_help_text 80 p path.

Fixpoint contains (s t : str) : bool :=
  starts_with_cs s t || match s with [] => false | _ :: r => contains r t end.
Definition help_contains (p : option parser_data) (t : str) : bool :=
  match help p [] with HText s => contains s t | _ => false end.

(** ** test_StringUtilities.cpp *)

Example test_starts_with :
  starts_with_cs ($"ABCDEF") ($"A") = true /\ starts_with_cs ($"ABCDEF") ($"ABC") = true
  /\ starts_with_cs ($"ABCDEF") ($"ABCDEF") = true /\ starts_with_cs ($"ABCDEF") ($"abc") = false
  /\ starts_with_cs ($"ABCDEF") ($"ABCDEFG") = false.
Proof. vm_compute. repeat split. Qed.

Example test_starts_with_ci :
  starts_with_ci ($"ABCDEF") ($"A") = true /\ starts_with_ci ($"ABCDEF") ($"ABC") = true
  /\ starts_with_ci ($"ABCDEF") ($"ABcDEF") = true /\ starts_with_ci ($"ABCDEF") ($"abc") = true
  /\ starts_with_ci ($"ABCDEF") ($"ABCDEFG") = false
  /\ starts_with_ci ($"@ABCDYZ") ($"@abcdyz") = true
  /\ starts_with_ci ($"@ABCDYZ") ($"`abcdyz") = false
  /\ starts_with_ci ($"{ABCDYZ") ($"[abcdyz") = false.
Proof. vm_compute. repeat split. Qed.

Example test_is_less_ci :
  is_less_ci ($"abc") ($"ABD") = true /\ is_less_ci ($"abc") ($"ABC") = false
  /\ is_less_ci ($"abc") ($"ABCD") = true /\ is_less_ci ($"aBCD") ($"ABC") = false.
Proof. vm_compute. repeat split. Qed.

Example test_count_code_points : count_code_points ($"Bæ bæ bø må.") = 12.
Proof. vm_compute. reflexivity. Qed.

Example test_find_nth_code_point : find_nth_code_point ($"Bæ bæ bø må.") 8 = Some 11.
Proof. vm_compute. reflexivity. Qed.

Example test_find_nth_code_point_non_utf8 :
  find_nth_code_point ($"Ba boo" ++ [ascii_of_nat 128] ++ $" boo ma.") 8 = Some 8.
Proof. vm_compute. reflexivity. Qed.

(** ** test_ParseValue.cpp *)

Example test_parse_integer_empty : parse_int [] 0 = None.
Proof. vm_compute. reflexivity. Qed.

Example test_parse_floating_point_empty :
  forall F (convert : float_text -> F * bool), parse_floating_point convert [] = None.
Proof. reflexivity. Qed.

(** ** test_StandardOptionIterator.cpp *)

(** [true] is a call of [next], [false] one of [next_value]. *)
Fixpoint drive (calls : list bool) (it : opt_iter) : list (option (option str)) :=
  match calls with
  | [] => []
  | b :: r => match (if b then it_next it else it_next_value it) with
              | Ok (x, it') => Some x :: drive r it'
              | _ => [None]
              end
  end.
Definition std args := it_start KStandard args.
Definition got (s : str) := Some (Some s).
Definition no_more : option (option str) := Some None.

Example test_iterator_empty_list :
  drive [true] (std []) = [no_more] /\ drive [false] (std []) = [no_more]
  /\ drive [true; false] (std []) = [no_more; no_more].
Proof. vm_compute. repeat split. Qed.

Example test_iterator_empty_argument :
  drive [true; true] (std [$""; $"bc"]) = [got ($""); got ($"bc")].
Proof. vm_compute. reflexivity. Qed.

Example test_iterator_short_options :
  drive [true; true; true; true] (std [$"-a"; $"-bc"])
  = [got ($"-a"); got ($"-b"); got ($"-c"); no_more].
Proof. vm_compute. reflexivity. Qed.

Example test_iterator_short_options_arguments :
  drive [true; false; true; false; true] (std [$"-abc"; $"-d"; $"-efg"])
  = [got ($"-a"); got ($"bc"); got ($"-d"); got ($"-efg"); no_more].
Proof. vm_compute. reflexivity. Qed.

Example test_iterator_long_options :
  drive [true; true; false; true; false; true; true]
    (std [$"--abc"; $"--def=ghi"; $"--jklmno="; $"--pq"])
  = [got ($"--abc"); got ($"--def="); got ($"ghi"); got ($"--jklmno="); got ($""); got ($"--pq");
     no_more].
Proof. vm_compute. reflexivity. Qed.

Example test_iterator_skipping_value :
  drive [true; true; true; true] (std [$"--def=ghi"; $"--jkl="; $"--p"])
  = [got ($"--def="); got ($"--jkl="); got ($"--p"); no_more].
Proof. vm_compute. reflexivity. Qed.

(** ** test_ArgumentCounter.cpp *)

Definition counter_args : list arg_data :=
  match Arg ($"1") [A_counts 0 1], Arg ($"2") [A_count 2] with
  | Some a, Some b => [a; b]
  | _, _ => []
  end.
Fixpoint drive_counter (n : nat) (ac : arg_counter) : list (bool * option str) :=
  match n with
  | O => []
  | S n' => let (a, ac') := next_argument ac in
            (is_complete ac, option_map a_name a) :: drive_counter n' ac'
  end.
Example test_counter :
  requires_argument_count counter_args = true
  /\ drive_counter 4 (plain_counter counter_args)
     = [(false, Some ($"1")); (false, Some ($"2")); (false, Some ($"2")); (true, None)]
  /\ drive_counter 3 (counted_counter counter_args 2 0)
     = [(false, Some ($"2")); (false, Some ($"2")); (true, None)].
Proof. vm_compute. repeat split. Qed.

(** ** test_TextWriter.cpp *)

Example test_basic_writer :
  let w1 := snd (write ($"Word") false (new_writer 20)) in
  let w2 := snd (write ($"word") false (set_spaces 1 w1)) in
  let w3 := snd (write ($"word") false w2) in
  w_out (flush_writer w3) = $"Word wordword".
Proof. vm_compute. reflexivity. Qed.

(** ** test_TextFormatter.cpp *)

Definition format (width : nat) (rules : list str) (ops : list text_op) : tres str :=
  tbind (text_formatter width rules) (fun f =>
  tbind (run_ops ops f) (fun g => TOk (w_out (f_writer (flush g))))).
(** Text in which each string but the last is ended by a newline. *)
Fixpoint unlines (l : list str) : str :=
  match l with [] => [] | [s] => s | s :: r => s ++ lf ++ unlines r end.
Definition lorem : str := $"Lorem ipsum dolor sit amet, consectetur adipiscing elit.".

Example test_formatter_basic :
  format 40 [] [OpWords lorem]
  = TOk (unlines [$"Lorem ipsum dolor sit amet, consectetur"; $"adipiscing elit."]).
Proof. vm_compute. reflexivity. Qed.

Example test_formatter_indentation :
  format 40 [] [OpWords lorem; OpPush (Some 17); OpWords lorem; OpPop; OpWords ($" "); OpWords lorem]
  = TOk (unlines [$"Lorem ipsum dolor sit amet, consectetur";
                  $"adipiscing elit. Lorem ipsum dolor sit";
                  $"                 amet, consectetur";
                  $"                 adipiscing elit. Lorem";
                  $"ipsum dolor sit amet, consectetur";
                  $"adipiscing elit."]).
Proof. vm_compute. reflexivity. Qed.

Definition three_lines : str := unlines [$"Lorem ipsum dolor"; $"sit amet, consectetur"; $"adipiscing elit."].
Example test_formatter_newlines : format 40 [] [OpWords three_lines] = TOk three_lines.
Proof. vm_compute. reflexivity. Qed.

Example test_formatter_indentation_change :
  format 40 [] [OpWords ($"ABCDEFGHIJ"); OpPush (Some 20); OpWords ($"ABCDEFGHIJ")]
  = TOk ($"ABCDEFGHIJ          ABCDEFGHIJ").
Proof. vm_compute. reflexivity. Qed.

Example test_formatter_indentation_change_preformatted :
  format 40 [] [OpLines ($"ABCDEFGHIJ"); OpPush (Some 20); OpLines ($"ABCDEFGHIJ")]
  = TOk ($"ABCDEFGHIJ          ABCDEFGHIJ").
Proof. vm_compute. reflexivity. Qed.

Definition spaced_lines : str :=
  unlines [$" Lorem ipsum dolor"; $"  sit amet, consectetur"; $"   adipiscing elit."].
Example test_formatter_keep_whitespace : format 40 [] [OpWords spaced_lines] = TOk spaced_lines.
Proof. vm_compute. reflexivity. Qed.

Example test_formatter_preformatted :
  format 30 [] [OpPush (Some 5); OpLines ($"[abc efg]"); OpWords ($" "); OpLines ($"[abc efg]");
                OpWords ($" "); OpLines ($"[abc efg]"); OpWords ($" "); OpLines ($"[abc efg]");
                OpWords ($" "); OpLines ($"[abc efg]")]
  = TOk (unlines [$"     [abc efg] [abc efg]"; $"     [abc efg] [abc efg]"; $"     [abc efg]"]).
Proof. vm_compute. reflexivity. Qed.

Example test_formatter_multi_byte :
  format 40 [] [OpWords ($"Lorem ipsum dålår sit åmet, consøctetur adipiscing elit.")]
  = TOk (unlines [$"Lorem ipsum dålår sit åmet, consøctetur"; $"adipiscing elit."]).
Proof. vm_compute. reflexivity. Qed.

Example test_formatter_no_rule :
  format 10 [] [OpWords ($"Brønnøysundsregisteret")]
  = TOk (unlines [$"Brønnøysu-"; $"ndsregist-"; $"eret"]).
Proof. vm_compute. reflexivity. Qed.

Example test_formatter_with_rule :
  format 12 [$"Brønn øy sunds registeret"] [OpWords ($"Til Brønnøysundsregisteret")]
  = TOk (unlines [$"Til Brønnøy-"; $"sunds-"; $"registeret"]).
Proof. vm_compute. reflexivity. Qed.

Example test_formatter_alignment :
  format 12 [] [OpWords ($"    Abcd efg hij klm")] = TOk (unlines [$"    Abcd efg"; $"    hij klm"]).
Proof. vm_compute. reflexivity. Qed.

Example test_formatter_list_items :
  format 17 []
    [OpWords (unlines [$"My list:"; $"- Abcdef ghijk lmn"; $"    * Abcdef ghij";
                       $"    * Abcdef ghijk lmn"; $"- Abcdef ghijk lmn"; $"1. Abcdef ghijk lmn";
                       $"    1. Abcdef ghijk lmn"; $"Abcdef ghijk lmn opqrst"])]
  = TOk (unlines [$"My list:"; $"- Abcdef ghijk"; $"  lmn"; $"    * Abcdef ghij"; $"    * Abcdef";
                  $"      ghijk lmn"; $"- Abcdef ghijk"; $"  lmn"; $"1. Abcdef ghijk"; $"   lmn";
                  $"    1. Abcdef"; $"       ghijk lmn"; $"Abcdef ghijk lmn"; $"opqrst"]).
Proof. vm_compute. reflexivity. Qed.

Example test_formatter_spaces_before_newline :
  format 12 [] [OpWords (unlines [$"abcd "; $"efgh"])] = TOk (unlines [$"abcd"; $"efgh"]).
Proof. vm_compute. reflexivity. Qed.

(** ** test_WordSplitter.cpp *)

Definition default_split (word : str) (start max_length : nat) : tres word_split :=
  split [] word start max_length true.
Definition rule_split (rule : str) (start max_length : nat) : tres word_split :=
  tbind (add_word [] rule) (fun m =>
  split m (filter (fun c => negb (Ascii.eqb c c_space)) rule) start max_length false).
Definition hyphen : option ascii := Some c_dash.

Example test_default_splitter :
  default_split ($"decision") 0 8 = TOk ($"decision", None, $"")
  /\ default_split ($"decision") 0 7 = TOk ($"decisi", hyphen, $"on")
  /\ default_split ($"abcdef123456") 0 9 = TOk ($"abcdef", hyphen, $"123456")
  /\ default_split ($"bbbbbbbbbbb") 0 7 = TOk ($"bbbbbb", hyphen, $"bbbbb")
  /\ default_split ($"bbbbbbccccccdddddd") 6 7 = TOk ($"cccccc", hyphen, $"dddddd").
Proof. vm_compute. repeat split. Qed.

Example test_split_double_dash : default_split ($"--help") 0 5 = TOk ($"--", None, $"help").
Proof. vm_compute. reflexivity. Qed.

Example test_default_splitter_utf8 :
  default_split ($"æøå•Ωé†µüıœπ˙äöﬁª√˛¸ƒ∂ß") 0 14 = TOk ($"æøå•Ωé†µüıœπ˙", hyphen, $"äöﬁª√˛¸ƒ∂ß")
  /\ default_split ($"Båidg-hølnow") 0 8 = TOk ($"Båidg-", None, $"hølnow").
Proof. vm_compute. repeat split. Qed.

Example test_splitter :
  rule_split ($"ono mato poe ti con") 2 8 = TOk ($"omato", hyphen, $"poeticon")
  /\ rule_split ($"ono mato poe ti con") 0 8 = TOk ($"onomato", hyphen, $"poeticon")
  /\ rule_split ($"ono mato poe ti con") 0 7 = TOk ($"ono", hyphen, $"matopoeticon")
  /\ rule_split ($"ono mato poe ti con") 7 8 = TOk ($"poeticon", None, $"")
  /\ rule_split ($"ono mato poe ti con") 7 7 = TOk ($"poeti", hyphen, $"con").
Proof. vm_compute. repeat split. Qed.

Example test_splitter_hyphens :
  rule_split ($"multi- tasking") 0 8 = TOk ($"multi-", None, $"tasking").
Proof. vm_compute. reflexivity. Qed.

Example test_splitter_utf8 :
  rule_split ($"Brønn øy sund") 0 6 = TOk ($"Brønn", hyphen, $"øysund")
  /\ rule_split ($"Brønn øy sund") 0 7 = TOk ($"Brønn", hyphen, $"øysund")
  /\ rule_split ($"Brønn øy sund") 0 8 = TOk ($"Brønnøy", hyphen, $"sund")
  /\ rule_split ($"Brønn øy sund") 0 10 = TOk ($"Brønnøy", hyphen, $"sund")
  /\ rule_split ($"Brønn øy sund") 0 11 = TOk ($"Brønnøysund", None, $"")
  /\ rule_split ($"Brønn øy sund") 4 7 = TOk ($"nnøy", hyphen, $"sund").
Proof. vm_compute. repeat split. Qed.

Example test_splitter_case_and_punctuation :
  tbind (add_word [] ($"in compre hensi bili ties")) (fun m =>
    split m ($"Incomprehensibilities.") 0 12 false)
  = TOk ($"Incompre", hyphen, $"hensibilities.").
Proof. vm_compute. reflexivity. Qed.

(** ** test_HelpWriter.cpp *)

Definition in_usage : visibility := mk_vis true false.
Definition no_help : parser_call := P_setting (S_generate_help false).

Example test_help_stop_options :
  help (Parser ($"prog")
    [P_add_option (Opt [$"--help"] [O_type OT_HELP; O_visibility in_usage]);
     P_add_option (Opt [$"--version"] [O_type OT_STOP; O_visibility in_usage]);
     P_add_option (Opt [$"--do"] [O_argument ($"STUFF"); O_type OT_EXIT; O_visibility in_usage]);
     P_add_option (Opt [$"--option"] [O_visibility in_usage]);
     P_add_argument (Arg ($"arg") [A_visibility in_usage])]) []
  = HText (lines [$"USAGE"; $"  prog --help"; $"  prog --version"; $"  prog --do <STUFF>";
                  $"  prog [--option] <arg>"]).
Proof. vm_compute. reflexivity. Qed.

Example test_help_no_empty_line :
  help (Parser ($"prog")
    [P_add_option (Opt [$"--option1"] [O_help ($"A text that is too long to fit on a single line. This makes the help text appear on the next line.")]);
     P_add_option (Opt [$"--option2"] []); P_add_argument (Arg ($"arg") []); no_help]) []
  = HText (lines [$"USAGE"; $"  prog [--option1] [--option2] <arg>"; $""; $"ARGUMENTS"; $"  <arg>"; $"";
     $"OPTIONS"; $"  --option1"; $"        A text that is too long to fit on a single line. This makes the help";
     $"        text appear on the next line."; $"  --option2"]).
Proof. vm_compute. reflexivity. Qed.

Example test_help_callbacks :
  help (Parser ($"prog")
    [P_add_option (Opt [$"--opt"] [O_help ($"Option")]);
     P_add_argument (Arg ($"arg") [A_help ($"Argument")]); no_help]) []
  = HText (lines [$"USAGE"; $"  prog [--opt] <arg>"; $""; $"ARGUMENTS"; $"  <arg> Argument"; $"";
     $"OPTIONS"; $"  --opt Option"]).
Proof. vm_compute. reflexivity. Qed.

Example test_help_about :
  help (Parser ($"prog")
    [P_command (C_about ($"Does stuff.")); P_add_argument (Arg ($"arg") [A_help ($"Argument")]); no_help]) []
  = HText (lines [$"USAGE"; $"  prog <arg>"; $""; $"Does stuff."; $""; $"ARGUMENTS"; $"  <arg> Argument"]).
Proof. vm_compute. reflexivity. Qed.

Definition foo_bar : option parser_data :=
  Parser ($"prog") [P_add_command (Cmd ($"foo") [PartSet (C_help ($"Does foo things."))]);
                    P_add_command (Cmd ($"bar") [])].
Example test_help_top_level :
  help foo_bar []
  = HText (lines [$"USAGE"; $"  prog --help"; $"  prog foo|bar"; $""; $"COMMANDS";
      $"  foo        Does foo things."; $"  bar"; $""; $"OPTIONS"; $"  -h, --help Display this help text."]).
Proof. vm_compute. reflexivity. Qed.
Example test_help_sub_command :
  help foo_bar [$"foo"]
  = HText (lines [$"USAGE"; $"  prog foo --help"; $"  prog foo"; $""; $"Does foo things."; $"";
      $"OPTIONS"; $"  -h, --help Display this help text."]).
Proof. vm_compute. reflexivity. Qed.

(** ** test_ArgumentValue.cpp *)

(** The conversions report errors through the parser; none is reported here. *)
Definition split_values (l : option level) (name : str) (sep : ascii) (lo hi : N) : option (list str) :=
  match l with
  | None => None
  | Some l =>
      match values_by_name l name with
      | VGot v => match avs_split 80 (new_parser [] true) v sep lo hi with
                  | VGot r => Some (map fst (avs_values r))
                  | _ => None
                  end
      | _ => None
      end
  end.
Definition split_value (l : option level) (name : str) (sep : ascii) (lo hi : N) : option (list str) :=
  match l with
  | None => None
  | Some l =>
      match value_by_name l name with
      | VGot v => match av_split 80 (new_parser [] true) v sep lo hi with
                  | VGot r => Some (map fst r)
                  | _ => None
                  end
      | _ => None
      end
  end.
Definition c_comma : ascii := ",".
Definition c_colon : ascii := ":".
(** [split(separator)] has the default arguments 0 and 0. *)

Example test_value_split :
  let args := parsed (Parser ($"test") [auto_exit false; P_add_option (Opt [$"--f="] [O_argument ($"M,N")])])
                [$"test"; $"--f=34,45"] in
  split_value args ($"--f=") c_comma 2 2 = Some [$"34"; $"45"]
  /\ map int_parser [$"34"; $"45"] = [Some 34%Z; Some 45%Z].
Proof. vm_compute. repeat split. Qed.

Example test_values_split :
  let args := parsed (Parser ($"test") [auto_exit false;
                 P_add_option (Opt [$"--f"] [O_argument ($"PATHS"); O_operation OP_APPEND])])
                [$"test"; $"--f"; $"/a/b:/a/c"; $"--f"; $"/b/c:/b/d/e:/c/a"] in
  split_values args ($"--f") c_colon 0 0 = Some [$"/a/b"; $"/a/c"; $"/b/c"; $"/b/d/e"; $"/c/a"].
Proof. vm_compute. reflexivity. Qed.

Example test_double_values :
  let args := parsed (Parser ($"test") [auto_exit false; P_add_argument (Arg ($"ARG1") []);
                 P_add_option (Opt [$"-v"] [O_argument ($"N")])]) [$"test"; $"1.567"] in
  text_of args ($"ARG1") = Val (Some ($"1.567")) /\ text_of args ($"-v") = Val None.
Proof. vm_compute. repeat split. Qed.

Example test_value_iterator :
  let args := parsed (Parser ($"test") [auto_exit false;
                 P_add_option (Opt [$"-i"] [O_argument ($"STR[:STR]*"); O_operation OP_APPEND])])
                [$"test"; $"-i"; $"A:B"; $"-i"; $"C:D:E"] in
  split_values args ($"-i") c_colon 0 0 = Some [$"A"; $"B"; $"C"; $"D"; $"E"].
Proof. vm_compute. reflexivity. Qed.

(** ** test_ParsedArguments.cpp *)

Definition filter_parser : option parser_data :=
  Parser ($"test") [auto_exit false; P_setting (S_ignore_options true); P_setting (S_ignore_arguments true);
    P_add_argument (Arg ($"FILE") []); P_add_option (Opt [$"-f"] []); P_add_option (Opt [$"--g"] [])].
Definition filtered (p : option parser_data) (argv : list str) : option (list str) :=
  option_map (fun l => filter_parsed_arguments (l_unprocessed l) argv) (parsed p argv).

Example test_filter_all : filtered filter_parser [$"test"; $"-f"; $"file"] = Some [$"test"].
Proof. vm_compute. reflexivity. Qed.
Example test_filter_some :
  filtered filter_parser [$"test"; $"-f"; $"-p"; $"--g"; $"--q"; $"file"; $"text"]
  = Some [$"test"; $"-p"; $"--q"; $"text"].
Proof. vm_compute. reflexivity. Qed.

Example test_all_options :
  let args := parsed (Parser ($"UNINITIALIZED") [P_add_option (Opt [$"-f"; $"--flag"] []);
                 P_add_command (Cmd ($"cmd") [PartOpt (Opt [$"-o"; $"--option"] []);
                                              PartArg (Arg ($"ARG") [])])])
                [$"UNUSED"; $"-f"; $"cmd"; $"-o"; $"arg"] in
  option_map (fun l => (map o_flags (c_options (l_command l)), map a_name (c_arguments (l_command l)))) args
  = Some ([[$"-f"; $"--flag"]; [$"-h"; $"--help"]], [])
  /\ subs args = Some 1 /\ name_of (sub 0 args) = Some ($"cmd")
  /\ option_map (fun l => (map o_flags (c_options (l_command l)), map a_name (c_arguments (l_command l))))
       (sub 0 args)
     = Some ([[$"-o"; $"--option"]; [$"-h"; $"--help"]], [$"ARG"]).
Proof. vm_compute. repeat split. Qed.

(** ** test_ArgumentParser.cpp *)

Definition stop_flags (l : option level) : option (list str) :=
  match l with Some l => option_map o_flags (l_stop l) | None => None end.

Example test_help_flag :
  let p := Parser ($"test") [auto_exit false; P_add_option (Opt [$"-h"; $"--help"]
             [O_type OT_HELP; O_help ($"Show help message.")])] in
  let r := parsed p [$"test"; $"--help"] in
  option_map (fun d => c_name (d_command d)) p = Some ($"test")
  /\ has r ($"--help") = Val true /\ code r = Some RC_STOP
  /\ stop_flags r = Some [$"-h"; $"--help"] /\ bool_of r ($"--help") = Some true.
Proof. vm_compute. repeat split. Qed.

Example test_conflicting_flags :
  throws_parse (Parser ($"test") [P_add_option (Opt [$"-h"; $"--help"] [O_type OT_HELP; O_help ($"Show help message.")]);
    P_add_option (Opt [$"-h"] [O_help ($"Output height.")])]) [$"--help"] = true.
Proof. vm_compute. reflexivity. Qed.

Example test_string_arguments :
  text_of (parsed (Parser ($"test") [auto_exit false; P_add_argument (Arg ($"file") [])])
             [$"test"; $"test_file.txt"]) ($"file") = Val (Some ($"test_file.txt")).
Proof. vm_compute. reflexivity. Qed.

(** The parser writes the help text of the command "test" and nothing else, and that help
    text is as required. *)
Example test_section_order :
  let p := Parser ($"test") [auto_exit false; P_add_argument (Arg ($"file") [A_section ($"Z")]);
             P_add_option (Opt [$"-h"] [O_section ($"A"); O_type OT_HELP]);
             P_add_option (Opt [$"-s"] [O_section ($"Z")]);
             P_add_argument (Arg ($"device") [A_section ($"A")]);
             P_command (C_text TX_USAGE_TITLE []); P_command (C_text TX_USAGE [])] in
  flat_map help_for (events p [$"test"; $"-h"]) = [$"test"]
  /\ help p [] = HText (lines [$"Z"; $"  <file>"; $"  -s"; $""; $"A"; $"  <device>"; $"  -h"]).
Proof. vm_compute. repeat split. Qed.

Example test_text_callback :
  let p := Parser ($"test") [auto_exit false; P_add_argument (Arg ($"file") []);
             P_add_option (Opt [$"-h"] [O_type OT_HELP]);
             P_add_argument (Arg ($"device") [A_section ($"A")]);
             P_command (C_text TX_USAGE_TITLE []); P_command (C_text TX_USAGE []);
             P_command (C_text TX_FINAL_TEXT ($"Something."))] in
  flat_map help_for (events p [$"test"; $"-h"]) = [$"test"]
  /\ help p [] = HText (lines [$"ARGUMENTS"; $"  <file>"; $""; $"A"; $"  <device>"; $""; $"OPTIONS";
                               $"  -h"; $""; $"Something."]).
Proof. vm_compute. repeat split. Qed.

Example test_two_arguments :
  let r := parsed (Parser ($"test") [auto_exit false; P_add_argument (Arg ($"arg1") []);
                     P_add_argument (Arg ($"arg2") [])]) [$"test"; $"foo"; $"bar"] in
  text_of r ($"arg1") = Val (Some ($"foo")) /\ text_of r ($"arg2") = Val (Some ($"bar")).
Proof. vm_compute. repeat split. Qed.

Example test_append_needs_value :
  throws_parse (Parser ($"test") [P_add_option (Opt [$"-a"] [O_operation OP_APPEND])]) [] = true.
Proof. vm_compute. reflexivity. Qed.

Example test_list_argument :
  let r := parsed (Parser ($"test") [auto_exit false; P_add_option (Opt [$"-n"; $"--number"]
                      [O_operation OP_APPEND; O_argument ($"NUM")])])
             [$"test"; $"-n"; $"12"; $"--number"; $"20"; $"--number=6"; $"-n15"] in
  code r = Some RC_SUCCESS /\ ints_of r ($"-n") = Some [12; 20; 6; 15]%Z.
Proof. vm_compute. repeat split. Qed.

Definition accepts (style : option_style) (flag argument : str) : bool :=
  returns_parse (Parser ($"UNINITIALIZED") [P_style style;
     P_add_option (Opt [flag] [O_argument argument])]) [].
Example test_incorrect_standard_options :
  map (fun x => accepts STANDARD (fst x) (snd x))
    [($"a", []); ($"-a", []); ($"--", []); ($"-=", []); ($"-ab", []); ($"--=", []);
     ($"--=", $"A"); ($"--a", []); ($"--a=", []); ($"--a=", $"A"); ($"--a=b", [])]
  = [false; true; true; true; false; false; true; true; false; true; false].
Proof. vm_compute. reflexivity. Qed.

Example test_dash_options :
  map (fun x => accepts DASH (fst x) (snd x)) [($"-=", []); ($"-a=", []); ($"-a=", $"A")] = [true; false; true]
  /\ let r := parsed (Parser ($"test") [auto_exit false; P_style DASH; P_add_option (Opt [$"-number"]
                        [O_operation OP_APPEND; O_argument ($"NUM")])])
               [$"test"; $"-number"; $"12"; $"-number"; $"20"; $"-number=6"; $"-number"; $"15"] in
     code r = Some RC_SUCCESS /\ ints_of r ($"-number") = Some [12; 20; 6; 15]%Z.
Proof. vm_compute. repeat split. Qed.

Example test_slash_options :
  let r := parsed (Parser ($"test") [auto_exit false; P_style SLASH; P_add_option (Opt [$"/number"]
                     [O_operation OP_APPEND; O_argument ($"NUM")])])
             [$"test"; $"/number"; $"12"; $"/number"; $"20"; $"/number=6"; $"/number"; $"15"] in
  code r = Some RC_SUCCESS /\ ints_of r ($"/number") = Some [12; 20; 6; 15]%Z.
Proof. vm_compute. repeat split. Qed.

Example test_incorrect_slash_option :
  code (parsed (Parser ($"test") [auto_exit false; P_style SLASH; P_add_option (Opt [$"/bill"] []);
                  P_add_argument (Arg ($"file") [])]) [$"test"; $"/benny"]) = Some RC_FAILURE.
Proof. vm_compute. reflexivity. Qed.

Example test_option_style_change :
  results ($"test") [P_add_argument (Arg ($"file") []); P_style DASH; P_add_option (Opt [$"-p"] []);
                     P_style DASH; P_style STANDARD]
  = [R_call (Done tt); R_call (Done tt); R_call (Done tt); R_call (Done tt); R_call (Raised EStyleChange)].
Proof. vm_compute. reflexivity. Qed.

(** What an iterator over [argv] gives: for each call of [next], whether it returns true,
    the name of the item and the value; and the results after each call. *)
Definition item_name (i : iter_item) : option str :=
  match i with
  | ItNone => None
  | ItArgument a => Some (a_name a)
  | ItOption o => Some (hd [] (o_flags o))
  | ItCommand c => Some (c_name c)
  end.
Fixpoint iterate_n (n : nat) (cfg : settings) (st : pstate)
  : list (bool * option str * str * level) :=
  match n with
  | O => []
  | S n' => match next cfg st with
            | Ret r st' => (api_next_result r, item_name (ir_item r), ir_value r, ps_cur st')
                           :: iterate_n n' cfg st'
            | _ => []
            end
  end.
Definition iterated (p : option parser_data) (argv : list str) (n : nat)
  : list (bool * option str * str * level) :=
  match fst (make_iterator_argv p argv) with
  | Done (cfg, st) => iterate_n n cfg st
  | _ => []
  end.
Definition items (l : list (bool * option str * str * level)) : list (bool * option str * str) := map fst l.
Definition after_call (n : nat) (l : list (bool * option str * str * level)) : option level :=
  option_map snd (nth_error l n).

Example test_argument_iterator :
  items (iterated (Parser ($"test") [auto_exit false; P_add_argument (Arg ($"arg1") [A_counts 0 9]);
                     P_add_argument (Arg ($"arg2") [])]) [$"test"; $"foo"; $"bar"; $"baz"] 4)
  = [(true, Some ($"arg1"), $"foo"); (true, Some ($"arg1"), $"bar"); (true, Some ($"arg2"), $"baz");
     (false, None, [])].
Proof. vm_compute. reflexivity. Qed.

Example test_stop_option :
  let r := parsed (Parser ($"test") [auto_exit false; P_add_argument (Arg ($"arg") []);
                     P_add_option (Opt [$"--version"] [O_type OT_STOP])])
             [$"test"; $"--version"; $"arg 1"; $"arg 2"] in
  code r = Some RC_STOP /\ stop_flags r = Some [$"--version"]
  /\ option_map l_unprocessed r = Some [$"arg 1"; $"arg 2"].
Proof. vm_compute. repeat split. Qed.

Example test_last_argument_option :
  code (parsed (Parser ($"test") [auto_exit false; P_add_argument (Arg ($"arg") []);
                  P_add_option (Opt [$"--"] [O_type OT_LAST_ARGUMENT])])
          [$"test"; $"--"; $"arg 1"]) = Some RC_FAILURE.
Proof. vm_compute. reflexivity. Qed.

Example test_last_option_option :
  let r := parsed (Parser ($"test") [auto_exit false; P_add_argument (Arg ($"arg") []);
                     P_add_option (Opt [$"--bar"] []); P_add_option (Opt [$"--"] [O_type OT_LAST_OPTION])])
             [$"test"; $"--bar"; $"--"; $"--bar"] in
  code r = Some RC_SUCCESS /\ bool_of r ($"--bar") = Some true /\ bool_of r ($"--") = Some true
  /\ text_of r ($"arg") = Val (Some ($"--bar")).
Proof. vm_compute. repeat split. Qed.

Example test_variable_count :
  let r lo1 hi1 lo2 hi2 :=
    parsed (Parser ($"test") [auto_exit false; P_add_argument (Arg ($"arg1") [A_counts lo1 hi1]);
              P_add_argument (Arg ($"arg2") [A_counts lo2 hi2])]) [$"test"; $"ab"; $"cd"; $"ef"; $"gh"] in
  let ok r := code r = Some RC_SUCCESS /\ texts_of r ($"arg1") = Val [$"ab"; $"cd"]
              /\ texts_of r ($"arg2") = Val [$"ef"; $"gh"] in
  ok (r 1 4 2 2)%N /\ ok (r 2 2 1 4)%N.
Proof. vm_compute. repeat split. Qed.

Example test_clear_option :
  let l := iterated (Parser ($"test") [auto_exit false;
               P_add_option (Opt [$"--bar"] [O_argument ($"N"); O_operation OP_APPEND]);
               P_add_option (Opt [$"--ben"] [O_alias ($"--bar"); O_operation OP_CLEAR]);
               P_add_option (Opt [$"--bud"] [])])
             [$"test"; $"--bar=12"; $"--bud"; $"--bar"; $"34"; $"--ben"] 4 in
  firstn 3 (items l) = [(true, Some ($"--bar"), $"12"); (true, Some ($"--bud"), []); (true, Some ($"--bar"), $"34")]
  /\ ints_of (after_call 2 l) ($"--bar") = Some [12; 34]%Z
  /\ option_map (fun x => snd (fst x)) (nth_error (items l) 3) = Some (Some ($"--ben"))
  /\ texts_of (after_call 3 l) ($"--bar") = Val []
  /\ bool_of (after_call 3 l) ($"--bud") = Some true.
Proof. vm_compute. repeat split. Qed.

Definition ci := P_setting (S_case_insensitive true).
Example test_conflicting_ci_options :
  throws_parse (Parser ($"test") [ci; P_add_option (Opt [$"-h"; $"--help"] [O_type OT_HELP]);
                  P_add_option (Opt [$"-H"] [])]) [$"--help"] = true.
Proof. vm_compute. reflexivity. Qed.

Example test_ci_options :
  let r := parsed (Parser ($"test") [ci; P_style SLASH; P_add_option (Opt [$"/penny"] []);
                     P_add_option (Opt [$"/lane"] [])]) [$"test"; $"/PEnnY"] in
  code r = Some RC_SUCCESS /\ bool_of r ($"/penny") = Some true /\ bool_of r ($"/lane") = Some false.
Proof. vm_compute. repeat split. Qed.

Example test_abbreviated_options :
  let r flag := parsed (Parser ($"test") [auto_exit false; P_setting (S_abbreviations true); ci; P_style SLASH;
                  P_add_option (Opt [$"/penny"] []); P_add_option (Opt [$"/pentagram"] [])]) [$"test"; flag] in
  let s flag := (code (r flag), bool_of (r flag) ($"/penny"), bool_of (r flag) ($"/pentagram")) in
  s ($"/PenN") = (Some RC_SUCCESS, Some true, Some false)
  /\ s ($"/peNT") = (Some RC_SUCCESS, Some false, Some true)
  /\ s ($"/peN") = (Some RC_FAILURE, Some false, Some false).
Proof. vm_compute. repeat split. Qed.

Example test_same_name :
  let r := parsed (Parser ($"test") [auto_exit false; P_add_argument (Arg ($"arg") []);
                     P_add_argument (Arg ($"arg") [A_counts 0 10])]) [$"test"; $"aa"; $"bb"; $"cc"] in
  code r = Some RC_SUCCESS /\ texts_of r ($"arg") = Val [$"aa"; $"bb"; $"cc"].
Proof. vm_compute. repeat split. Qed.

Example test_options_ending_with_equal :
  let l := iterated (Parser ($"test") [auto_exit false;
               P_add_option (Opt [$"--f="] [O_alias ($"f"); O_argument ($"N")]);
               P_add_option (Opt [$"--f"] [O_alias ($"f"); O_operation OP_CLEAR])])
             [$"test"; $"--f="; $"--f=2"; $"--f"] 4 in
  map (fun x => fst (fst x)) (items l) = [true; true; true; false]
  /\ text_of (after_call 0 l) ($"f") = Val (Some [])
  /\ text_of (after_call 1 l) ($"f") = Val (Some ($"2"))
  /\ has (after_call 2 l) ($"f") = Val false.
Proof. vm_compute. repeat split. Qed.

Example test_none_option :
  throws_parse (Parser ($"p") [P_add_option (Opt [$"-o"] [O_constant ($"f"); O_operation OP_NONE])]) [] = true
  /\ throws_parse (Parser ($"p") [P_add_option (Opt [$"-o"] [O_alias ($"f"); O_operation OP_NONE])]) [] = true
  /\ let r := parsed (Parser ($"test") [auto_exit false;
                P_add_option (Opt [$"--f"] [O_argument ($"N"); O_operation OP_NONE]);
                P_add_option (Opt [$"--g"] [O_operation OP_NONE]); P_add_option (Opt [$"--h"] [])])
              [$"test"; $"--f=12"; $"--g"; $"--h"] in
     throws (text_of r ($"--f")) = true /\ throws (text_of r ($"--g")) = true
     /\ bool_of r ($"--h") = Some true.
Proof. vm_compute. repeat split. Qed.

Example test_mandatory_option :
  code (parsed (Parser ($"test") [auto_exit false;
                  P_add_option (Opt [$"--f"] [O_argument ($"N"); O_mandatory true]);
                  P_add_argument (Arg ($"arg") [])]) [$"test"; $"abcd"]) = Some RC_FAILURE.
Proof. vm_compute. reflexivity. Qed.

Definition ignoring (opts args : bool) (more : list parser_call) : option parser_data :=
  Parser ($"test") ([auto_exit false; P_setting (S_ignore_options opts); P_setting (S_ignore_arguments args)] ++ more).
Definition file_arg := P_add_argument (Arg ($"FILE") []).

Example test_unknown_options_and_arguments :
  let l := iterated (ignoring true true [file_arg]) [$"test"; $"-o"; $"arg"; $"man"] 4 in
  items l = [(true, None, $"-o"); (true, Some ($"FILE"), $"arg"); (true, None, $"man"); (false, None, [])]
  /\ code (after_call 3 l) = Some RC_SUCCESS.
Proof. vm_compute. repeat split. Qed.

Example test_unknown_option_invalid_argument :
  let l := iterated (ignoring true false [file_arg]) [$"test"; $"--opera=foo"; $"arg"; $"man"] 3 in
  firstn 2 (items l) = [(true, None, $"--opera=foo"); (true, Some ($"FILE"), $"arg")]
  /\ map (fun x => fst (fst x)) (items l) = [true; true; false]
  /\ code (after_call 2 l) = Some RC_FAILURE.
Proof. vm_compute. repeat split. Qed.

Example test_unknown_argument_invalid_option :
  let l := iterated (ignoring false true [file_arg]) [$"test"; $"arg"; $"man"; $"-o"] 3 in
  firstn 2 (items l) = [(true, Some ($"FILE"), $"arg"); (true, None, $"man")]
  /\ map (fun x => fst (fst x)) (items l) = [true; true; false]
  /\ code (after_call 2 l) = Some RC_FAILURE.
Proof. vm_compute. repeat split. Qed.

Example test_unknown_argument_invalid_short_option :
  let l := iterated (ignoring true false [P_add_option (Opt [$"-o"] [])]) [$"test"; $"-o"; $"-pq"; $"-op"] 3 in
  firstn 2 (items l) = [(true, Some ($"-o"), []); (true, None, $"-pq")]
  /\ map (fun x => fst (fst x)) (items l) = [true; true; false]
  /\ code (after_call 2 l) = Some RC_FAILURE.
Proof. vm_compute. repeat split. Qed.

Example test_default_help :
  code (parsed (Parser ($"test") [auto_exit false; P_add_argument (Arg ($"arg") [])]) [$"test"; $"--help"])
  = Some RC_STOP.
Proof. vm_compute. reflexivity. Qed.

Example test_alias_before_option :
  ints_of (parsed (Parser ($"test") [P_add_option (Opt [$"-f"] [O_alias ($"-h"); O_constant ($"2")]);
                     P_add_option (Opt [$"-g"] [O_alias ($"-h"); O_constant ($"1")]);
                     P_add_option (Opt [$"-h"] [O_constant ($"3")])]) [$"test"; $"-h"]) ($"-h") = Some [3%Z].
Proof. vm_compute. reflexivity. Qed.

Example test_constant :
  text_of (parsed (Parser ($"test") [P_add_option (Opt [$"-f"] [O_constant ($"foo")]);
                     P_add_option (Opt [$"-g"] [O_alias ($"-f"); O_constant ($"goo")])]) [$"test"; $"-f"]) ($"-f")
  = Val (Some ($"foo")).
Proof. vm_compute. reflexivity. Qed.

Example test_short_options_with_argument :
  let r args := parsed (Parser ($"test") [P_add_option (Opt [$"-e"] [O_argument ($"FOO")]);
                  P_add_option (Opt [$"-x"] []); P_add_option (Opt [$"-y"] [])]) ($"test" :: args) in
  let s args := (bool_of (r args) ($"-x"), bool_of (r args) ($"-y"), ints_of (r args) ($"-e")) in
  let ok := (Some true, Some false, Some [10%Z]) in
  s [$"-x"; $"-e10"] = ok /\ s [$"-x"; $"-e"; $"10"] = ok /\ s [$"-xe10"] = ok /\ s [$"-xe"; $"10"] = ok.
Proof. vm_compute. repeat split. Qed.

Example test_initial_value :
  let r args := parsed (Parser ($"test") [auto_exit false;
                  P_add_option (Opt [$"-a"] [O_initial_value ($"a:b"); O_argument ($"A")]);
                  P_add_option (Opt [$"-b"] [O_initial_value ($"o:p"); O_argument ($"B"); O_operation OP_APPEND])])
                ($"test" :: args) in
  let s args := (split_value (r args) ($"-a") c_colon 0 0, split_values (r args) ($"-b") c_colon 0 0) in
  s [] = (Some [$"a"; $"b"], Some [$"o"; $"p"])
  /\ s [$"-ac:d"; $"-bq:r"] = (Some [$"c"; $"d"], Some [$"o"; $"p"; $"q"; $"r"]).
Proof. vm_compute. repeat split. Qed.

Example test_version_option :
  let p := Parser ($"test") [P_version ($"1.2.3"); auto_exit false] in
  code (parsed p [$"test"; $"--version"]) = Some RC_STOP
  /\ flat_map (fun e => match e with EvText s => s | _ => [] end) (events p [$"test"; $"--version"])
     = $"test 1.2.3" ++ lf.
Proof. vm_compute. repeat split. Qed.

Example test_dash_is_an_argument :
  text_of (parsed (Parser ($"test") [P_add_argument (Arg ($"FOO") [])]) [$"test"; $"-"]) ($"FOO")
  = Val (Some ($"-")).
Proof. vm_compute. reflexivity. Qed.

Example test_program_name_from_argv :
  flat_map help_for (events (Parser ($"UNINITIALIZED") [auto_exit false]) [$"test"; $"-h"]) = [$"test"]
  /\ name_of (parsed (Parser ($"UNINITIALIZED") [auto_exit false]) [$"test"; $"-h"]) = Some ($"test").
Proof. vm_compute. repeat split. Qed.

Example test_word_splitting_rules :
  help (Parser ($"test") [P_command (C_about ($"Full of weird incomprehensibilities."));
          P_word_rule ($"in compre hensi bili ties"); no_help; P_line_width 20]) []
  = HText (lines [$"USAGE"; $"  test"; $""; $"Full of weird in-"; $"comprehensibilities."]).
Proof. vm_compute. reflexivity. Qed.

(** ** test_Subcommands.cpp *)

Definition unnamed (cs : list parser_call) : option parser_data :=
  Parser ($"UNINITIALIZED") (auto_exit false :: cs).
Definition multi : parser_call := P_command (C_multi true).

Example test_help_about_commands :
  let p := Parser ($"Test program") [auto_exit false;
     P_add_command (Cmd ($"foo") [PartSet (C_help ($"Does foo things"))]);
     P_add_command (Cmd ($"bar") [PartSet (C_help ($"Does bar things"))])] in
  map (help_contains p) [$"foo|bar"; $"COMMANDS"; $"Does foo things"; $"Does bar things"]
  = [true; true; true; true].
Proof. vm_compute. reflexivity. Qed.

Example test_one_subcommand :
  let r := parsed (unnamed [P_add_command (Cmd ($"foo") [PartArg (Arg ($"ARG") [])])])
             [$"test"; $"foo"; $"value"] in
  subs r = Some 1 /\ name_of (sub 0 r) = Some ($"foo") /\ has (sub 0 r) ($"ARG") = Val true
  /\ text_of (sub 0 r) ($"ARG") = Val (Some ($"value")).
Proof. vm_compute. repeat split. Qed.

Example test_help_for_subcommand :
  flat_map help_for (events (unnamed [P_add_command (Cmd ($"foo") [PartSet (C_about ($"Does foo things"))])])
    [$"test"; $"foo"; $"--help"]) = [$"test foo"].
Proof. vm_compute. reflexivity. Qed.

Example test_subcommand_required :
  code (parsed (unnamed [P_add_command (Cmd ($"foo") [])]) [$"test"]) = Some RC_FAILURE.
Proof. vm_compute. reflexivity. Qed.

Example test_multi_command :
  subs (parsed (unnamed [multi; P_add_command (Cmd ($"foo") []); P_add_command (Cmd ($"bar") [])])
          [$"test"; $"foo"; $"bar"; $"foo"]) = Some 3.
Proof. vm_compute. reflexivity. Qed.

Example test_multi_level_multi_command :
  let p := unnamed [multi; P_add_command (Cmd ($"foo") [PartCmd (Cmd ($"zap") [])]);
                    P_add_command (Cmd ($"bar") [])] in
  subs (parsed p [$"test"; $"foo"; $"zap"; $"bar"]) = Some 2
  /\ code (parsed p [$"test"; $"foo"]) = Some RC_FAILURE.
Proof. vm_compute. repeat split. Qed.

Example test_error_refers_to_command :
  let p := unnamed [P_add_command (Cmd ($"foo") [PartArg (Arg ($"ARG") [])])] in
  code (parsed p [$"test"; $"foo"]) = Some RC_FAILURE
  /\ flat_map error_for (events p [$"test"; $"foo"]) = [$"test foo"].
Proof. vm_compute. repeat split. Qed.

Example test_copy_from :
  let command := Cmd [] [PartArg (Arg ($"FILE") []); PartOpt (Opt [$"-c"; $"--compress"] [O_argument ($"ALGO")])] in
  let r args := parsed (unnamed [P_add_command (Cmd ($"add") [PartCopy command]);
                                 P_add_command (Cmd ($"update") [PartCopy command])]) ($"test" :: args) in
  let s args := (code (r args), subs (r args), name_of (sub 0 (r args)), has (sub 0 (r args)) ($"FILE"),
                 text_of (sub 0 (r args)) ($"FILE"), has (sub 0 (r args)) ($"-c"), text_of (sub 0 (r args)) ($"-c")) in
  s [$"add"; $"file.txt"; $"--compress"; $"gzip"]
  = (Some RC_SUCCESS, Some 1, Some ($"add"), Val true, Val (Some ($"file.txt")), Val true, Val (Some ($"gzip")))
  /\ s [$"update"; $"file1.txt"; $"--compress"; $"lzh"]
  = (Some RC_SUCCESS, Some 1, Some ($"update"), Val true, Val (Some ($"file1.txt")), Val true, Val (Some ($"lzh"))).
Proof. vm_compute. repeat split. Qed.

Example test_unnamed_commands :
  results ($"UNINITIALIZED") [P_add_command (Cmd [] [])] = [R_call (Raised ENoName)]
  /\ fst (fst (add_command_to (Cmd [] []) (Cmd ($"a") []))) = Raised ENoName.
Proof. vm_compute. repeat split. Qed.

Example test_final_argument_and_multi_commands :
  let common := Cmd [] [PartArg (Arg ($"NAME") [A_counts 0 1000]); PartOpt (Opt [$"--"] [O_type OT_LAST_ARGUMENT])] in
  let r := parsed (unnamed [multi; P_add_command (Cmd ($"foo") [PartCopy common]);
                            P_add_command (Cmd ($"bar") [PartCopy common; PartOpt (Opt [$"--baz"] [O_argument ($"S")])])])
             [$"test"; $"foo"; $"name1"; $"--"; $"bar"; $"name2"; $"--baz=qux"] in
  code r = Some RC_SUCCESS /\ subs r = Some 2 /\ name_of (sub 0 r) = Some ($"foo")
  /\ texts_of (sub 0 r) ($"NAME") = Val [$"name1"] /\ name_of (sub 1 r) = Some ($"bar")
  /\ texts_of (sub 1 r) ($"NAME") = Val [$"name2"] /\ text_of (sub 1 r) ($"--baz") = Val (Some ($"qux")).
Proof. vm_compute. repeat split. Qed.

Example test_no_mix_of_arguments_and_commands :
  fst (fst (add_command_to (Cmd ($"foo") []) (Cmd [] [PartArg (Arg ($"arg") [])]))) = Raised EArgumentsAndCommands
  /\ fst (fst (add_argument_to (Arg ($"arg") []) (Cmd [] [PartCmd (Cmd ($"foo") [])]))) = Raised EArgumentsAndCommands.
Proof. vm_compute. repeat split. Qed.

Example test_optional_arguments_and_multi_commands :
  let r args := parsed (unnamed [multi;
      P_add_command (Cmd ($"foo") [PartArg (Arg ($"ARG") [A_optional true]); PartArg (Arg ($"BLARG") []);
                                   PartOpt (Opt [$"--"] [O_type OT_LAST_OPTION])]);
      P_add_command (Cmd ($"bar") [])]) ($"test" :: args) in
  let s args := (code (r args), subs (r args), name_of (sub 0 (r args)), text_of (sub 0 (r args)) ($"ARG"),
                 text_of (sub 0 (r args)) ($"BLARG"), name_of (sub 1 (r args))) in
  s [$"foo"; $"bar"] = (Some RC_SUCCESS, Some 1, Some ($"foo"), Val None, Val (Some ($"bar")), None)
  /\ s [$"foo"; $"blarg"; $"bar"]
     = (Some RC_SUCCESS, Some 2, Some ($"foo"), Val None, Val (Some ($"blarg")), Some ($"bar"))
  /\ s [$"foo"; $"arg"; $"blarg"; $"bar"]
     = (Some RC_SUCCESS, Some 2, Some ($"foo"), Val (Some ($"arg")), Val (Some ($"blarg")), Some ($"bar"))
  /\ s [$"foo"; $"--"; $"-blarg"; $"bar"]
     = (Some RC_SUCCESS, Some 2, Some ($"foo"), Val None, Val (Some ($"-blarg")), Some ($"bar"))
  /\ s [$"foo"; $"arg"; $"--"; $"-blarg"; $"bar"]
     = (Some RC_SUCCESS, Some 2, Some ($"foo"), Val (Some ($"arg")), Val (Some ($"-blarg")), Some ($"bar")).
Proof. vm_compute. repeat split. Qed.

Example test_multi_commands_with_count :
  let r := parsed (unnamed [multi; P_add_command (Cmd ($"foo") [PartArg (Arg ($"ARG") [A_counts 1 2])]);
                            P_add_command (Cmd ($"bar") [PartArg (Arg ($"ARG") [])])])
             [$"test"; $"foo"; $"A"; $"bar"; $"B"] in
  code r = Some RC_SUCCESS /\ subs r = Some 2.
Proof. vm_compute. repeat split. Qed.

(** ** test_Callbacks.cpp *)

(** A callback that assigns values, and one that adds arguments. *)
Definition assigns (l : list (str * str)) : option callback :=
  Some (fun _ _ _ => mk_eff [] (map (fun x => VAssign (ByName (fst x)) (snd x)) l) false []).
Definition adds (l : list str) : option callback := Some (fun _ _ _ => mk_eff [] [] false l).

Example test_option_callback :
  let r := parsed (unnamed [P_add_option (Opt [$"-b"] []); P_add_option (Opt [$"-c"] []);
                     P_add_option (Opt [$"-a"] [O_callback (assigns [($"-b", $"true"); ($"-c", $"true")])])])
             [$"test"; $"-a"] in
  code r = Some RC_SUCCESS
  /\ map (bool_of r) [$"-a"; $"-b"; $"-c"] = [Some true; Some true; Some true].
Proof. vm_compute. repeat split. Qed.

Example test_argument_callback :
  let r := parsed (unnamed [P_add_option (Opt [$"-b"] []);
                     P_add_argument (Arg ($"arg") [A_callback (assigns [($"-b", $"false")])])])
             [$"test"; $"-b"; $"abcd"] in
  code r = Some RC_SUCCESS /\ bool_of r ($"-b") = Some false /\ text_of r ($"arg") = Val (Some ($"abcd")).
Proof. vm_compute. repeat split. Qed.

(** The items that the parser-wide callbacks are called for. *)
Definition called (p : option parser_data) (argv : list str) : list (option str) :=
  match parsed p argv with
  | None => []
  | Some l =>
      flat_map (fun e =>
        let name aid := match get_argument_view (l_command l) aid with
                        | Some (ArgumentView a) => Some (a_name a)
                        | Some (OptionView o) => Some (hd [] (o_flags o))
                        | None => None
                        end in
        match e with
        | EvOptionCallback true aid _ => [name aid]
        | EvArgumentCallback true aid _ => [name aid]
        | _ => []
        end) (events p argv)
  end.
Definition nothing : option callback := adds [].

Example test_callback_for_all_options :
  called (unnamed [P_add_option (Opt [$"-b"] []); P_add_option (Opt [$"-c"] []);
                   P_setting (S_option_callback (option_map (fun f _ => f) nothing))]) [$"test"; $"-b"; $"-c"] = [Some ($"-b"); Some ($"-c")].
Proof. vm_compute. reflexivity. Qed.

Example test_callback_for_all_arguments :
  called (unnamed [P_add_argument (Arg ($"FILE") []); P_add_argument (Arg ($"URL") []);
                   P_setting (S_argument_callback (option_map (fun f _ => f) nothing))]) [$"test"; $"bbb"; $"ccc"]
  = [Some ($"FILE"); Some ($"URL")].
Proof. vm_compute. reflexivity. Qed.

Example test_option_callback_adding_arguments :
  let r := parsed (unnamed [P_add_option (Opt [$"-b"] []); P_add_option (Opt [$"-B"] [O_alias ($"-b"); O_constant ($"0")]);
                     P_add_option (Opt [$"-c"] []); P_add_option (Opt [$"-C"] [O_alias ($"-c"); O_constant ($"0")]);
                     P_add_option (Opt [$"-d"] []); P_add_option (Opt [$"-D"] [O_alias ($"-d"); O_constant ($"0")]);
                     P_add_option (Opt [$"-a"] [O_callback (adds [$"-bcd"])])]) [$"test"; $"-aC"] in
  code r = Some RC_SUCCESS
  /\ map (bool_of r) [$"-a"; $"-b"; $"-c"; $"-d"] = [Some true; Some true; Some false; Some true].
Proof. vm_compute. repeat split. Qed.
