(** The properties C41 and C58-C64: how parsers, items and iterators may be used. *)
From Verif Require Import Base BaseProofs MStrings MOptIter MData MCounter MValues MParser MText MHelp MApi
  SStrings SIndex SDef SValues SCounter SParser SStep SHelp SApi SExamples ExProofs ApiErase ApiProofs ApiExamples ItemProofs ItemProofs2 OverloadProofs.
Open Scope nat_scope.

(* ------------------------------------------------------------------------ *)
(** ** C41 *)

(** A const parse ends as a parse that uses up the parser, except for the visibility of
    the commands in the result, if no version has been set. *)
Theorem C41_same : forall fuel d args, d_version d = [] ->
  parse_vector_const fuel (Some d) args = visible_end (fst (parse_vector fuel (Some d) args)).
Proof. exact const_parse. Qed.
Print Assumptions C41_same.

(** With a version a const parse does not know "--version". *)
Theorem C41_version_refuted : exists d args st st',
  fst (parse_vector 100 (Some d) args) = PReturn st /\ l_result (toplevel st) = RC_STOP /\
  parse_vector_const 100 (Some d) args = PReturn st' /\ l_result (toplevel st') = RC_FAILURE.
Proof. exact ex_version. Qed.
Print Assumptions C41_version_refuted.

(** Calls of const members change nothing: in any sequence of calls, leaving them out
    changes neither the results of the other calls nor the parser at the end. *)
Theorem C41_program : forall fuel cs p rs p' cs' rs', call_parsers fuel cs p = (rs, p') ->
  without (fun c _ => looks_only c) cs rs = (cs', rs') -> call_parsers fuel cs' p = (rs', p').
Proof. exact C41_program_proof. Qed.
Print Assumptions C41_program.

(** A call gives the same result after any number of calls of const members. *)
Theorem C41_again : forall fuel cs c p, Forall (fun x => looks_only x = true) cs ->
  fst (call_parser fuel c (snd (call_parsers fuel cs p))) = fst (call_parser fuel c p).
Proof. exact C41_again_proof. Qed.
Print Assumptions C41_again.

Example C41_example :
  d_version ex_parser = [] /\
  (exists st, parse_vector_const 100 (Some ex_parser) [$"-o"; $"x"; $"a"] = PReturn st /\ l_result (toplevel st) = RC_SUCCESS) /\
  (let cs := [P_parse_const [$"a"]; P_command (C_about ($"text")); P_parse_const [$"b"]; P_parse [$"-ox"; $"c"]] in
   map looks_only cs = [true; false; true; false] /\
   fst (without (fun c _ => looks_only c) cs (fst (call_parsers 100 cs (Some ex_parser)))) =
     [P_command (C_about ($"text")); P_parse [$"-ox"; $"c"]]).
Proof. split; [reflexivity|]. split; [eexists; split; vm_compute; reflexivity|]. vm_compute. split; reflexivity. Qed.

(* ------------------------------------------------------------------------ *)
(** ** C58 *)

(** After a call of parse or make_iterator on a non-const parser, whatever its outcome,
    every call is refused with an exception (parse(argc, argv) with argc > 0 apart). *)
Theorem C58_used_up : forall fuel before c after p, uses_up c = true ->
  (forall a l, ~ In (P_parse_argv (a :: l)) after) ->
  let (rs, p') := call_parsers fuel (before ++ c :: after) p in
  p' = None /\ Forall refused (skipn (S (length before)) rs).
Proof. exact C58_proof. Qed.
Print Assumptions C58_used_up.

(** parse(argc, argv) then dereferences a null pointer. *)
Theorem C58_argv_refuted : exists fuel p, call_parsers fuel [P_parse []; P_parse_argv [$"prog"]] p =
  ([R_parse (fst (parse_vector fuel p [])); R_parse PUndefined], None).
Proof. exists 100, (Some ex_parser). vm_compute. reflexivity. Qed.
Print Assumptions C58_argv_refuted.

(** Arguments, options and commands that have been added are used up, also if the
    addition was refused; calling them, except by copy_from, throws an exception. *)
Theorem C58_added : forall A checked add (x : option A) c, snd (fst (add_to checked add x (Some c))) = None.
Proof. exact C58_added_proof. Qed.
Print Assumptions C58_added.
Theorem C58_items : forall (ca : arg_call) (co : opt_call) (cc : cmd_call),
  (exists e, call_argument ca None = (Raised e, None)) /\ call_option co None = (Raised EMovedItem, None) /\
  call_command cc None = (Raised EMovedItem, None) /\
  (forall A (x : option A), snd (release x) = None /\ (x = None -> fst (release x) = Raised EMovedItem)).
Proof. exact C58_items_proof. Qed.
Print Assumptions C58_items.

(** Command::copy_from dereferences a null pointer if the source is used up. *)
Theorem C58_copy_from_refuted : exists c, command_copy_from None (Some c) = (Crash, Some c).
Proof. exists (new_command ($"a")). reflexivity. Qed.
Print Assumptions C58_copy_from_refuted.

Example C58_example : let cs := [P_parse [$"-ox"; $"a"]; P_parse_const []; P_version ($"1"); P_help 80 []; P_iterator_argv []] in
  uses_up (P_parse [$"-ox"; $"a"]) = true /\
  map (fun r => match r with R_call (Raised e) | R_parse (PThrow e) | R_iterator (Raised e) | R_help (HRaised e) => Some e | _ => None end)
    (fst (call_parsers 100 cs (Some ex_parser))) =
  [None; Some EMovedParser; Some EMovedParser; Some EMovedParser; Some ENoArgv].
Proof. vm_compute. split; reflexivity. Qed.

(* ------------------------------------------------------------------------ *)
(** ** C59 *)

(** Calls that throw leave the definition as it was: without them the other calls have the
    same results and lead to the same definition. *)
Theorem C59_refused_changes : forall fuel cs p rs p' cs' rs', (forall s, ~ In (P_copy_from s) cs) ->
  call_parsers fuel cs p = (rs, p') -> without (fun _ r => raised r) cs rs = (cs', rs') ->
  call_parsers fuel cs' p = (rs', p').
Proof. exact C59_proof. Qed.
Print Assumptions C59_refused_changes.

(** copy_from copies arguments, options and commands before it throws because of a text
    that both have. *)
Theorem C59_copy_from_refuted : exists fuel s d d' e,
  call_parser fuel (P_copy_from (Some s)) (Some d) = (R_call (Raised e), Some d') /\
  c_options (d_command d') <> c_options (d_command d).
Proof. exact ex_copy_from. Qed.
Print Assumptions C59_copy_from_refuted.

Example C59_example :
  let cs := [P_add_option (Some (new_option [$"-a"])); P_add_option (Some (new_option []));
             P_add_command (Some (new_command ($"c"))); P_add_argument (Some (new_argument ($"X")));
             P_style SLASH; P_version ($"1")] in
  map raised (fst (call_parsers 100 cs (Some (new_parser ($"prog") false)))) = [false; true; false; true; true; false].
Proof. vm_compute. reflexivity. Qed.

(* ------------------------------------------------------------------------ *)
(** ** C60 *)

(** Once a parser has options, no calls change its option style (or remove options). *)
Theorem C60_style : forall fuel cs d rs d', call_parsers fuel cs (Some d) = (rs, Some d') ->
  c_options (d_command d) <> [] ->
  s_style (d_settings d') = s_style (d_settings d) /\ exists l, c_options (d_command d') = c_options (d_command d) ++ l.
Proof. exact C60_proof. Qed.
Print Assumptions C60_style.
Theorem C60_throws : forall fuel d s, c_options (d_command d) <> [] -> s <> s_style (d_settings d) ->
  call_parser fuel (P_style s) (Some d) = (R_call (Raised EStyleChange), Some d).
Proof. exact C60_style_proof. Qed.
Print Assumptions C60_throws.

(** Options of sub-commands are not considered. *)
Theorem C60_subcommands_refuted : exists fuel d s c d', In c (c_commands (d_command d)) /\ c_options c <> [] /\
  call_parser fuel (P_style s) (Some d) = (R_call (Done tt), Some d') /\ s_style (d_settings d') <> s_style (d_settings d).
Proof. exact ex_style. Qed.
Print Assumptions C60_subcommands_refuted.

Example C60_example :
  (exists rs d, call_parsers 100 [P_style SLASH; P_add_option (Some (new_option [$"/a"]))] (Some (new_parser ($"prog") false)) = (rs, Some d) /\
     c_options (d_command d) <> [] /\ s_style (d_settings d) = SLASH).
Proof. do 2 eexists. split; [vm_compute; reflexivity|]. split; [discriminate|reflexivity]. Qed.

(* ------------------------------------------------------------------------ *)
(** ** C61 *)

(** Whatever calls are made, an argument has a minimal count that is at most its maximal
    count, which is at least 1; and so have all arguments of a parser, before and after
    it has been completed for parsing. *)
Theorem C61_argument : forall a, made_argument a -> (a_min a <= a_max a /\ 1 <= a_max a)%N.
Proof. exact C61_argument_proof. Qed.
Print Assumptions C61_argument.
Theorem C61_parser : forall d, made_parser d -> counts_ok (d_command d).
Proof. exact C61_counts_proof. Qed.
Print Assumptions C61_parser.
Theorem C61_finished : forall d q c, made_parser d -> finish_parser d = Val q -> within (d_command q) c ->
  proper (c_arguments c).
Proof. exact C61_proof. Qed.
Print Assumptions C61_finished.

Example C61_example :
  (exists a, made_argument a /\ a_min a = 0%N /\ a_max a = 3%N) /\
  (exists d, made_parser d /\ map c_name (c_commands (d_command d)) = [$"add"] /\
     map a_max (flat_map c_arguments (c_commands (d_command d))) = [3%N]).
Proof. split; [exact ex_made_argument|exact ex_made_parser]. Qed.

(* ------------------------------------------------------------------------ *)
(** ** C62 *)

(** parse(argc, argv): a parser without a name is named after the program file, the part
    of argv[0] behind the last slash or backslash; otherwise argv[0] is not used. *)
Theorem C62_name : forall fuel d argv0 b args, c_name (d_command d) = $"UNINITIALIZED" -> argv0 <> [] -> file_part argv0 b ->
  call_parsers fuel [P_parse_argv (argv0 :: args)] (Some d) =
  (tl (fst (call_parsers fuel [P_command (C_name b); P_parse args] (Some d))), None).
Proof. exact C62_name_proof. Qed.
Print Assumptions C62_name.
Theorem C62_ignored : forall fuel d argv0 args, c_name (d_command d) <> $"UNINITIALIZED" \/ argv0 = [] ->
  call_parser fuel (P_parse_argv (argv0 :: args)) (Some d) = call_parser fuel (P_parse args) (Some d).
Proof. exact C62_ignored_proof. Qed.
Print Assumptions C62_ignored.

(** A const parser keeps the name "UNINITIALIZED". *)
Theorem C62_const : forall fuel p argv0 args,
  call_parser fuel (P_parse_argv_const (argv0 :: args)) p = call_parser fuel (P_parse_const args) p.
Proof. reflexivity. Qed.
Print Assumptions C62_const.

(** Without argv[0] there are no arguments. make_iterator(argc, argv) does not use argv[0],
    and refuses to go without it. *)
Theorem C62_overloads : forall fuel p argv0 args,
  call_parser fuel (P_parse_argv []) p = call_parser fuel (P_parse []) p /\
  call_parser fuel (P_parse_argv_const []) p = call_parser fuel (P_parse_const []) p /\
  call_parser fuel (P_iterator_argv (argv0 :: args)) p = call_parser fuel (P_iterator args) p /\
  call_parser fuel (P_iterator_argv_const (argv0 :: args)) p = call_parser fuel (P_iterator_const args) p /\
  call_parser fuel (P_iterator_argv []) p = (R_iterator (Raised ENoArgv), p) /\
  call_parser fuel (P_iterator_argv_const []) p = (R_iterator (Raised ENoArgv), p).
Proof. exact C62_overloads_proof. Qed.
Print Assumptions C62_overloads.

Example C62_example :
  file_part ($"/usr/bin/tool") ($"tool") /\
  (exists st, fst (parse_argv 100 (Some (new_parser DEFAULT_NAME false)) [$"/usr/bin/tool"]) = PReturn st /\
     c_full_name (ps_command st) = $"tool") /\
  (exists st, parse_argv_const 100 (Some (new_parser DEFAULT_NAME false)) [$"/usr/bin/tool"] = PReturn st /\
     c_full_name (ps_command st) = $"UNINITIALIZED").
Proof.
  split.
  - split; [intros c Hc; cbv in Hc; repeat (destruct Hc as [<-|Hc]; [intros [X|X]; discriminate|]); destruct Hc|].
    right. exists ($"/usr/bin"), "/"%char. split; [left; reflexivity|reflexivity].
  - split; eexists; split; vm_compute; reflexivity.
Qed.

(* ------------------------------------------------------------------------ *)
(** ** C63 *)

(** Calling next() until it returns false leads to the same results as parse(). *)
Theorem C63_same : forall fuel d args st, parse_arguments fuel d args = PReturn st <->
  exists cfg st0 l, make_argument_iterator d args = Done (cfg, st0) /\ iterate cfg fuel st0 = Ret l st.
Proof. exact C63_proof. Qed.
Print Assumptions C63_same.
Theorem C63_exit : forall fuel d args code st, parse_arguments fuel d args = PExit code st <->
  exists cfg st0, make_argument_iterator d args = Done (cfg, st0) /\ iterate cfg fuel st0 = Exits code st.
Proof. exact C63_exit_proof. Qed.
Print Assumptions C63_exit.

(** Exceptions are those of making the iterator or of next(). *)
Theorem C63_throw : forall fuel d args e, parse_arguments fuel d args = PThrow e <->
  make_argument_iterator d args = Raised e \/
  exists cfg st0 st, make_argument_iterator d args = Done (cfg, st0) /\ iterate cfg fuel st0 = Throws e st.
Proof. exact C63_throw_proof. Qed.
Print Assumptions C63_throw.

(** The items come in the order of the calls: one for each, until the first call that
    returns false. *)
Theorem C63_in_order : forall cfg fuel st l st', iterate cfg fuel st = Ret l st' ->
  exists r, steps cfg st (l ++ [r]) st' /\ api_next_result r = false /\
    (forall x, In x l -> api_next_result x = true).
Proof. exact iterate_steps. Qed.
Print Assumptions C63_in_order.

(** But the iterator only gives access to the results of the current command: those of
    "add" here, whereas parse() returns those of "tool". *)
Theorem C63_parsed_arguments_refuted : exists d args cfg st0 l st,
  make_argument_iterator d args = Done (cfg, st0) /\ iterate cfg 100 st0 = Ret l st /\
  c_name (l_command (ps_cur st)) = $"add" /\ c_name (l_command (toplevel st)) = $"tool".
Proof. exact ex_iterator. Qed.
Print Assumptions C63_parsed_arguments_refuted.

Example C63_example : exists cfg st0 l st,
  make_argument_iterator ex_parser [$"-v"; $"-ox"; $"a"] = Done (cfg, st0) /\ iterate cfg 100 st0 = Ret l st /\
  map ir_code l = [IC_OPTION; IC_OPTION; IC_ARGUMENT] /\ map ir_value l = [[]; $"x"; $"a"].
Proof. do 4 eexists. split; [vm_compute; reflexivity|]. split; [vm_compute; reflexivity|]. split; reflexivity. Qed.

(* ------------------------------------------------------------------------ *)
(** ** C64 *)

(** If there are no sub-commands and callbacks do not change values, the values that have
    been stored are those that the initial values and the items reported by next() say,
    at every time until an error is reported. *)
Theorem C64_items : forall p q args st0 rs st id,
  let cfg := d_settings q in let top := d_command q in
  finish_parser p = Val q -> no_interference cfg top -> c_commands top = [] ->
  start_counter cfg (initial_state cfg top args) = Ret tt st0 -> steps cfg st0 rs st ->
  (forall r, In r rs -> ir_code r <> IC_ERROR) ->
  get_values (l_values (toplevel st)) id =
  history (given_changes initial_change (c_options top) ++ given_changes item_change rs) id.
Proof. exact (fun p q args st0 rs st id H Hn Hc => C64_proof p q H args Hn Hc st0 rs st id). Qed.
Print Assumptions C64_items.

Example C64_example : let q := completed ex_parser in
  finish_parser ex_parser = Val q /\ no_interference (d_settings q) (d_command q) /\ c_commands (d_command q) = [] /\
  exists st0 rs st, start_counter (d_settings q) (initial_state (d_settings q) (d_command q) [$"-v"; $"-ox"; $"a"; $"--out=y"]) = Ret tt st0 /\
    steps (d_settings q) st0 rs st /\ (forall r, In r rs -> ir_code r <> IC_ERROR) /\
    map (fun c => match c with Assigned _ t _ => (0, t) | Appended _ t _ => (1, t) | Cleared _ => (2, []) end) (given_changes item_change rs) =
    [(1, $"1"); (0, $"x"); (1, $"a"); (0, $"y")].
Proof. exact ex_items. Qed.

(** With sub-commands the items account for all values of all commands that have been
    given, and for which commands those are; and the iterator gives access to those of the
    command that was started last. *)
Theorem C64_all : forall p q args st0 rs st,
  let cfg := d_settings q in let top := d_command q in
  finish_parser p = Val q -> no_interference cfg top ->
  start_counter cfg (initial_state cfg top args) = Ret tt st0 -> steps cfg st0 rs st ->
  (forall r, In r rs -> ir_code r <> IC_ERROR) ->
  let (cur, above) := booked (Acc top (given_changes initial_change (c_options top)) [], []) rs in
  agrees (total cur above) (toplevel st) /\ agrees cur (ps_cur st).
Proof. exact (fun p q args st0 rs st H Hn => C64_all_proof p q H args Hn st0 rs st). Qed.
Print Assumptions C64_all.

Example C64_all_example : let q := completed (ex_data false false ex_tool) in
  let args := [$"-C"; $"d"; $"add"; $"x"; $"-m"; $"t"; $"remote"; $"-q"; $"list"; $"add"; $"y"] in
  finish_parser (ex_data false false ex_tool) = Val q /\ no_interference (d_settings q) (d_command q) /\
  exists st0 rs st, start_counter (d_settings q) (initial_state (d_settings q) (d_command q) args) = Ret tt st0 /\
    steps (d_settings q) st0 rs st /\ (forall r, In r rs -> ir_code r <> IC_ERROR) /\ length rs = 9 /\
    let (cur, above) := booked (Acc (d_command q) [] [], []) rs in
    shortened (total cur above) =
    Short ($"tool") [$"d"] [Short ($"add") [$"x"; $"t"] []; Short ($"remote") [$"1"] [Short ($"list") [] []]; Short ($"add") [$"y"] []] /\
    shortened cur = Short ($"add") [$"y"] [].
Proof. exact ex_items_all. Qed.
