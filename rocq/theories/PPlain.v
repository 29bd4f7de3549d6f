(** C92: what is only meant for the help text has no influence on parsing. *)
From Verif Require Import Base MStrings MOptIter MData MCounter MValues MParser MText MHelp MApi SPlain SExamples PlainProofs.
Open Scope nat_scope.

(** The setters of arguments, options and commands for the help text change nothing else. *)
Theorem C92_items :
  (forall c a, for_help_argument c = true ->
    fst (call_argument c (Some a)) = Done tt /\
    option_map plain_argument (snd (call_argument c (Some a))) = Some (plain_argument a)) /\
  (forall c o, for_help_option c = true ->
    fst (call_option c (Some o)) = Done tt /\
    option_map plain_option (snd (call_option c (Some o))) = Some (plain_option o)) /\
  (forall c d, for_help_command c = true ->
    fst (call_command c (Some d)) = Done tt /\
    option_map plain_command (snd (call_command c (Some d))) = Some (plain_command d)).
Proof.
  split; [|split].
  - intros [] a H; try discriminate; split; reflexivity.
  - intros [] [] H; try discriminate; split; reflexivity.
  - intros c d H. split; [reflexivity|]. cbn [call_command snd option_map]. f_equal. apply update_for_help, H.
Qed.
Print Assumptions C92_items.

(** Definitions that differ in such texts are accepted or refused alike, and completed in the
    same way. *)
Theorem C92_definitions : forall p q, alike p q ->
  (forall p', finish_parser p = Val p' -> exists q', finish_parser q = Val q' /\ alike p' q') /\
  (forall e, finish_parser p = Exn e -> finish_parser q = Exn e).
Proof.
  intros p q A. pose proof (finish_parser_plain p q A) as F.
  destruct (finish_parser p) as [p1|e1], (finish_parser q) as [q1|e2]; cbn [map_exc] in F; try discriminate; split; intros x H; try discriminate.
  - injection H as <-. exists q1. split; [reflexivity|]. unfold alike. congruence.
  - injection H as <-. congruence.
Qed.
Print Assumptions C92_definitions.

(** parse() ends in the same way, with the same results, outputs and calls of callbacks. *)
Theorem C92_parse : forall fuel p q args, alike p q -> blind (d_settings p) ->
  same_ends (fst (parse_vector fuel (Some p) args)) (fst (parse_vector fuel (Some q) args)) /\
  same_ends (parse_vector_const fuel (Some p) args) (parse_vector_const fuel (Some q) args).
Proof.
  intros fuel p q args A B. split.
  - exact (answer_parse fuel p q args A B).
  - exact (answer_parse fuel _ _ args (alike_copy p q A) B).
Qed.
Print Assumptions C92_parse.

(** Iterators yield the same items and values, whatever the number of calls. *)
Theorem C92_iterator : forall p q args, alike p q -> blind (d_settings p) ->
  same_answer (R_iterator (fst (make_iterator (Some p) args))) (R_iterator (fst (make_iterator (Some q) args))).
Proof. exact answer_iterator. Qed.
Print Assumptions C92_iterator.

(** Two programs that make the same calls, apart from those for the help text and from the
    texts of the items that they add: all other calls return the same. *)
Theorem C92_programs : forall fuel name base cs ds, same_program cs ds ->
  Forall2 same_answer (answers fuel cs (Some (new_parser name base))) (answers fuel ds (Some (new_parser name base))).
Proof.
  intros fuel name base cs ds H. apply (program_plain fuel cs ds H); [reflexivity|].
  split; intros f E; discriminate.
Qed.
Print Assumptions C92_programs.

(** A program with texts and one without. *)
Definition ex_texts : list parser_call :=
  [ P_command (C_about ($"Copies files")); P_line_width 60; P_setting (S_auto_exit false);
    P_add_option (Some (opt_update (O_help ($"The level.")) (opt_update (O_argument ($"LEVEL")) (new_option [$"-l"]))));
    P_command (C_current_section ($"FILES"));
    P_add_argument (Some (arg_update (A_help ($"A file.")) (arg_update (A_visibility vis_hidden) (new_argument ($"FILE")))));
    P_help 80 []; P_parse_const [$"-l3"; $"a"]; P_parse [$"a"; $"-l"] ].
Definition ex_bare : list parser_call :=
  [ P_setting (S_auto_exit false);
    P_add_option (Some (opt_update (O_argument ($"N")) (new_option [$"-l"])));
    P_add_argument (Some (new_argument ($"FILE")));
    P_parse_const [$"-l3"; $"a"]; P_parse [$"a"; $"-l"] ].

Example ex_same_program : same_program ex_texts ex_bare.
Proof.
  unfold ex_texts, ex_bare. apply same_left; [reflexivity|]. apply same_left; [reflexivity|].
  apply same_both; [apply same_other; [reflexivity|exact I]|]. apply same_both; [apply same_option; reflexivity|].
  apply same_left; [reflexivity|]. apply same_both; [apply same_argument; reflexivity|]. apply same_left; [reflexivity|].
  apply same_both; [apply same_other; [reflexivity|exact I]|]. apply same_both; [apply same_other; [reflexivity|exact I]|]. constructor.
Qed.

(** What both parses return: two values; one value and an error. *)
Definition ex_plain_view (r : parser_result) : option (result_code * nat * list str * nat) :=
  match r with
  | R_parse (PReturn st) => Some (l_result (toplevel st), length (l_values (toplevel st)), l_unprocessed (toplevel st), length (ps_events st))
  | _ => None
  end.
Example ex_same_answers :
  map ex_plain_view (answers 100 ex_texts (Some (new_parser ($"tool") false))) =
    [None; None; None; Some (RC_SUCCESS, 2, [], 0); Some (RC_FAILURE, 1, [], 1)] /\
  map ex_plain_view (answers 100 ex_bare (Some (new_parser ($"tool") false))) =
    [None; None; None; Some (RC_SUCCESS, 2, [], 0); Some (RC_FAILURE, 1, [], 1)].
Proof. vm_compute. split; reflexivity. Qed.

(** The definitions behind them: alike, not equal, and both are completed. *)
Definition ex_defined (cs : list parser_call) : parser_data :=
  match snd (call_parsers 100 (removelast cs) (Some (new_parser ($"tool") false))) with
  | Some d => d
  | None => new_parser [] false
  end.
Example ex_alike : alike (ex_defined ex_texts) (ex_defined ex_bare) /\ d_line_width (ex_defined ex_texts) <> d_line_width (ex_defined ex_bare) /\
  blind (d_settings (ex_defined ex_texts)) /\
  (exists q, finish_parser (ex_defined ex_texts) = Val q) /\
  exists s st, fst (make_iterator (Some (ex_defined ex_texts)) [$"-l3"; $"a"]) = Done (s, st).
Proof.
  split; [vm_compute; reflexivity|]. split; [vm_compute; discriminate|]. split; [split; intros f H; vm_compute in H; discriminate|].
  split; [eexists; vm_compute; reflexivity|]. do 2 eexists. vm_compute. reflexivity.
Qed.

(** A callback of the parser gets the option itself: if it looks at the text, the text
    matters. *)
Theorem C92_looking_refuted : exists p q args, alike p q /\ ~ blind (d_settings p) /\
  ~ same_ends (fst (parse_vector 100 (Some p) args)) (fst (parse_vector 100 (Some q) args)).
Proof.
  pose (c h := [P_setting (S_option_callback (Some (fun o _ _ _ => mk_eff [o_help o] [] false [])));
    P_add_option (Some (opt_update (O_help h) (new_option [$"-a"]))); P_parse []]).
  exists (ex_defined (c ($"x"))), (ex_defined (c ($"y"))), [$"-a"].
  assert (A : alike (ex_defined (c ($"x"))) (ex_defined (c ($"y")))) by reflexivity.
  assert (N : ~ same_ends (fst (parse_vector 100 (Some (ex_defined (c ($"x")))) [$"-a"])) (fst (parse_vector 100 (Some (ex_defined (c ($"y")))) [$"-a"]))).
  { vm_compute. intros (_ & H). discriminate. }
  split; [exact A|]. split; [|exact N]. intros B. exact (N (proj1 (C92_parse 100 _ _ [$"-a"] A B))).
Qed.
Print Assumptions C92_looking_refuted.

(** copy_from() throws if both commands have a text of the same kind. *)
Theorem C92_copy_from_refuted : exists p src src', plain_command src = plain_command src' /\
  fst (call_parser 1 (P_copy_from (Some src)) (Some p)) = R_call (Raised EDuplicateText) /\
  fst (call_parser 1 (P_copy_from (Some src')) (Some p)) = R_call (Done tt).
Proof.
  exists (ex_defined [P_command (C_about ($"Copies files")); P_parse []]), (cmd_update (C_about ($"Common")) (new_command [])), (new_command []).
  vm_compute. repeat split.
Qed.
Print Assumptions C92_copy_from_refuted.
