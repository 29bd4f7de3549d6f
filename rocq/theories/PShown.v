(** C93: what is only meant for parsing has no influence on help and error texts. *)
From Verif Require Import Base MStrings MOptIter MData MCounter MValues MParser MText MHelp MApi SShown SExamples ShownProofs.
Open Scope nat_scope.

(** Aliases, callbacks, operations, constants and initial values. *)
Theorem C93_items :
  (forall c a, for_parsing_argument c = true ->
    fst (call_argument c (Some a)) = Done tt /\
    option_map shown_argument (snd (call_argument c (Some a))) = Some (shown_argument a)) /\
  (forall c o, for_parsing_option c = true ->
    fst (call_option c (Some o)) = Done tt /\
    option_map shown_option (snd (call_option c (Some o))) = Some (shown_option o)).
Proof.
  split; [intros [] a H|intros [] [] H]; try discriminate; split; reflexivity.
Qed.
Print Assumptions C93_items.

(** write_help_text() writes the same for definitions that differ in such things, if both are
    accepted. *)
Theorem C93_help : forall console p q p' q' path, look_alike p q ->
  finish_parser (make_copy p) = Val p' -> finish_parser (make_copy q) = Val q' ->
  write_subcommand_help_text console (Some p) path = write_subcommand_help_text console (Some q) path.
Proof. exact subcommand_help_shown. Qed.
Print Assumptions C93_help.

(** The help and the error messages during parsing are the same for every command. *)
Theorem C93_texts : forall p q p' q' path c, look_alike p q ->
  finish_parser p = Val p' -> finish_parser q = Val q' ->
  find_path (s_case_insensitive (d_settings p')) (d_command p') path = Val c ->
  exists d, find_path (s_case_insensitive (d_settings q')) (d_command q') path = Val d /\
    (forall console, write_help_text console p' c = write_help_text console q' d) /\
    (forall console msg, write_error_message console p' c msg = write_error_message console q' d msg).
Proof.
  intros p q p' q' path c A Hp Hq F. pose proof (finish_parser_shown p q p' q' A Hp Hq) as A'.
  assert (Ci : s_case_insensitive (d_settings p') = s_case_insensitive (d_settings q')) by (apply (f_equal (fun d => s_case_insensitive (d_settings d))) in A'; exact A').
  assert (Ac : sc (d_command p') = sc (d_command q')) by (apply (f_equal d_command) in A'; exact A').
  rewrite Ci in F. pose proof (path_shown (s_case_insensitive (d_settings q')) path _ _ Ac) as P. rewrite F in P.
  destruct (find_path _ (d_command q') path) as [d|]; [|contradiction]. exists d. split; [reflexivity|]. split.
  - intros console. exact (help_alike console p' q' c d A' P).
  - intros console msg. exact (error_alike console p' q' c d msg A' P).
Qed.
Print Assumptions C93_texts.

(** Any number of calls of a parser for such settings: the help text stays the same. *)
Theorem C93_calls : forall fuel cs p p' console path, forallb for_parsing cs = true ->
  finish_parser (make_copy p) = Val p' ->
  exists q, snd (call_parsers fuel cs (Some p)) = Some q /\ look_alike p q /\
    (forall q', finish_parser (make_copy q) = Val q' ->
      fst (call_parser fuel (P_help console path) (Some q)) = fst (call_parser fuel (P_help console path) (Some p))).
Proof.
  intros fuel cs p p' console path H Hp.
  assert (G : forall p, exists q, snd (call_parsers fuel cs (Some p)) = Some q /\ look_alike p q).
  { clear - H. induction cs as [|c cs IH]; intros p; [exists p; split; reflexivity|]. cbn [forallb] in H. apply andb_prop in H. destruct H as (Hc & Hs).
    destruct (call_for_parsing fuel c p Hc) as (p1 & E & A). cbn [call_parsers]. rewrite E. destruct (IH Hs p1) as (q & Eq & Aq).
    destruct (call_parsers fuel cs (Some p1)) as (xs & p2). cbn [snd] in *. exists q. split; [exact Eq|]. unfold look_alike in *. congruence. }
  destruct (G p) as (q & Eq & A). exists q. split; [exact Eq|]. split; [exact A|]. intros q' Hq. cbn [call_parser fst].
  rewrite (subcommand_help_shown console p q p' q' path A Hp Hq). reflexivity.
Qed.
Print Assumptions C93_calls.

(** A definition, and the same with callbacks, an initial value and another operation. *)
Definition ex_look : parser_data :=
  mk_data (mk_cmd [new_argument ($"FILE")]
    [opt_update (O_help ($"The level.")) (opt_update (O_argument ($"LEVEL")) (new_option [$"-l"]))]
    [] [] ($"tool") [] [(TX_ABOUT, $"Copies files")] vis_normal None false [] 0 [])
    default_settings ($"1.0") 60 [].
Definition ex_look_more : parser_data :=
  mk_data (mk_cmd [arg_update (A_alias ($"other")) (new_argument ($"FILE"))]
    [opt_update (O_operation OP_APPEND) (opt_update (O_initial_value ($"3"))
      (opt_update (O_callback (Some (fun _ _ _ => mk_eff [$"x"] [] false [])))
        (opt_update (O_help ($"The level.")) (opt_update (O_argument ($"LEVEL")) (new_option [$"-l"])))))]
    [] [] ($"tool") [] [(TX_ABOUT, $"Copies files")] vis_normal None true [] 0 [])
    (update_settings (S_auto_exit false) default_settings) ($"2.0") 60 [].

Example ex_look_alike : look_alike ex_look ex_look_more /\
  (exists p', finish_parser (make_copy ex_look) = Val p') /\ (exists q', finish_parser (make_copy ex_look_more) = Val q') /\
  (exists p', finish_parser ex_look = Val p' /\ find_path false (d_command p') [] = Val (d_command p')) /\
  (exists q', finish_parser ex_look_more = Val q').
Proof. split; [reflexivity|]. repeat split; eexists; repeat split; vm_compute; reflexivity. Qed.

Example ex_look_help : exists out, write_subcommand_help_text 80 (Some ex_look) [] = HText out /\
  write_subcommand_help_text 80 (Some ex_look_more) [] = HText out /\ 100 < length out.
Proof. eexists. split; [vm_compute; reflexivity|]. split; [vm_compute; reflexivity|]. vm_compute. repeat constructor. Qed.

Example ex_look_calls : forallb for_parsing
  [P_setting (S_auto_exit false); P_setting (S_abbreviations true); P_command (C_multi true); P_setting (S_exit_codes 1 2)] = true.
Proof. reflexivity. Qed.

(** The operation of an option is not shown, but it can make the definition invalid. *)
Theorem C93_accepted_refuted : exists p q, look_alike p q /\
  (exists p', finish_parser (make_copy p) = Val p') /\ (exists e, finish_parser (make_copy q) = Exn e) /\
  write_subcommand_help_text 80 (Some p) [] <> write_subcommand_help_text 80 (Some q) [].
Proof.
  pose (d op := mk_data (mk_cmd [] [opt_update (O_operation op) (new_option [$"-a"])] [] [] ($"tool") [] [] vis_normal None false [] 0 []) default_settings [] 0 []).
  exists (d OP_ASSIGN), (d OP_APPEND). split; [reflexivity|]. split; [eexists; vm_compute; reflexivity|]. split; [eexists; vm_compute; reflexivity|]. vm_compute. discriminate.
Qed.
Print Assumptions C93_accepted_refuted.
