(** What parse() writes, and where: C70. The specification is in SOutput.v. *)
From Verif Require Import Base MStrings MOptIter MData MCounter MValues MParser MText MHelp MApi MOutput
  SStrings SDef SText SFormat SHelp SParser SOutput SExamples ExProofs OutputProofs HelpExamples OutputExamples.
Open Scope nat_scope.

(** C70. If parse() returns successfully nothing has been written except by callbacks. *)
Theorem C70_success : forall console custom d q fuel args st, finish_parser d = Val q ->
  counts_ok (d_command d) -> writable console q ->
  run_parser (d_settings q) fuel (d_command q) args = Ret tt st -> l_result (ps_cur st) = RC_SUCCESS ->
  exists out, parse_and_write console custom fuel d args = WReturn st out /\
    streams custom out (said (ps_events st)) [].
Proof. exact (fun console custom d q fuel args st H Hc Hw => success_written console custom d q H Hc Hw fuel args st). Qed.
Print Assumptions C70_success.

Example C70_success_example :
  finish_parser (ex_speaker false) = Val (completed (ex_speaker false)) /\
  counts_ok (d_command (ex_speaker false)) /\ writable 80 (completed (ex_speaker false)) /\
  (let st := final (ex_speaker false) [$"-pa"; $"copy"; $"-pb"; $"f"] in
   run_parser (d_settings (completed (ex_speaker false))) 1000 (d_command (completed (ex_speaker false)))
     [$"-pa"; $"copy"; $"-pb"; $"f"] = Ret tt st /\ l_result (ps_cur st) = RC_SUCCESS) /\
  outputs false (ex_speaker false) [$"-pa"; $"copy"; $"-pb"; $"f"] = Some ($"said:aword:b", [], []) /\
  outputs true (ex_speaker false) [$"-pa"; $"copy"; $"-pb"; $"f"] = Some ([], [], $"said:aword:b").
Proof.
  split; [vm_compute; reflexivity|]. split; [apply (counts_b_ok 3); vm_compute; reflexivity|].
  split; [apply writable_b_ok; vm_compute; reflexivity|]. split; [split; vm_compute; reflexivity|].
  split; vm_compute; reflexivity.
Qed.

(** If it fails, one error message has been written, last, and to the stream for
    errors. It is about the command that was being parsed. *)
Theorem C70_failure : forall console custom d q fuel args st, finish_parser d = Val q ->
  counts_ok (d_command d) -> writable console q ->
  run_parser (d_settings q) fuel (d_command q) args = Ret tt st -> l_result (ps_cur st) = RC_FAILURE ->
  exists m s out, parse_and_write console custom fuel d args = WReturn st out /\
    In (EvError (l_command (ps_cur st)) m) (ps_events st) /\
    is_error_text (d_word_rules q) (help_width console q) (l_command (ps_cur st)) (error_text m) s /\
    streams custom out (said (ps_events st)) s.
Proof. exact (fun console custom d q fuel args st H Hc Hw => failure_written console custom d q H Hc Hw fuel args st). Qed.
Print Assumptions C70_failure.

Example C70_failure_example :
  l_result (ps_cur (final (ex_speaker false) [$"-pa"; $"copy"; $"f"; $"-z"])) = RC_FAILURE /\
  outputs false (ex_speaker false) [$"-pa"; $"copy"; $"f"; $"-z"] =
    Some ($"said:a", text_of_lines [$"prog copy: Unknown option: -z"; $"USAGE"; $"  prog copy -x"; $"  prog copy --help";
                                    $"  prog copy [-p <WORD>] [-f <WORD>] <FILE>"], []) /\
  outputs true (ex_speaker false) [$"-pa"; $"copy"; $"f"; $"-z"] =
    Some ([], [], $"said:a" ++ text_of_lines [$"prog copy: Unknown option: -z"; $"USAGE"; $"  prog copy -x"; $"  prog copy --help";
                                    $"  prog copy [-p <WORD>] [-f <WORD>] <FILE>"]).
Proof. split; [vm_compute; reflexivity|]. split; vm_compute; reflexivity. Qed.

(** If an option stops it, the help text of the command has been written, last and to
    the normal stream, if it is a help option; and nothing otherwise. *)
Theorem C70_stop : forall console custom d q fuel args st o, finish_parser d = Val q ->
  counts_ok (d_command d) -> writable console q ->
  run_parser (d_settings q) fuel (d_command q) args = Ret tt st -> l_stop (ps_cur st) = Some o ->
  exists out, parse_and_write console custom fuel d args = WReturn st out /\
    if match o_type o with OT_HELP => true | _ => false end
    then exists s, is_help_text (d_word_rules q) (help_width console q) (l_command (ps_cur st)) s /\
           streams custom out (said (ps_events st) ++ s) []
    else streams custom out (said (ps_events st)) [].
Proof. exact (fun console custom d q fuel args st o H Hc Hw => stop_written console custom d q H Hc Hw fuel args st o). Qed.
Print Assumptions C70_stop.

Example C70_stop_example :
  option_map o_flags (l_stop (ps_cur (final (ex_speaker false) [$"-pa"; $"copy"; $"--help"; $"-z"]))) = Some [$"-h"; $"--help"] /\
  outputs false (ex_speaker false) [$"-pa"; $"copy"; $"--help"; $"-z"] =
    Some ($"said:a" ++ text_of_lines (help_lines 80 (hd (new_command []) (c_commands (d_command (completed (ex_speaker false)))))), [], []) /\
  option_map o_flags (l_stop (ps_cur (final (ex_speaker false) [$"copy"; $"-x"; $"-z"]))) = Some [$"-x"] /\
  outputs false (ex_speaker false) [$"copy"; $"-x"; $"-z"] = Some ($"exit:", [], []).
Proof. split; [vm_compute; reflexivity|]. split; [vm_compute; reflexivity|]. split; vm_compute; reflexivity. Qed.

(** The same if parse() ends the program: one error message and the exit code for
    errors, or the normal exit code and nothing but a help text. *)
Theorem C70_exit : forall console custom d q fuel args code st, finish_parser d = Val q ->
  counts_ok (d_command d) -> writable console q ->
  run_parser (d_settings q) fuel (d_command q) args = Exits code st ->
  exists out, parse_and_write console custom fuel d args = WExit code st out /\
    ((code = s_error_exit (d_settings q) /\
      exists m s, In (EvError (l_command (ps_cur st)) m) (ps_events st) /\
        is_error_text (d_word_rules q) (help_width console q) (l_command (ps_cur st)) (error_text m) s /\
        streams custom out (said (ps_events st)) s) \/
     (code = s_normal_exit (d_settings q) /\ exists o, l_stop (ps_cur st) = Some o /\ o_type o = OT_EXIT /\
        streams custom out (said (ps_events st)) []) \/
     (code = s_normal_exit (d_settings q) /\ exists o s, l_stop (ps_cur st) = Some o /\ o_type o = OT_HELP /\
        is_help_text (d_word_rules q) (help_width console q) (ps_command st) s /\
        streams custom out (said (ps_events st) ++ s) [])).
Proof. exact (fun console custom d q fuel args code st H Hc Hw => exit_written console custom d q H Hc Hw fuel args code st). Qed.
Print Assumptions C70_exit.

Example C70_exit_example :
  (exists st, run_parser (d_settings (completed (ex_speaker true))) 1000 (d_command (completed (ex_speaker true)))
     [$"copy"; $"-foh no"] = Exits 64 st) /\
  outputs false (ex_speaker true) [$"copy"; $"-foh no"] =
    Some ($"oh", text_of_lines [$"prog copy: oh no"; $"USAGE"; $"  prog copy -x"; $"  prog copy --help";
                                $"  prog copy [-p <WORD>] [-f <WORD>] <FILE>"], []) /\
  (exists st, run_parser (d_settings (completed (ex_speaker true))) 1000 (d_command (completed (ex_speaker true)))
     [$"copy"; $"-h"] = Exits 0 st).
Proof. split; [eexists; vm_compute; reflexivity|]. split; [vm_compute; reflexivity|]. eexists. vm_compute. reflexivity. Qed.

(** If a callback ends it by an exception: an error message if the callback has called
    error(), and nothing otherwise. *)
Theorem C70_throw : forall console custom d q fuel args e st, finish_parser d = Val q ->
  counts_ok (d_command d) -> writable console q ->
  run_parser (d_settings q) fuel (d_command q) args = Throws e st ->
  exists out, parse_and_write console custom fuel d args = WThrow e out /\
    ((e = EParseError /\
      exists m s, In (EvError (l_command (ps_cur st)) m) (ps_events st) /\
        is_error_text (d_word_rules q) (help_width console q) (l_command (ps_cur st)) (error_text m) s /\
        streams custom out (said (ps_events st)) s) \/
     ((e = ECallback \/ exists name, e = EUnknownValue name) /\ streams custom out (said (ps_events st)) [])).
Proof. exact (fun console custom d q fuel args e st H Hc Hw => throw_written console custom d q H Hc Hw fuel args e st). Qed.
Print Assumptions C70_throw.

Example C70_throw_example :
  exists st, run_parser (d_settings (completed (ex_speaker false))) 1000 (d_command (completed (ex_speaker false)))
     [$"-pa"; $"copy"; $"-foh no"] = Throws EParseError st /\ said (ps_events st) = $"said:aoh".
Proof. eexists. split; vm_compute; reflexivity. Qed.

(** Whatever else is written is written by the definition's own callbacks. *)
Theorem C70_callbacks : forall d q fuel args st s, finish_parser d = Val q ->
  (run_parser (d_settings q) fuel (d_command q) args = Ret tt st \/
   (exists code, run_parser (d_settings q) fuel (d_command q) args = Exits code st) \/
   (exists e, run_parser (d_settings q) fuel (d_command q) args = Throws e st)) ->
  In (EvText s) (ps_events st) ->
  exists f n v vs, callback_of (d_settings q) (d_command q) f /\ In s (eff_out (f n v vs)).
Proof. exact said_callbacks. Qed.
Print Assumptions C70_callbacks.

Theorem C70_silent : forall d q fuel args st, finish_parser d = Val q ->
  (run_parser (d_settings q) fuel (d_command q) args = Ret tt st \/
   (exists code, run_parser (d_settings q) fuel (d_command q) args = Exits code st) \/
   (exists e, run_parser (d_settings q) fuel (d_command q) args = Throws e st)) ->
  (forall f n v vs, callback_of (d_settings q) (d_command q) f -> eff_out (f n v vs) = []) ->
  said (ps_events st) = [].
Proof. exact said_nothing. Qed.
Print Assumptions C70_silent.

Example C70_silent_example :
  (forall f n v vs, callback_of (d_settings (completed (ex_data false false SExamples.ex_copy)))
     (d_command (completed (ex_data false false SExamples.ex_copy))) f -> eff_out (f n v vs) = []) /\
  ps_events (final (ex_data false false SExamples.ex_copy) [$"-vox"; $"f"]) = [].
Proof.
  split; [intros f n v vs H; exfalso; revert H; apply (no_callbacks_sound 5); vm_compute; reflexivity|vm_compute; reflexivity].
Qed.

(** With a line width of one or two columns, which the definition accepts, nothing is
    reported: every error ends parse() with an exception about the line width. *)
Theorem C70_narrow_refuted : forall console custom fuel d q args st, finish_parser d = Val q -> 2 < console ->
  (0 < d_line_width q <= 2)%N -> run_parser (d_settings q) fuel (d_command q) args = Ret tt st ->
  l_result (ps_cur st) = RC_FAILURE -> parse_and_write console custom fuel d args = WFormat TLineWidth.
Proof. exact narrow_written. Qed.
Print Assumptions C70_narrow_refuted.

Example C70_narrow_example :
  let d := mk_data (d_command (ex_speaker false)) (d_settings (ex_speaker false)) [] 2 [] in
  l_result (ps_cur (final d [$"-z"])) = RC_FAILURE /\ parse_and_write 80 true 1000 d [$"-z"] = WFormat TLineWidth.
Proof. split; vm_compute; reflexivity. Qed.
