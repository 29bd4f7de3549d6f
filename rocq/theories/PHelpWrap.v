(** Properties of help texts and error messages with line breaks: C79. The specification
    is in SHelpWrap.v. *)
From Verif Require Import Base MStrings MOptIter MData MCounter MValues MParser MText MHelp MApi SStrings SDef SText SFormat SWrap SHelp
  SHelpWrap HelpWrap3 HelpWrapEx.
Open Scope nat_scope.

(** C79. The help text of a program or of one of its sub-commands is, to the character,
    what [help_printed] says: every title, label and text is put on lines by the rules of
    C78, in its column. [q] is the definition with generated help option and [c] the
    command that the path leads to. *)
Theorem C79_exact : forall console d q path c, help_ok console d -> 8 < help_width console d ->
  trimmed_rules (d_word_rules d) -> counts_ok (d_command d) -> finish_parser (make_copy d) = Val q ->
  find_path (s_case_insensitive (d_settings q)) (d_command q) path = Val c ->
  readable_help (help_width console d) c ->
  exists out, write_subcommand_help_text console (Some d) path = HText out /\
    help_printed (d_word_rules d) (help_width console d) c out.
Proof. exact C79_exact_proof. Qed.
Print Assumptions C79_exact.

(** There is only one such text. *)
Theorem C79_determined : forall console d c out out', help_ok console d -> trimmed_rules (d_word_rules d) ->
  help_printed (d_word_rules d) (help_width console d) c out ->
  help_printed (d_word_rules d) (help_width console d) c out' -> out = out'.
Proof. exact C79_determined_proof. Qed.
Print Assumptions C79_determined.

Example C79_example :
  help_ok 80 ex_wrap /\ 8 < help_width 80 ex_wrap /\ trimmed_rules (d_word_rules ex_wrap) /\ counts_ok (d_command ex_wrap) /\
  finish_parser (make_copy ex_wrap) = Val ex_wrap_done /\
  find_path (s_case_insensitive (d_settings ex_wrap_done)) (d_command ex_wrap_done) [$"copy"] = Val ex_wrap_copy_done /\
  readable_help (help_width 80 ex_wrap) ex_wrap_copy_done /\
  exists out, write_subcommand_help_text 80 (Some ex_wrap) [$"copy"] = HText out /\ lines_of out =
  [$"USAGE";
   $"  prog copy --help";
   $"  prog copy [-o <FILE>] [-v]";
   $"            [-m] <input>";
   $"            [<more>]...";
   [];
   $"Copy files to a place that has";
   $"not been used before.";
   [];
   $"Take care.";
   [];
   $"ARGUMENTS";
   $"  <input>";
   $"        The input.";
   $"  [<more>]...";
   [];
   $"OPTIONS";
   $"  -o <FILE>, --output <FILE>";
   $"        Write to FILE.";
   $"  -m";
   $"        Choose what to do:";
   $"         - with files that";
   $"           exist already";
   $"         - with links";
   $"  -h, --help";
   $"        Display this help";
   $"        text.";
   [];
   $"MORE OPTIONS";
   $"  -v, --verbose";
   $"        Say more.";
   []].
Proof.
  destruct ex_wrap_ok as (H1 & H2 & H3). repeat (split; [assumption|]). split; [exact ex_wrap_counts|].
  split; [exact ex_wrap_finish|]. split; [exact ex_wrap_path|]. split; [exact (proj1 ex_wrap_readable)|exact ex_wrap_text].
Qed.

(** Error messages, to the character. [c] is any command of an accepted definition. *)
Theorem C79_error : forall console p q c msg, finish_parser p = Val q -> counts_ok (d_command p) ->
  within (d_command q) c -> help_ok console q -> trimmed_rules (d_word_rules q) -> readable_usage c ->
  good_name (c_full_name c ++ $":") -> good_side msg ->
  exists f, write_error_message console q c msg = TOk f /\ w_line (f_writer f) = [] /\
    error_printed (d_word_rules q) (help_width console q) c msg (w_out (f_writer f)).
Proof. exact C79_error_proof. Qed.
Print Assumptions C79_error.

Theorem C79_error_determined : forall console d c msg out out', help_ok console d -> trimmed_rules (d_word_rules d) ->
  error_printed (d_word_rules d) (help_width console d) c msg out ->
  error_printed (d_word_rules d) (help_width console d) c msg out' -> out = out'.
Proof. exact C79_error_determined_proof. Qed.
Print Assumptions C79_error_determined.

Example C79_error_example :
  finish_parser (make_copy ex_wrap) = Val ex_wrap_done /\ within (d_command ex_wrap_done) ex_wrap_copy_done /\
  help_ok 80 ex_wrap_done /\ trimmed_rules (d_word_rules ex_wrap_done) /\ readable_usage ex_wrap_copy_done /\
  good_name (c_full_name ex_wrap_copy_done ++ $":") /\ good_side ($"There is no file with this name.") /\
  exists f, write_error_message 80 ex_wrap_done ex_wrap_copy_done ($"There is no file with this name.") = TOk f /\
    lines_of (w_out (f_writer f)) =
    [$"prog copy: There is no file";
     $"with this name.";
     $"USAGE";
     $"  prog copy --help";
     $"  prog copy [-o <FILE>] [-v]";
     $"            [-m] <input>";
     $"            [<more>]...";
     []].
Proof. exact C79_error_example_proof. Qed.

(** The conditions on titles, texts, messages and names are met by words with spaces
    between them and any kind of line ends, in UTF-8. *)
Theorem C79_texts : forall s,
  (simple_text s -> good_text s) /\ (simple_side s -> good_side s) /\ (simple_name s -> good_name s).
Proof. intros s. split; [apply C79_text_proof|]. split; [apply C79_side_proof|apply C79_name_proof]. Qed.
Print Assumptions C79_texts.

Example C79_texts_example : simple_text ex_list_text /\ simple_side ex_long_text /\ simple_name ($"-o <FILE>, --output <FILE>").
Proof. exact C79_texts_example_proof. Qed.
