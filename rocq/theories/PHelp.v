(** Properties of help texts and error messages: C53-C57. The specification is in
    SHelp.v. *)
From Verif Require Import Base MStrings MOptIter MData MCounter MValues MParser MText MHelp MApi SStrings SDef SText SFormat SHelp
  HelpExact HelpApi HelpApi2 HelpExamples.
Open Scope nat_scope.

(** C53. Writing the help text of a program or of one of its sub-commands succeeds, and
    what is written is a layout of the pieces of the text ([help_doc]): usage, texts,
    sections and their visible items, in this order. [q] is the definition with generated
    help option and [c] the command that the path leads to. *)
Theorem C53_layout : forall console d q path c, help_ok console d -> counts_ok (d_command d) ->
  finish_parser (make_copy d) = Val q ->
  find_path (s_case_insensitive (d_settings q)) (d_command q) path = Val c -> labels_ok c ->
  let doc := help_doc (help_width console d) c in
  exists out p, write_subcommand_help_text console (Some d) path = HText out /\ complete out /\
    layout (doc_marker doc) (doc_items doc) out p.
Proof. exact C53_layout_proof. Qed.
Print Assumptions C53_layout.

(** Every character of the texts is there, in order; only white space and hyphens at
    the ends of lines are added. *)
Theorem C53_characters : forall console d q path c, help_ok console d -> counts_ok (d_command d) ->
  finish_parser (make_copy d) = Val q ->
  find_path (s_case_insensitive (d_settings q)) (d_command q) path = Val c -> labels_ok c ->
  exists out, write_subcommand_help_text console (Some d) path = HText out /\
    reflowed (visible (doc_text (help_doc (help_width console d) c))) out.
Proof. exact C53_characters_proof. Qed.
Print Assumptions C53_characters.

Example C53_example :
  help_ok 80 ex_help_parser /\ counts_ok (d_command ex_help_parser) /\
  finish_parser (make_copy ex_help_parser) = Val ex_done /\
  find_path (s_case_insensitive (d_settings ex_done)) (d_command ex_done) [$"copy"] = Val ex_copy_done /\
  labels_ok ex_copy_done /\
  map en_label (entries ex_copy_done) = [$"<input>"; $"[<more>]..."; $"-o <FILE>, --output <FILE>"; $"-v, --verbose"; $"-h, --help"].
Proof.
  split; [exact ex_help_ok|]. split; [exact ex_counts|]. split; [exact ex_finish|]. split; [exact ex_path|].
  split; [exact ex_labels|vm_compute; reflexivity].
Qed.

(** Line widths of one and two columns are accepted by the definition, but no help text
    can be written with them. *)
Theorem C53_narrow_refuted : forall console d q path c, 2 < console -> (0 < d_line_width d <= 2)%N ->
  finish_parser (make_copy d) = Val q ->
  find_path (s_case_insensitive (d_settings q)) (d_command q) path = Val c ->
  write_subcommand_help_text console (Some d) path = HFormat (TThrows TLineWidth).
Proof. exact C53_narrow_proof. Qed.
Print Assumptions C53_narrow_refuted.

Example C53_narrow_example :
  write_subcommand_help_text 80 (Some (ex_width 2)) [$"copy"] = HFormat (TThrows TLineWidth).
Proof. vm_compute. reflexivity. Qed.

(** A label that ends with CR prevents the help text. *)
Theorem C53_carriage_return_refuted : exists d, help_ok 80 d /\ counts_ok (d_command d) /\
  write_subcommand_help_text 80 (Some d) [] = HFormat (TThrows TOutOfRange).
Proof. exact C53_cr_proof. Qed.
Print Assumptions C53_carriage_return_refuted.

(** C54. If the texts are printable ASCII characters without list markers and no line
    has to be broken, the help text is, to the character, the lines of [help_lines]. *)
Theorem C54_exact : forall console d q path c, help_ok console d -> 7 < help_width console d ->
  counts_ok (d_command d) -> finish_parser (make_copy d) = Val q ->
  find_path (s_case_insensitive (d_settings q)) (d_command q) path = Val c ->
  plain_help c -> length (c_full_name c) + 3 < help_width console d ->
  fits (help_width console d) (help_lines (help_width console d) c) ->
  write_subcommand_help_text console (Some d) path = HText (text_of_lines (help_lines (help_width console d) c)).
Proof. exact C54_exact_proof. Qed.
Print Assumptions C54_exact.

Example C54_example :
  plain_help ex_copy_done /\ fits 80 (help_lines 80 ex_copy_done) /\
  help_lines 80 ex_copy_done =
  [$"USAGE";
   $"  prog copy --help";
   $"  prog copy [-o <FILE>] [-v] <input> [<more>]...";
   [];
   $"Copy files.";
   [];
   $"ARGUMENTS";
   $"  <input>                    The input.";
   $"  [<more>]...";
   [];
   $"OPTIONS";
   $"  -o <FILE>, --output <FILE> Write to FILE.";
   $"  -h, --help                 Display this help text.";
   [];
   $"MORE OPTIONS";
   $"  -v, --verbose              Say more."].
Proof. split; [exact ex_plain|]. split; [apply fits_b_ok; vm_compute; reflexivity|vm_compute; reflexivity]. Qed.

(** C55. Items that are hidden do not influence help texts and error messages: these are
    the same without the items. *)
Theorem C55_help : forall console d c,
  c_commands c = [] \/ (exists d, In d (c_commands c) /\ shown_item (c_visibility d) = true) ->
  write_help_text console d (without_hidden c) = write_help_text console d c.
Proof. intros console d c H. exact (hidden_help c H console d). Qed.
Print Assumptions C55_help.

Theorem C55_error : forall console d c msg,
  c_commands c = [] \/ (exists d, In d (c_commands c) /\ shown_item (c_visibility d) = true) ->
  write_error_message console d (without_hidden c) msg = write_error_message console d c msg.
Proof. intros console d c msg H. exact (hidden_error c H console d msg). Qed.
Print Assumptions C55_error.

Example C55_example : c_commands ex_copy_done = [] /\ without_hidden ex_copy_done <> ex_copy_done.
Proof. split; [vm_compute; reflexivity|exact ex_not_same]. Qed.

(** If all sub-commands are hidden and none is required, empty brackets are shown. *)
Theorem C55_all_hidden_refuted : exists d c f g,
  write_help_text 80 d c = TOk f /\ write_help_text 80 d (without_hidden c) = TOk g /\
  w_out (f_writer f) <> w_out (f_writer g).
Proof. exact C55_all_hidden_proof. Qed.
Print Assumptions C55_all_hidden_refuted.

(** ArgumentParser's own help functions show hidden sub-commands. *)
Theorem C55_subcommands_refuted : exists d e out a b, In e (c_commands (d_command d)) /\
  c_visibility e = vis_hidden /\ write_subcommand_help_text 80 (Some d) [] = HText out /\ out = a ++ c_name e ++ b.
Proof. exact C55_subcommands_proof. Qed.
Print Assumptions C55_subcommands_refuted.

(** C56. Error messages: the name of the program or command, the message and the usage.
    [c] is any command of an accepted definition. *)
Theorem C56_layout : forall console p q c msg, finish_parser p = Val q -> counts_ok (d_command p) ->
  within (d_command q) c -> help_ok console q -> labels_ok c ->
  let doc := error_doc (help_width console q) c msg in
  exists f pl, write_error_message console q c msg = TOk f /\ w_line (f_writer f) = [] /\ complete (w_out (f_writer f)) /\
    layout (doc_marker doc) (doc_items doc) (w_out (f_writer f)) pl /\
    reflowed (visible (doc_text doc)) (w_out (f_writer f)).
Proof. exact C56_layout_proof. Qed.
Print Assumptions C56_layout.

Theorem C56_exact : forall console p q c msg, finish_parser p = Val q -> counts_ok (d_command p) ->
  within (d_command q) c -> help_ok console q -> 7 < help_width console q -> plain_usage c -> plain msg ->
  length (c_full_name c) + 3 < help_width console q ->
  fits (help_width console q) (error_lines (help_width console q) c msg) ->
  exists f, write_error_message console q c msg = TOk f /\ w_line (f_writer f) = [] /\
    w_out (f_writer f) = text_of_lines (error_lines (help_width console q) c msg).
Proof. exact C56_exact_proof. Qed.
Print Assumptions C56_exact.

(** The message about an argument or an option begins with its name or flags. *)
Theorem C56_item : forall console d c msg id, write_argument_error console d c msg id =
  write_error_message console d c (match item_name c id with [] => msg | name => name ++ $": " ++ msg end).
Proof. exact argument_error_eq. Qed.
Print Assumptions C56_item.

Example C56_example :
  within (d_command ex_done) ex_copy_done /\ help_ok 80 ex_done /\ labels_ok ex_copy_done /\
  plain_usage ex_copy_done /\ plain ($"no such file") /\
  item_name ex_copy_done (o_argument_id (hd (new_option []) (c_options ex_copy_done))) = $"-o, --output" /\
  error_lines 80 ex_copy_done ($"no such file") =
  [$"prog copy: no such file"; $"USAGE"; $"  prog copy --help"; $"  prog copy [-o <FILE>] [-v] <input> [<more>]..."] /\
  fits 80 (error_lines 80 ex_copy_done ($"no such file")).
Proof. exact C56_example_proof. Qed.

(** C57. No line of a help text or an error message is wider than the line width, except
    for lines that are indented to within two columns of it. *)
Theorem C57_help : forall console d q path c out line, help_ok console d -> counts_ok (d_command d) ->
  finish_parser (make_copy d) = Val q ->
  find_path (s_case_insensitive (d_settings q)) (d_command q) path = Val c -> labels_ok c -> utf8_command c ->
  write_subcommand_help_text console (Some d) path = HText out -> In line (lines_of out) ->
  narrow (help_width console d) line \/ squeezed (help_width console d) line.
Proof. exact C57_help_proof. Qed.
Print Assumptions C57_help.

Theorem C57_error : forall console p q c msg f line, finish_parser p = Val q -> counts_ok (d_command p) ->
  within (d_command q) c -> help_ok console q -> labels_ok c -> utf8_command c -> utf8 msg ->
  write_error_message console q c msg = TOk f -> In line (lines_of (w_out (f_writer f))) ->
  narrow (help_width console q) line \/ squeezed (help_width console q) line.
Proof. exact C57_error_proof. Qed.
Print Assumptions C57_error.

Example C57_example : utf8_command ex_copy_done /\
  (exists out, write_subcommand_help_text 30 (Some ex_help_parser) [$"copy"] = HText out /\
     length out = 327 /\ list_max (map (@length ascii) (lines_of out)) = 28).
Proof. split; [exact ex_utf8|]. eexists. split; [vm_compute; reflexivity|split; vm_compute; reflexivity]. Qed.
