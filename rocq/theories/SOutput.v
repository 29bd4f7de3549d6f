(** Specification of what parse() writes (C70). *)
From Verif Require Import Base MStrings MOptIter MData MCounter MValues MParser MText MHelp MOutput
  SStrings SDef SText SFormat SHelp SParser SWrap SHelpWrap.
Open Scope nat_scope.

(** The stream of help texts and of what callbacks write, and that of error messages. *)
Definition normal_stream (custom : bool) : channel := if custom then Custom else Stdout.
Definition error_stream (custom : bool) : channel := if custom then Custom else Stderr.

(** What callbacks have written. *)
Definition callback_texts (custom : bool) (evs : list event) : list (channel * str) :=
  concat (map (fun e => match e with EvText (x :: s) => [(normal_stream custom, x :: s)] | _ => [] end) evs).

(** A help text of [c], and an error message about [c] with the text [msg]: a layout of
    the pieces with all their characters; no line is too wide; and the exact lines if
    nothing has to be reflowed. *)
Record text_of (doc : list piece) (s : str) : Prop := {
  to_complete : complete s;
  to_layout : exists p, layout (doc_marker doc) (doc_items doc) s p;
  to_characters : reflowed (visible (doc_text doc)) s
}.
Record is_help_text (rules : list str) (width : nat) (c : cmd_data) (s : str) : Prop := {
  ht_text : text_of (help_doc width c) s;
  ht_width : utf8_command c -> forall line, In line (lines_of s) -> narrow width line \/ squeezed width line;
  ht_exact : 7 < width -> plain_help c -> length (c_full_name c) + 3 < width -> fits width (help_lines width c) ->
    s = text_of_lines (help_lines width c);
  ht_printed : 8 < width -> trimmed_rules rules -> readable_help width c -> help_printed rules width c s
}.
Record is_error_text (rules : list str) (width : nat) (c : cmd_data) (msg s : str) : Prop := {
  et_text : text_of (error_doc width c msg) s;
  et_width : utf8_command c -> utf8 msg -> forall line, In line (lines_of s) -> narrow width line \/ squeezed width line;
  et_exact : 7 < width -> plain_usage c -> plain msg -> length (c_full_name c) + 3 < width ->
    fits width (error_lines width c msg) -> s = text_of_lines (error_lines width c msg);
  et_printed : trimmed_rules rules -> readable_usage c -> good_name (c_full_name c ++ $":") -> good_side msg ->
    error_printed rules width c msg s
}.

(** Help texts and error messages can be written about all commands. *)
Definition writable (console : nat) (q : parser_data) : Prop :=
  help_ok console q /\ forall c, within (d_command q) c -> labels_ok c.

(** The texts that callbacks have written. *)
Definition said (evs : list event) : str :=
  concat (map (fun e => match e with EvText s => s | _ => [] end) evs).

(** One chunk, or nothing if there is no text. *)
Definition chunk (ch : channel) (s : str) : list (channel * str) :=
  match s with [] => [] | _ => [(ch, s)] end.

(** What is in a stream. *)
Definition in_stream (ch : channel) (out : list (channel * str)) : str :=
  concat (map snd (filter (fun x => match fst x, ch with
                                    | Stdout, Stdout | Stderr, Stderr | Custom, Custom => true
                                    | _, _ => false
                                    end) out)).

(** The streams hold this and nothing else: [out] in the stream for help texts and [err]
    in the one for errors, or one after the other in the stream given by the user. *)
Definition streams (custom : bool) (written : list (channel * str)) (out err : str) : Prop :=
  if custom then in_stream Custom written = out ++ err /\ in_stream Stdout written = [] /\ in_stream Stderr written = []
  else in_stream Stdout written = out /\ in_stream Stderr written = err /\ in_stream Custom written = [].
