(** Model of HelpText.cpp in src/Argos with texts that are callbacks
    (TextSource.hpp 14-21): which callbacks are called, in what order, what is
    written when they do not always return the same, and what happens when one of
    them throws. No proofs in this file.

    The functions that write something but ask for no text are those of MHelp.v.
    What has been written before the formatter itself throws is not modelled. *)
From Verif Require Import Base MStrings MData MText MHelp.

(** A text that can be a callback (TextSource), of the command whose help is
    written: CommandData::texts, ArgumentData::help, HELP of a sub-command,
    OptionData::help. *)
Inductive slot :=
| S_text (id : text_id)
| S_argument (i : nat)
| S_subcommand (i : nat)
| S_option (i : nat).

(** Which texts are callbacks, and what these return when they are called after the
    calls in the list; [None]: throws. The strings that [cmd_data] has for callbacks are
    not used. *)
Record text_calls := mk_calls {
  tc_called : slot -> bool;
  tc_answer : list slot -> slot -> option str
}.

(** [CThrown]: a callback has thrown; [CFormat]: the formatter has. With the
    formatter, and the calls so far. *)
Inductive cres (A : Type) :=
| CDone (a : A) (f : formatter) (l : list slot)
| CThrown (f : formatter) (l : list slot)
| CFormat (e : text_exn) (l : list slot)
| CBad
| CNoFuel.
Arguments CDone {A}. Arguments CThrown {A}. Arguments CFormat {A}. Arguments CBad {A}. Arguments CNoFuel {A}.

Definition cm (A : Type) := formatter -> list slot -> cres A.
Definition cret {A} (a : A) : cm A := fun f l => CDone a f l.
Definition cbind {A B} (m : cm A) (k : A -> cm B) : cm B := fun f l =>
  match m f l with
  | CDone a f1 l1 => k a f1 l1
  | CThrown f1 l1 => CThrown f1 l1
  | CFormat e l1 => CFormat e l1
  | CBad => CBad
  | CNoFuel => CNoFuel
  end.
Notation "'ask' x := m ; k" := (cbind m (fun x => k)) (at level 62, x pattern, right associativity).
Definition emit (g : fstep) : cm unit := fun f l =>
  match g f with
  | TOk f1 => CDone tt f1 l
  | TThrows e => CFormat e l
  | TBad => CBad
  | TNoFuel => CNoFuel
  end.

(** TextSource.hpp 16-21, [get_text]. *)
Definition get_text (t : text_calls) (s : slot) (stored : str) : cm str := fun f l =>
  if tc_called t s then
    match tc_answer t l s with
    | Some x => CDone x f (l ++ [s])
    | None => CThrown f (l ++ [s])
    end
  else CDone stored f l.

(** HelpText.cpp 124-133, [get_custom_text]. [s]: the text's place. *)
Definition get_custom (t : text_calls) (s : slot) (c : cmd_data) (id : text_id) : cm (option str) :=
  match find_text (c_texts c) id with
  | Some stored => ask x := get_text t s stored; cret (Some x)
  | None => cret None
  end.
Definition get_own (t : text_calls) (c : cmd_data) (id : text_id) : cm (option str) :=
  get_custom t (S_text id) c id.

(** HelpText.cpp 140-156, [write_custom_text]. *)
Definition write_custom (t : text_calls) (c : cmd_data) (id : text_id) (prepend_newline : bool) : cm (option str) :=
  ask text := get_own t c id;
  ask _ := emit (if no_text text then skip
                  else when prepend_newline new_line ;> write_words (text_or text []) ;> end_line);
  cret text.

(** HelpText.cpp 384-413, [write_usage]. *)
Definition write_usage_calls (t : text_calls) (c : cmd_data) (prepend_newline : bool) : cm bool :=
  ask u := get_own t c TX_USAGE;
  match u with
  | Some [] => cret false
  | _ =>
      ask text1 := write_custom t c TX_USAGE_TITLE prepend_newline;
      ask prepend :=
        match text1 with
        | None =>
            ask _ := emit (when prepend_newline new_line ;> write_words DEFAULT_USAGE_TITLE ;> new_line);
            cret false
        | Some _ => cret (prepend_newline && no_text text1)
        end;
      ask text2 := write_custom t c TX_USAGE prepend;
      match text2 with
      | Some _ => cret (negb (no_text text1) || negb (no_text text2))
      | None => ask _ := emit (write_brief_usage c prepend); cret true
      end
  end.

(** HelpText.cpp 236-242: [i] is the index of the first of [l] in the command. *)
Fixpoint list_arguments (t : text_calls) (title : str) (i : nat) (l : list arg_data)
  (sections : list section_texts) : cm (list section_texts) :=
  match l with
  | [] => cret sections
  | a :: r =>
      if negb (vis_text (a_visibility a)) then list_arguments t title (S i) r sections
      else
        ask text := get_text t (S_argument i) (a_help a);
        list_arguments t title (S i) r
          (add_help_text (section_or (a_section a) title) (get_argument_name a) text sections)
  end.

(** HelpText.cpp 249-256. *)
Fixpoint list_commands (t : text_calls) (title : str) (i : nat) (l : list cmd_data)
  (sections : list section_texts) : cm (list section_texts) :=
  match l with
  | [] => cret sections
  | x :: r =>
      if negb (vis_text (c_visibility x)) then list_commands t title (S i) r sections
      else
        ask text := get_custom t (S_subcommand i) x TX_HELP;
        list_commands t title (S i) r
          (add_help_text (section_or (c_section x) title) (c_name x) (text_or text []) sections)
  end.

(** HelpText.cpp 262-268. *)
Fixpoint list_options (t : text_calls) (title : str) (i : nat) (l : list opt_data)
  (sections : list section_texts) : cm (list section_texts) :=
  match l with
  | [] => cret sections
  | o :: r =>
      if negb (vis_text (o_visibility o)) then list_options t title (S i) r sections
      else
        ask text := get_text t (S_option i) (o_help o);
        list_options t title (S i) r
          (add_help_text (section_or (o_section o) title) (get_long_option_name o) text sections)
  end.

(** HelpText.cpp 211-306, [write_argument_sections]. *)
Definition write_sections_calls (t : text_calls) (c : cmd_data) (prepend_newline : bool) : cm unit :=
  ask arg_title := get_own t c TX_ARGUMENTS_TITLE;
  ask s1 := list_arguments t (text_or arg_title ($"ARGUMENTS")) 0 (c_arguments c) [];
  ask cmd_title := get_own t c TX_SUBCOMMANDS_TITLE;
  ask s2 := list_commands t (text_or cmd_title ($"COMMANDS")) 0 (c_commands c) s1;
  ask opt_title := get_own t c TX_OPTIONS_TITLE;
  ask s3 := list_options t (text_or opt_title ($"OPTIONS")) 0 (c_options c) s2;
  emit (if is_empty s3 then skip
         else fun f => write_sections (get_help_text_label_width (w_line_width (f_writer f)) s3)
                         prepend_newline s3 f).

(** With the formatter of [help_formatter]. *)
Definition with_formatter (console : nat) (d : parser_data) (m : cm unit) (l : list slot) : cres unit :=
  match help_formatter console d with
  | TOk f => m f l
  | TThrows e => CFormat e l
  | TBad => CBad
  | TNoFuel => CNoFuel
  end.

(** HelpText.cpp 436-451, [write_help_text]; [l]: calls before this one. *)
Definition write_help_calls (console : nat) (d : parser_data) (t : text_calls) (c : cmd_data)
  : list slot -> cres unit :=
  with_formatter console d (
    ask initial := write_custom t c TX_INITIAL_TEXT false;
    let newline := negb (no_text initial) in
    ask usage := write_usage_calls t c newline;
    let newline := usage || newline in
    ask about := write_custom t c TX_ABOUT newline;
    ask newline :=
      (if negb (no_text about) then cret true
       else
         ask help := write_custom t c TX_HELP newline;
         cret (negb (no_text help) || newline));
    ask _ := write_sections_calls t c newline;
    ask _ := write_custom t c TX_FINAL_TEXT true;
    cret tt).

(** HelpText.cpp 453-470, [write_error_message]. *)
Definition write_error_calls (console : nat) (d : parser_data) (t : text_calls) (c : cmd_data) (msg : str)
  : list slot -> cres unit :=
  with_formatter console d (
    ask _ := emit (write_words (c_full_name c ++ $": ") ;> write_words msg ;> new_line);
    ask usage := write_custom t c TX_ERROR_USAGE false;
    match usage with
    | Some _ => cret tt
    | None => ask _ := write_usage_calls t c false; cret tt
    end).
