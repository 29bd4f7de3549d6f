(** Specification of help texts, usage and error messages (C53-C58). Of the model only
    the definitions' data types, [find_text] and the formatter's width are used. *)
From Verif Require Import Base MStrings MData SStrings SDef SText SFormat.

(** ** Pieces of text *)

(** [Words] are words that may be moved to new lines, [Lines] are lines that are not
    broken at blanks unless they have to be. *)
Inductive piece := Words (s : str) | Lines (s : str) | Space | MaybeSpace | EndLine.

Definition piece_items (p : piece) : list item :=
  match p with
  | Words s => map word_item (unix s)
  | Lines s => map line_item (unix s)
  | Space => [Blank]
  | MaybeSpace => [Maybe]
  | EndLine => [Break]
  end.
Definition doc_items (d : list piece) : list item := concat (map piece_items d).

(** One of the texts has a list marker. *)
Definition doc_marker (d : list piece) : Prop := exists s, In (Words s) d /\ has_marker s.

Definition join {A} (sep : list A) (l : list (list A)) : list A :=
  match l with
  | [] => []
  | x :: r => x ++ concat (map (fun y => sep ++ y) r)
  end.

(** The last line of a text has a visible character. *)
Definition open_text (s : str) : bool :=
  existsb (fun c => negb (is_white c)) (last (lines_of (unix s)) []).

(** A text and the end of its last line. *)
Definition text_pieces (s : str) : list piece := Words s :: (if open_text s then [EndLine] else []).

(** ** Names *)

Definition angled (s : str) : str := $"<" ++ s ++ $">".
Definition bracketed (s : str) : str := $"[" ++ s ++ $"]".
Definition first_is (set : list ascii) (s : str) : bool :=
  match s with c :: _ => existsb (Ascii.eqb c) set | [] => false end.

(** An argument: its name for every mandatory occurrence, then its name in brackets, with
    dots if there can be more than one more. A name in angles or brackets is not changed. *)
Definition argument_label (a : arg_data) : str :=
  if first_is ["<"%char; "["%char] (a_name a) then a_name a
  else join ($" ")
         (repeat (angled (a_name a)) (N.to_nat (a_min a)) ++
          if (a_max a =? a_min a)%N then []
          else if (a_max a =? a_min a + 1)%N then [bracketed (angled (a_name a))]
          else [bracketed (angled (a_name a)) ++ $"..."]).

Definition ends_equal (s : str) : bool :=
  match last_char s with Some c => Ascii.eqb c "="%char | None => false end.

(** A flag with the name of the option's argument. *)
Definition flag_label (argument flag : str) : str :=
  flag ++ match argument with
          | [] => []
          | _ => (if ends_equal flag then [] else $" ")
                 ++ (if first_is ["<"%char] argument then argument else angled argument)
          end.

Definition option_label (o : opt_data) : str := join ($", ") (map (flag_label (o_argument o)) (o_flags o)).

Definition stops (o : opt_data) : bool :=
  match o_type o with OT_HELP | OT_STOP | OT_EXIT => true | _ => false end.

(** The flag that stands for an option in the usage: the first one; for options that
    stop the parser the first one of more than two characters, if there is one. *)
Definition usage_flag (o : opt_data) : str :=
  hd [] ((if stops o then filter (fun f => 2 <? length f) (o_flags o) else []) ++ o_flags o).

Definition usage_label (o : opt_data) : str :=
  let s := flag_label (o_argument o) (usage_flag o) in
  if o_optional o && negb (stops o) then bracketed s else s.

(** ** Usage *)

(** The program's or command's name and the gap after it. On a line that is too narrow
    for the name and two more columns there may be no gap. *)
Definition usage_name (width : nat) (name : str) : list piece :=
  [Words name; if negb (existsb (Ascii.eqb c_tab) name) && (length name + 3 <? width)
               then Space else MaybeSpace].

Definition usage_options (stop : bool) (c : cmd_data) : list opt_data :=
  filter (fun o => vis_usage (o_visibility o) && Bool.eqb (stops o) stop) (c_options c).
Definition usage_arguments (c : cmd_data) : list arg_data :=
  filter (fun a => vis_usage (a_visibility a)) (c_arguments c).
Definition usage_commands (c : cmd_data) : list cmd_data :=
  filter (fun d => vis_usage (c_visibility d)) (c_commands c).

Definition commands_pieces (c : cmd_data) : list piece :=
  match c_commands c with
  | [] => []
  | _ =>
      let names := join [Words ($"|")] (map (fun d => [Words (c_name d)]) (usage_commands c)) in
      match c_require c with
      | Some true => names
      | _ => [Words ($"[")] ++ names ++ [Words ($"]")]
      end
  end.

(** A line for every option that stops the parser, and a line with the others, the
    arguments and the sub-commands. *)
Definition usage_pieces (width : nat) (c : cmd_data) : list piece :=
  concat (map (fun o => usage_name width (c_full_name c) ++ [Lines (usage_label o); Space; EndLine])
    (usage_options true c)) ++
  usage_name width (c_full_name c) ++
  concat (map (fun o => [Lines (usage_label o); Space]) (usage_options false c)) ++
  concat (map (fun a => [Lines (argument_label a); Space]) (usage_arguments c)) ++
  commands_pieces c ++ [EndLine].

Definition title_pieces (t : option str) (default : str) : list piece :=
  match t with
  | None => [Words default; EndLine]
  | Some [] => []
  | Some s => text_pieces s
  end.

(** Nothing if the text USAGE is empty. *)
Definition usage_block (width : nat) (c : cmd_data) : list (list piece) :=
  match find_text (c_texts c) TX_USAGE with
  | Some [] => []
  | t => [title_pieces (find_text (c_texts c) TX_USAGE_TITLE) ($"USAGE") ++
          match t with Some s => text_pieces s | None => usage_pieces width c end]
  end.

(** ** Sections *)

Record entry := mk_entry { en_title : str; en_label : str; en_text : str }.

Definition or_text (t : option str) (default : str) : str := match t with Some s => s | None => default end.
Definition or_title (s title : str) : str := match s with [] => title | _ => s end.

Definition argument_entries (c : cmd_data) : list entry :=
  map (fun a => mk_entry
         (or_title (a_section a) (or_text (find_text (c_texts c) TX_ARGUMENTS_TITLE) ($"ARGUMENTS")))
         (argument_label a) (a_help a))
    (filter (fun a => vis_text (a_visibility a)) (c_arguments c)).
Definition command_entries (c : cmd_data) : list entry :=
  map (fun d => mk_entry
         (or_title (c_section d) (or_text (find_text (c_texts c) TX_SUBCOMMANDS_TITLE) ($"COMMANDS")))
         (c_name d) (or_text (find_text (c_texts d) TX_HELP) []))
    (filter (fun d => vis_text (c_visibility d)) (c_commands c)).
Definition option_entries (c : cmd_data) : list entry :=
  map (fun o => mk_entry
         (or_title (o_section o) (or_text (find_text (c_texts c) TX_OPTIONS_TITLE) ($"OPTIONS")))
         (option_label o) (o_help o))
    (filter (fun o => vis_text (o_visibility o)) (c_options c)).

Definition entries (c : cmd_data) : list entry :=
  argument_entries c ++ command_entries c ++ option_entries c.

(** The titles in the order of their first entries. *)
Fixpoint distinct (l : list str) : list str :=
  match l with
  | [] => []
  | x :: r => x :: filter (fun y => negb (str_eqb x y)) (distinct r)
  end.
Definition titles (l : list entry) : list str := distinct (map en_title l).
Definition with_title (t : str) (l : list entry) : list entry :=
  filter (fun e => str_eqb (en_title e) t) l.

(** Labels and texts are put beside each other if the labels take at most 29 columns and
    the longest label and the longest text fit on a line. *)
Definition longest (f : entry -> str) (l : list entry) : nat := list_max (map (fun e => length (f e)) l).
Definition label_column (l : list entry) : nat := longest en_label l + 3.
Definition side_by_side (width : nat) (l : list entry) : bool :=
  (label_column l <=? 32) && (label_column l + longest en_text l <=? width).

Definition entry_pieces (beside : bool) (e : entry) : list piece :=
  Words (en_label e) ::
  match en_text e with
  | [] => []
  | s => [if beside then Space else EndLine; Words s]
  end ++ [EndLine].

Definition section_pieces (beside : bool) (l : list entry) (title : str) : list piece :=
  [Words title; EndLine] ++ concat (map (entry_pieces beside) (with_title title l)).

Definition section_blocks (width : nat) (l : list entry) : list (list piece) :=
  map (section_pieces (side_by_side width l) l) (titles l).

(** ** Help and error texts *)

Definition text_block (t : option str) : list (list piece) :=
  match t with
  | Some (c :: s) => [text_pieces (c :: s)]
  | _ => []
  end.

(** The text ABOUT or, if that is missing or empty, HELP. *)
Definition about_block (c : cmd_data) : list (list piece) :=
  match text_block (find_text (c_texts c) TX_ABOUT) with
  | [] => text_block (find_text (c_texts c) TX_HELP)
  | b => b
  end.

(** The blocks have an empty line between them; there is one before the final text
    even if there is nothing else. *)
Definition help_doc (width : nat) (c : cmd_data) : list piece :=
  join [EndLine]
    (text_block (find_text (c_texts c) TX_INITIAL_TEXT) ++ usage_block width c ++
     about_block c ++ section_blocks width (entries c)) ++
  concat (map (fun b => EndLine :: b) (text_block (find_text (c_texts c) TX_FINAL_TEXT))).

Definition error_doc (width : nat) (c : cmd_data) (msg : str) : list piece :=
  [Words (c_full_name c ++ $": "); Words msg; EndLine] ++
  concat match find_text (c_texts c) TX_ERROR_USAGE with
         | None => usage_block width c
         | t => text_block t
         end.

(** The name of an argument or the flags of an option, by the id that it has got. *)
Definition item_name (c : cmd_data) (id : N) : str :=
  hd [] (map a_name (filter (fun a => (a_argument_id a =? id)%N) (c_arguments c)) ++
         map (fun o => join ($", ") (o_flags o)) (filter (fun o => (o_argument_id o =? id)%N) (c_options c))).

(** ** Conditions *)

Definition help_width (console : nat) (d : parser_data) : nat :=
  if (d_line_width d =? 0)%N then console else N.to_nat (d_line_width d).

(** No line of the usage ends with CR. *)
Definition labels_ok (c : cmd_data) : Prop :=
  (forall o, In o (c_options c) -> vis_usage (o_visibility o) = true -> last_char (usage_label o) <> Some c_cr) /\
  (forall a, In a (c_arguments c) -> vis_usage (a_visibility a) = true -> last_char (argument_label a) <> Some c_cr).

(** The counts and the flags are as the API makes them. *)
Definition shapes_ok (c : cmd_data) : Prop :=
  (forall a, In a (c_arguments c) -> (a_min a <= a_max a)%N) /\
  (forall o, In o (c_options c) -> hd [] (o_flags o) <> []).

(** The width can be used and the rules are accepted. *)
Definition help_ok (console : nat) (d : parser_data) : Prop :=
  2 < console /\ 2 < help_width console d /\ utf8_rules (d_word_rules d) /\
  forall r, In r (d_word_rules d) -> ~ bad_rule r.

(** Nothing but ends of lines is missing at the end. *)
Definition complete (out : str) : Prop := out = [] \/ last_char out = Some c_lf.

(** The minimal count of every argument is at most its maximal count. *)
Definition counts_ok (c : cmd_data) : Prop :=
  forall d a, within c d -> In a (c_arguments d) -> (a_min a <= a_max a)%N.

(** The names and texts of a command are UTF-8. *)
Definition utf8 (s : str) : Prop := exists n, utf8_text s n.
Definition utf8_command (c : cmd_data) : Prop :=
  utf8 (c_full_name c) /\
  (forall id s, find_text (c_texts c) id = Some s -> utf8 s) /\
  (forall o, In o (c_options c) -> utf8 (o_argument o) /\ utf8 (o_help o) /\ utf8 (o_section o) /\
     forall f, In f (o_flags o) -> utf8 f) /\
  (forall a, In a (c_arguments c) -> utf8 (a_name a) /\ utf8 (a_help a) /\ utf8 (a_section a)) /\
  (forall d, In d (c_commands c) -> utf8 (c_name d) /\ utf8 (c_section d) /\
     forall s, find_text (c_texts d) TX_HELP = Some s -> utf8 s).

(** The command without its hidden items. *)
Definition shown_item (v : visibility) : bool := vis_usage v || vis_text v.
Definition without_hidden (c : cmd_data) : cmd_data :=
  mk_cmd (filter (fun a => shown_item (a_visibility a)) (c_arguments c))
    (filter (fun o => shown_item (o_visibility o)) (c_options c))
    (filter (fun d => shown_item (c_visibility d)) (c_commands c))
    (c_current_section c) (c_name c) (c_full_name c) (c_texts c) (c_visibility c) (c_require c)
    (c_multi c) (c_section c) (c_argument_id c) (c_index c).

(** The texts of the pieces. *)
Definition piece_text (p : piece) : str := match p with Words s | Lines s => s | _ => [] end.
Definition doc_text (d : list piece) : str := concat (map piece_text d).

(** ** The exact text *)

(** The lines of the help text if it does not have to be reflowed. *)
Definition commands_text (c : cmd_data) : list str :=
  match c_commands c with
  | [] => []
  | _ =>
      let names := join ($"|") (map c_name (usage_commands c)) in
      match c_require c with
      | Some true => match usage_commands c with [] => [] | _ => [names] end
      | _ => [bracketed names]
      end
  end.

Definition usage_lines (c : cmd_data) : list str :=
  map (fun o => $"  " ++ c_full_name c ++ $" " ++ usage_label o) (usage_options true c) ++
  [$"  " ++ join ($" ") (c_full_name c :: map usage_label (usage_options false c) ++
                         map argument_label (usage_arguments c) ++ commands_text c)].

Definition title_lines (t : option str) (default : str) : list str :=
  match t with None => [default] | Some [] => [] | Some s => [s] end.

Definition usage_part (c : cmd_data) : list (list str) :=
  match find_text (c_texts c) TX_USAGE with
  | Some [] => []
  | t => [title_lines (find_text (c_texts c) TX_USAGE_TITLE) ($"USAGE") ++
          match t with Some s => [s] | None => usage_lines c end]
  end.

(** Labels are indented by two columns. Texts begin in the label column or are put on a
    line of their own, indented by eight columns. *)
Definition entry_lines (width : nat) (l : list entry) (e : entry) : list str :=
  let label := $"  " ++ en_label e in
  match en_text e with
  | [] => [label]
  | s => if side_by_side width l
         then [label ++ blanks (label_column l - length label) ++ s]
         else [label; blanks 8 ++ s]
  end.

Definition section_parts (width : nat) (l : list entry) : list (list str) :=
  map (fun t => t :: concat (map (entry_lines width l) (with_title t l))) (titles l).

Definition text_part (t : option str) : list (list str) :=
  match t with
  | Some (c :: s) => [[c :: s]]
  | _ => []
  end.

Definition about_part (c : cmd_data) : list (list str) :=
  match text_part (find_text (c_texts c) TX_ABOUT) with
  | [] => text_part (find_text (c_texts c) TX_HELP)
  | b => b
  end.

Definition help_lines (width : nat) (c : cmd_data) : list str :=
  join [[]] (text_part (find_text (c_texts c) TX_INITIAL_TEXT) ++ usage_part c ++ about_part c ++
             section_parts width (entries c)) ++
  concat (map (fun b => [] :: b) (text_part (find_text (c_texts c) TX_FINAL_TEXT))).

Definition error_lines (width : nat) (c : cmd_data) (msg : str) : list str :=
  [c_full_name c ++ $": " ++ msg] ++
  concat match find_text (c_texts c) TX_ERROR_USAGE with
         | None => usage_part c
         | t => text_part t
         end.

Definition text_of_lines (l : list str) : str := concat (map (fun x => x ++ [c_lf]) l).

(** Printable ASCII characters without blanks at the ends and without list markers. *)
Definition plain (s : str) : Prop :=
  s <> [] /\ (forall c, In c s -> 32 <= nat_of_ascii c <= 126) /\
  hd c_space s <> c_space /\ last_char s <> Some c_space /\ ~ has_marker s.

(** The names, labels and texts are plain. *)
Definition plain_usage (c : cmd_data) : Prop :=
  plain (c_full_name c) /\
  (forall id s, In id [TX_USAGE_TITLE; TX_USAGE; TX_ERROR_USAGE] -> find_text (c_texts c) id = Some s -> s <> [] -> plain s) /\
  (forall o, In o (c_options c) -> vis_usage (o_visibility o) = true -> plain (usage_label o)) /\
  (forall a, In a (c_arguments c) -> vis_usage (a_visibility a) = true -> plain (argument_label a)) /\
  (forall d, In d (c_commands c) -> vis_usage (c_visibility d) = true -> plain (c_name d)).

Definition plain_help (c : cmd_data) : Prop :=
  plain_usage c /\
  (forall id s, In id [TX_INITIAL_TEXT; TX_ABOUT; TX_HELP; TX_FINAL_TEXT] ->
     find_text (c_texts c) id = Some s -> s <> [] -> plain s) /\
  (forall e, In e (entries c) -> plain (en_title e) /\ plain (en_label e) /\ (en_text e <> [] -> plain (en_text e))).

Definition fits (width : nat) (l : list str) : Prop := forall x, In x l -> length x <= width.
