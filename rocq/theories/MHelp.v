(** Model of HelpText.cpp in src/Argos. No proofs in this file.

    Simplifications: widths are natural numbers (as in MText.v); a text that is given as
    a callback is the text that the callback returns, which is the same at each call;
    the output stream is the list of bytes written to it. *)
From Verif Require Import Base MStrings MData MText.

(* ------------------------------------------------------------------------ *)
(** ** Sequences of calls of the formatter *)

Definition fstep := formatter -> tres formatter.
Definition skip : fstep := fun f => TOk f.
Definition then_ (a b : fstep) : fstep := fun f => tbind (a f) b.
Infix ";>" := then_ (at level 61, right associativity).
Definition when (b : bool) (a : fstep) : fstep := if b then a else skip.
Fixpoint for_each {A} (g : A -> fstep) (l : list A) : fstep :=
  match l with
  | [] => skip
  | x :: l' => g x ;> for_each g l'
  end.
Definition new_line : fstep := fun f => TOk (newline f).
Definition push (n : option nat) : fstep := fun f => TOk (push_indentation n f).

(* ------------------------------------------------------------------------ *)
(** ** Names *)

Definition starts_with_char (c : ascii) (s : str) : bool :=
  match s with x :: _ => Ascii.eqb x c | [] => false end.

Definition between_angles (s : str) : str := $"<" ++ s ++ $">".

(** HelpText.cpp 28-34: the loop of [get_argument_name]. *)
Fixpoint repeat_name (n : nat) (name result : str) : str :=
  match n with
  | O => result
  | S m => repeat_name m name
             ((if is_empty result then result else result ++ $" ") ++ between_angles name)
  end.

(** HelpText.cpp 23-46, [get_argument_name]. The maximum is not less than the minimum
    (Argument.cpp 125-145). *)
Definition get_argument_name (a : arg_data) : str :=
  if starts_with_char "<" (a_name a) || starts_with_char "[" (a_name a) then a_name a
  else
    let result := repeat_name (N.to_nat (a_min a)) (a_name a) [] in
    if (a_max a =? a_min a)%N then result
    else
      let result' := if is_empty result then result else result ++ $" " in
      if (a_max a - a_min a =? 1)%N
      then result' ++ $"[<" ++ a_name a ++ $">]"
      else result' ++ $"[<" ++ a_name a ++ $">]...".

(** HelpText.cpp 48-53, [is_stop_option]. *)
Definition is_stop_option (t : option_type) : bool :=
  match t with OT_HELP | OT_STOP | OT_EXIT => true | _ => false end.

(** HelpText.cpp 77-91 and 105-119: what is appended to [flag]. *)
Definition option_argument (flag argument : str) : str :=
  if is_empty argument then []
  else (if match last_char flag with Some c => Ascii.eqb c c_eq | None => false end then [] else $" ")
       ++ (if starts_with_char "<" argument then argument else between_angles argument).

(** HelpText.cpp 55-95, [get_brief_option_name]. An option has at least one flag. *)
Definition get_brief_option_name (o : opt_data) (prefer_long_flag : bool) : str :=
  let braces := o_optional o && negb (is_stop_option (o_type o)) in
  let first := match o_flags o with f :: _ => f | [] => [] end in
  let long := if prefer_long_flag
              then match find (fun s => 2 <? length s) (o_flags o) with Some s => s | None => [] end
              else [] in
  let flag := if is_empty long then first else long in
  (if braces then $"[" else []) ++ flag ++ option_argument flag (o_argument o)
  ++ (if braces then $"]" else []).

(** HelpText.cpp 100-120: the loop of [get_long_option_name]. *)
Fixpoint long_name_loop (flags : list str) (argument opt_txt : str) : str :=
  match flags with
  | [] => opt_txt
  | flag :: r => long_name_loop r argument
      ((if is_empty opt_txt then opt_txt else opt_txt ++ $", ") ++ flag ++ option_argument flag argument)
  end.

(** HelpText.cpp 97-122, [get_long_option_name]. *)
Definition get_long_option_name (o : opt_data) : str := long_name_loop (o_flags o) (o_argument o) [].

(* ------------------------------------------------------------------------ *)
(** ** Texts *)

(** HelpText.cpp 124-133, [get_custom_text]. *)
Definition get_custom_text (c : cmd_data) (id : text_id) : option str :=
  find_text (c_texts c) id.

(** HelpText.cpp 135-138, [is_empty]. *)
Definition no_text (t : option str) : bool :=
  match t with Some s => is_empty s | None => true end.

(** HelpText.cpp 152-153. *)
Definition end_line : fstep := fun f => if is_line_empty (f_writer f) then TOk f else new_line f.

(** HelpText.cpp 140-156, [write_custom_text]; its result is [get_custom_text]. *)
Definition write_custom_text (c : cmd_data) (id : text_id) (prepend_newline : bool) : fstep :=
  match get_custom_text c id with
  | Some text => if is_empty text then skip
                 else when prepend_newline new_line ;> write_words text ;> end_line
  | None => skip
  end.

(* ------------------------------------------------------------------------ *)
(** ** Usage *)

(** HelpText.cpp 158-177, [write_stop_and_help_usage]. *)
Definition write_stop_and_help_usage (c : cmd_data) : fstep :=
  for_each (fun o =>
    if negb (vis_usage (o_visibility o)) || negb (is_stop_option (o_type o)) then skip
    else write_words (c_full_name c) ;> write_words ($" ") ;> push None ;>
         write_lines (get_brief_option_name o true) ;> write_words ($" ") ;>
         pop_indentation ;> new_line) (c_options c).

(** HelpText.cpp 308-322, [write_brief_regular_options]. *)
Definition write_brief_regular_options (c : cmd_data) : fstep :=
  for_each (fun o =>
    if negb (vis_usage (o_visibility o)) || is_stop_option (o_type o) then skip
    else write_lines (get_brief_option_name o false) ;> write_words ($" ")) (c_options c).

(** HelpText.cpp 324-334, [write_brief_arguments]. *)
Definition write_brief_arguments (c : cmd_data) : fstep :=
  for_each (fun a =>
    if negb (vis_usage (a_visibility a)) then skip
    else write_lines (get_argument_name a) ;> write_words ($" ")) (c_arguments c).

(** HelpText.cpp 347-356: the loop of [write_brief_commands]. *)
Fixpoint brief_commands_loop (first_command : bool) (l : list cmd_data) : fstep :=
  match l with
  | [] => skip
  | c :: l' =>
      if negb (vis_usage (c_visibility c)) then brief_commands_loop first_command l'
      else when (negb first_command) (write_words ($"|")) ;> write_words (c_name c) ;>
           brief_commands_loop false l'
  end.

(** HelpText.cpp 336-360, [write_brief_commands]. *)
Definition write_brief_commands (c : cmd_data) : fstep :=
  if is_empty (c_commands c) then skip
  else
    let brackets := negb (match c_require c with Some b => b | None => false end) in
    when brackets (write_words ($"[")) ;> brief_commands_loop true (c_commands c) ;>
    when brackets (write_words ($"]")).

(** HelpText.cpp 362-382, [write_brief_usage]. *)
Definition write_brief_usage (c : cmd_data) (prepend_newline : bool) : fstep :=
  when prepend_newline new_line ;> push (Some 2) ;>
  write_stop_and_help_usage c ;>
  write_words (c_full_name c) ;> write_words ($" ") ;> push None ;>
  write_brief_regular_options c ;> write_brief_arguments c ;> write_brief_commands c ;>
  pop_indentation ;> new_line ;> pop_indentation.

Definition DEFAULT_USAGE_TITLE : str := $"USAGE".

(** HelpText.cpp 384-413, [write_usage]: what it does and what it returns. *)
Definition write_usage (c : cmd_data) (prepend_newline : bool) : fstep :=
  match get_custom_text c TX_USAGE with
  | Some [] => skip
  | text2 =>
      let text1 := get_custom_text c TX_USAGE_TITLE in
      let prepend :=
        match text1 with
        | None => false
        | Some _ => prepend_newline && no_text text1
        end in
      write_custom_text c TX_USAGE_TITLE prepend_newline ;>
      match text1 with
      | None => when prepend_newline new_line ;> write_words DEFAULT_USAGE_TITLE ;> new_line
      | Some _ => skip
      end ;>
      write_custom_text c TX_USAGE prepend ;>
      match text2 with
      | Some _ => skip
      | None => write_brief_usage c prepend
      end
  end.
Definition usage_result (c : cmd_data) : bool :=
  match get_custom_text c TX_USAGE with
  | Some [] => false
  | Some t => negb (no_text (get_custom_text c TX_USAGE_TITLE)) || negb (is_empty t)
  | None => true
  end.

(* ------------------------------------------------------------------------ *)
(** ** Sections *)

(** HelpText.cpp 179-181: a section's title and its names and texts. *)
Definition section_texts := (str * list (str * str))%type.

(** HelpText.cpp 217-230, [add_help_text]. *)
Fixpoint add_help_text (s a b : str) (sections : list section_texts) : list section_texts :=
  match sections with
  | [] => [(s, [(a, b)])]
  | (t, l) :: r => if str_eqb t s then (t, l ++ [(a, b)]) :: r else (t, l) :: add_help_text s a b r
  end.

Definition text_or (t : option str) (default : str) : str :=
  match t with Some s => s | None => default end.

(** HelpText.cpp 240, 253 and 266. *)
Definition section_or (section title : str) : str := if is_empty section then title else section.

(** HelpText.cpp 232-242. *)
Definition add_arguments (c : cmd_data) (sections : list section_texts) : list section_texts :=
  let title := text_or (get_custom_text c TX_ARGUMENTS_TITLE) ($"ARGUMENTS") in
  fold_left (fun s a =>
    if negb (vis_text (a_visibility a)) then s
    else add_help_text (section_or (a_section a) title) (get_argument_name a) (a_help a) s)
    (c_arguments c) sections.

(** HelpText.cpp 244-256. *)
Definition add_commands (c : cmd_data) (sections : list section_texts) : list section_texts :=
  let title := text_or (get_custom_text c TX_SUBCOMMANDS_TITLE) ($"COMMANDS") in
  fold_left (fun s x =>
    if negb (vis_text (c_visibility x)) then s
    else add_help_text (section_or (c_section x) title) (c_name x)
           (text_or (get_custom_text x TX_HELP) []) s)
    (c_commands c) sections.

(** HelpText.cpp 258-268. *)
Definition add_options (c : cmd_data) (sections : list section_texts) : list section_texts :=
  let title := text_or (get_custom_text c TX_OPTIONS_TITLE) ($"OPTIONS") in
  fold_left (fun s o =>
    if negb (vis_text (o_visibility o)) then s
    else add_help_text (section_or (o_section o) title) (get_long_option_name o) (o_help o) s)
    (c_options c) sections.

(** HelpText.cpp 183-209, [get_help_text_label_width]; the last element after sorting is
    the maximum. *)
Definition get_help_text_label_width (line_width : nat) (sections : list section_texts) : nat :=
  let texts := concat (map snd sections) in
  let name_width := list_max (map (fun t => length (fst t)) texts) + 3 in
  let text_width := list_max (map (fun t => length (snd t)) texts) in
  if (32 <? name_width) || (line_width <? name_width + text_width) then 0 else name_width.

(** HelpText.cpp 282-302: an item of a section. *)
Definition write_item (name_width : nat) (item : str * str) : fstep :=
  let (name, text) := item in
  write_words name ;>
  when (negb (is_empty text))
    (if negb (name_width =? 0)
     then (fun f => if name_width <=? current_width (f_writer f) then write_words ($"  ") f else TOk f) ;>
          push (Some name_width) ;> write_words text ;> pop_indentation
     else new_line ;> push (Some 8) ;> write_words text ;> pop_indentation) ;>
  new_line.

(** HelpText.cpp 275-305. *)
Fixpoint write_sections (name_width : nat) (prepend_newline : bool) (l : list section_texts) : fstep :=
  match l with
  | [] => skip
  | (section, texts) :: r =>
      when prepend_newline new_line ;> write_words section ;> new_line ;> push (Some 2) ;>
      for_each (write_item name_width) texts ;> pop_indentation ;>
      write_sections name_width true r
  end.

(** HelpText.cpp 211-306, [write_argument_sections]. *)
Definition write_argument_sections (c : cmd_data) (prepend_newline : bool) : fstep :=
  let sections := add_options c (add_commands c (add_arguments c [])) in
  if is_empty sections then skip
  else fun f => write_sections (get_help_text_label_width (w_line_width (f_writer f)) sections)
                  prepend_newline sections f.

(* ------------------------------------------------------------------------ *)
(** ** Help and error texts *)

(** HelpText.cpp 438-443 and 457-464: the formatter. [console] is what
    [get_console_width(32)] returns (ConsoleWidth.cpp 51-57). *)
Definition help_formatter (console : nat) (d : parser_data) : tres formatter :=
  tbind (new_formatter console) (fun f =>
  tbind (if (d_line_width d =? 0)%N then TOk f else set_line_width (N.to_nat (d_line_width d)) f) (fun f1 =>
  tbind (add_words (f_rules f1) (d_word_rules d)) (fun m =>
    TOk (mk_fmt (f_writer f1) (f_indents f1) m (f_state f1))))).

(** HelpText.cpp 436-451, [write_help_text]. The operator || does not evaluate its right
    operand if the left one is true. *)
Definition write_help_text (console : nat) (d : parser_data) (c : cmd_data) : tres formatter :=
  tbind (help_formatter console d) (
    let newline0 := negb (no_text (get_custom_text c TX_INITIAL_TEXT)) in
    let newline1 := usage_result c || newline0 in
    let about := negb (no_text (get_custom_text c TX_ABOUT)) in
    let help := negb (no_text (get_custom_text c TX_HELP)) in
    let newline2 := about || help || newline1 in
    write_custom_text c TX_INITIAL_TEXT false ;>
    write_usage c newline0 ;>
    write_custom_text c TX_ABOUT newline1 ;>
    when (negb about) (write_custom_text c TX_HELP newline1) ;>
    write_argument_sections c newline2 ;>
    write_custom_text c TX_FINAL_TEXT true).

(** HelpText.cpp 453-470, [write_error_message]. *)
Definition write_error_message (console : nat) (d : parser_data) (c : cmd_data) (msg : str) : tres formatter :=
  tbind (help_formatter console d) (
    write_words (c_full_name c ++ $": ") ;> write_words msg ;> new_line ;>
    write_custom_text c TX_ERROR_USAGE false ;>
    match get_custom_text c TX_ERROR_USAGE with
    | Some _ => skip
    | None => write_usage c false
    end).

(** HelpText.cpp 472-481, [write_error_message] for an argument or option. *)
Definition write_argument_error (console : nat) (d : parser_data) (c : cmd_data) (msg : str)
  (argument_id : N) : tres formatter :=
  let name := get_name c argument_id in
  write_error_message console d c (if is_empty name then msg else name ++ $": " ++ msg).
