(** Specification of the exact help texts and error messages, with their line breaks (C79).
    The layout of a single text is that of SWrap.v; what the texts are is defined in
    SHelp.v. *)
From Verif Require Import Base MStrings MData SStrings SText SFormat SWrap SHelp.
Open Scope nat_scope.

(** ** Parts of the output *)

Definition printed := str -> Prop.

Definition nothing : printed := fun out => out = [].
Definition empty_line : printed := fun out => out = [c_lf].
Definition followed (p q : printed) : printed := fun out => exists a b, p a /\ q b /\ out = a ++ b.
Definition in_order (l : list printed) : printed := fold_right followed nothing l.

(** Texts that are put on lines as SWrap.v says. *)
Definition text_lines (s : str) (ls : list text_line) : Prop :=
  ls <> [] /\ (forall l, In l ls -> good_line l) /\ unix s = text_of ls.
Definition side_lines (s : str) (ls : list text_line) : Prop := good_beside ls /\ unix s = text_of ls.
Definition name_words (s word : str) (more : list (gap * str)) : Prop :=
  s = word ++ more_text more /\ good_word word /\ ~ is_marker word /\
  forall g w, In (g, w) more -> good_gap g /\ good_word w.

Definition ends_empty (ls : list text_line) : bool :=
  match last ls Empty with Empty => true | _ => false end.

Section Printed.
Variables (rules : list str) (width : nat).

(** A text; its last line is ended unless it is empty. *)
Definition text_printed (s : str) : printed := fun out =>
  exists ls o, text_lines s ls /\ put_text rules width 0 ls o /\
    out = o ++ if ends_empty ls then [] else [c_lf].

(** A title; its last line is ended in any case. *)
Definition title_printed (s : str) : printed := fun out =>
  exists ls o, text_lines s ls /\ put_text rules width 0 ls o /\ out = o ++ [c_lf].

(** A name in column [base]; [e] is the column behind it. *)
Definition name_printed (base : nat) (s : str) (out : str) (e : nat) : Prop :=
  exists word more o1 e1 o2, name_words s word more /\
    put rules width base word true 0 base [] word o1 e1 /\
    put_words rules width base e1 more o2 e /\ out = o1 ++ o2.

(** ** Usage *)

Definition first_gap (n : nat) (l : list (gap * str)) : list (gap * str) :=
  match l with
  | [] => []
  | (_, w) :: l' => (Spaces n, w) :: l'
  end.

(** A line of the usage: the name of the program or command in column 2, and after it the
    words of the usage. What wraps is aligned with the first one, if there is room. *)
Definition usage_line (name : str) (words : list (gap * str)) : printed := fun out =>
  exists o1 e1 hang o2 e2, name_printed 2 name o1 e1 /\ hang = hung width 2 (e1 + 1) /\
    put_words rules width hang e1 (first_gap (hang - e1) words) o2 e2 /\ out = o1 ++ o2 ++ [c_lf].

(** The names of the sub-commands, with bars between them. A line can end on either side
    of a bar or a bracket. *)
Definition command_words (c : cmd_data) : list (gap * str) :=
  match c_commands c with
  | [] => []
  | _ =>
      let names := join [$"|"] (map (fun d => [c_name d]) (usage_commands c)) in
      match match c_require c with Some true => names | _ => [$"["] ++ names ++ [$"]"] end with
      | [] => []
      | w :: l => (Spaces 1, w) :: map (fun w => (Spaces 0, w)) l
      end
  end.

Definition usage_words (c : cmd_data) : list (gap * str) :=
  map (fun s => (Spaces 1, s)) (map usage_label (usage_options false c) ++ map argument_label (usage_arguments c)) ++
  command_words c.

Definition usage_printed (c : cmd_data) : printed :=
  in_order (map (fun o => usage_line (c_full_name c) [(Spaces 1, usage_label o)]) (usage_options true c) ++
            [usage_line (c_full_name c) (usage_words c)]).

Definition usage_title (t : option str) : printed :=
  match t with
  | None => title_printed ($"USAGE")
  | Some [] => nothing
  | Some s => text_printed s
  end.

Definition usage_parts (c : cmd_data) : list printed :=
  match find_text (c_texts c) TX_USAGE with
  | Some [] => []
  | t => [followed (usage_title (find_text (c_texts c) TX_USAGE_TITLE))
            match t with Some s => text_printed s | None => usage_printed c end]
  end.

(** ** Sections *)

(** An entry: its label in column 2, and its text beside it, at least two columns from it,
    or below it in column 8. *)
Definition entry_printed (l : list entry) (e : entry) : printed := fun out =>
  exists o1 e1, name_printed 2 (en_label e) o1 e1 /\
    match en_text e with
    | [] => out = o1 ++ [c_lf]
    | s => exists ls o2,
        if side_by_side width l
        then side_lines s ls /\
             put_beside rules width (label_column l) e1
               (if label_column l <=? e1 then 2 else label_column l - e1) ls o2 /\
             out = o1 ++ o2 ++ [c_lf]
        else text_lines s ls /\ put_text rules width 8 ls o2 /\ out = o1 ++ [c_lf] ++ o2 ++ [c_lf]
    end.

Definition section_printed (l : list entry) (t : str) : printed :=
  followed (title_printed t) (in_order (map (entry_printed l) (with_title t l))).

(** ** Help and error texts *)

Definition text_parts (t : option str) : list printed :=
  match t with
  | Some (c :: s) => [text_printed (c :: s)]
  | _ => []
  end.

Definition about_parts (c : cmd_data) : list printed :=
  match text_parts (find_text (c_texts c) TX_ABOUT) with
  | [] => text_parts (find_text (c_texts c) TX_HELP)
  | b => b
  end.

(** There is an empty line between the parts, and one before the final text. *)
Definition help_printed (c : cmd_data) : printed :=
  in_order
    (join [empty_line]
       (map (fun p => [p]) (text_parts (find_text (c_texts c) TX_INITIAL_TEXT) ++ usage_parts c ++ about_parts c ++
                            map (section_printed (entries c)) (titles (entries c)))) ++
     concat (map (fun p => [empty_line; p]) (text_parts (find_text (c_texts c) TX_FINAL_TEXT)))).

Definition error_printed (c : cmd_data) (msg : str) : printed :=
  followed
    (fun out => exists o1 e1 ls o2, name_printed 0 (c_full_name c ++ $":") o1 e1 /\ side_lines msg ls /\
       put_beside rules width 0 e1 1 ls o2 /\ out = o1 ++ o2 ++ [c_lf])
    (in_order match find_text (c_texts c) TX_ERROR_USAGE with
              | None => usage_parts c
              | t => text_parts t
              end).
End Printed.

(** ** Conditions *)

Definition good_text (s : str) : Prop := exists ls, text_lines s ls.
Definition good_side (s : str) : Prop := exists ls, side_lines s ls.
Definition good_name (s : str) : Prop := exists word more, name_words s word more.
(** A label in the usage. *)
Definition good_label (s : str) : Prop := s <> [] /\ (forall c, In c s -> c <> c_lf /\ c <> c_cr) /\ utf8 s.

Definition readable_usage (c : cmd_data) : Prop :=
  good_name (c_full_name c) /\
  (forall id s, In id [TX_USAGE_TITLE; TX_USAGE; TX_ERROR_USAGE] -> find_text (c_texts c) id = Some s -> s <> [] -> good_text s) /\
  (forall o, In o (c_options c) -> vis_usage (o_visibility o) = true -> good_label (usage_label o)) /\
  (forall a, In a (c_arguments c) -> vis_usage (a_visibility a) = true -> good_label (argument_label a)) /\
  (forall d, In d (c_commands c) -> vis_usage (c_visibility d) = true -> good_word (c_name d)).

Definition readable_help (width : nat) (c : cmd_data) : Prop :=
  readable_usage c /\
  (forall id s, In id [TX_INITIAL_TEXT; TX_ABOUT; TX_HELP; TX_FINAL_TEXT] ->
     find_text (c_texts c) id = Some s -> s <> [] -> good_text s) /\
  (forall e, In e (entries c) -> good_text (en_title e) /\ good_name (en_label e) /\
     (en_text e <> [] -> if side_by_side width (entries c) then good_side (en_text e) else good_text (en_text e))).

(** ** Texts that meet the conditions *)

(** Words with spaces between them, perhaps with spaces in front of them. *)
Definition spaced (s : str) : Prop :=
  utf8 s /\ (forall c, In c s -> c <> c_tab /\ c <> c_lf /\ c <> c_cr) /\ last_char s <> Some c_space.

(** Not only a list marker. *)
Definition simple_line (l : str) : Prop :=
  l = [] \/ spaced l /\ forall n m, is_marker m -> l <> blanks n ++ m.

Definition simple_text (s : str) : Prop := forall l, In l (lines_of (unix s)) -> simple_line l.

Definition simple_side (s : str) : Prop := forall first rest, lines_of (unix s) = first :: rest ->
  first <> [] /\ spaced first /\ hd c_space first <> c_space /\ forall l, In l rest -> simple_line l.

Definition simple_name (s : str) : Prop :=
  s <> [] /\ spaced s /\ hd c_space s <> c_space /\ forall m r, is_marker m -> s <> m /\ s <> m ++ c_space :: r.
