(** Specification of formatted text (C48, C49, C51). Of the model only the type of
    calls ([text_op]) is used. *)
From Verif Require Import Base MText SStrings SText.

(** ** Text *)

Definition is_white (c : ascii) : bool :=
  Ascii.eqb c c_space || Ascii.eqb c c_tab || Ascii.eqb c c_cr || Ascii.eqb c c_lf.

(** CR LF and CR are line feeds. *)
Fixpoint unix (s : str) : str :=
  match s with
  | [] => []
  | c :: s' =>
      if Ascii.eqb c c_cr
      then c_lf :: match s' with
                   | [] => []
                   | d :: s'' => if Ascii.eqb d c_lf then unix s'' else unix s'
                   end
      else c :: unix s'
  end.

(** What is to be written: characters that must be written as they are, gaps between
    words, ends of lines, and places where there may be a gap. *)
Inductive item := Solid (c : ascii) | Blank | Break | Maybe.

Definition word_item (c : ascii) : item :=
  if Ascii.eqb c c_lf then Break
  else if Ascii.eqb c c_space || Ascii.eqb c c_tab then Blank
  else Solid c.

Definition line_item (c : ascii) : item := if Ascii.eqb c c_lf then Break else Solid c.

Definition op_items (o : text_op) : list item :=
  match o with
  | OpWords t => map word_item (unix t)
  | OpLines t => map line_item (unix t)
  | OpNewline => [Break]
  | OpPush _ | OpPop => [Maybe]
  end.

Definition ops_items (l : list text_op) : list item := concat (map op_items l).

(** ** Layout *)

(** Where the writing is: inside of a word, in a gap, inside of a word that has been
    continued on a new line, or at a place where there may be a gap. *)
Inductive place := Inside | Gap | Wrapped | Either.

Definition blanks (n : nat) : str := repeat c_space n.

Definition at_line_start (o : str) : Prop := o = [] \/ last_char o = Some c_lf.

(** [layout glue t o p]: the output [o] is a layout of [t].
    - Solid characters are written in order. There is nothing between the characters of
      a word, there is at least a blank or a new line for every gap, and blanks are
      only written in front of a character. If [glue] is true, a gap can get lost.
    - A gap can become a new line, unless that would make an empty line.
    - A word can be continued on a new line, with or without a hyphen at the break.
    - Every end of a line in the text is one in the output. *)
Inductive layout (glue : Prop) : list item -> str -> place -> Prop :=
| lay_nil : layout glue [] [] Gap
| lay_solid : forall t o p k c, layout glue t o p ->
    (p = Inside -> k = 0) -> (p = Gap -> at_line_start o \/ 0 < k \/ glue) ->
    layout glue (t ++ [Solid c]) (o ++ blanks k ++ [c]) Inside
| lay_blank : forall t o p, layout glue t o p -> layout glue (t ++ [Blank]) o Gap
| lay_break : forall t o p, layout glue t o p -> layout glue (t ++ [Break]) (o ++ [c_lf]) Gap
| lay_maybe : forall t o p, layout glue t o p -> layout glue (t ++ [Maybe]) o Either
| lay_line : forall t o p, layout glue t o p -> p = Gap \/ p = Either -> ~ at_line_start o ->
    layout glue t (o ++ [c_lf]) p
| lay_wrap : forall t o h, layout glue t o Inside -> h = [] \/ h = [c_dash] ->
    layout glue t (o ++ h ++ [c_lf]) Wrapped.

(** Markers of list items. *)
Definition is_marker (m : str) : Prop :=
  m = [c_dash] \/ m = ["*"%char] \/
  exists d, m = d ++ ["."%char] /\ d <> [] /\
    forall c, In c d -> 48 <= nat_of_ascii c <= 57.

(** The text has a marker as one of its words. *)
Definition has_marker (s : str) : Prop :=
  exists a m b, s = a ++ m ++ b /\ is_marker m /\
    (a = [] \/ exists a' c, a = a' ++ [c] /\ is_white c = true) /\
    (b = [] \/ exists c b', b = c :: b' /\ is_white c = true).

Definition ops_marker (l : list text_op) : Prop := exists s, In (OpWords s) l /\ has_marker s.

(** ** The characters that are not white space *)

Definition visible (s : str) : str := filter (fun c => negb (is_white c)) s.

(** [reflowed t o]: [o] has the characters of [t] in the same order, apart from white
    space and hyphens at ends of lines that have been added. *)
Inductive reflowed : str -> str -> Prop :=
| rf_nil : reflowed [] []
| rf_same : forall c t o, reflowed t o -> reflowed (c :: t) (c :: o)
| rf_white : forall c t o, is_white c = true -> reflowed t o -> reflowed t (c :: o)
| rf_hyphen : forall t o, reflowed t o -> reflowed t (c_dash :: c_lf :: o).

Definition op_text (o : text_op) : str :=
  match o with OpWords t | OpLines t => t | _ => [] end.
Definition ops_text (l : list text_op) : str := concat (map op_text l).

(** ** Width *)

(** The lines of a text. *)
Fixpoint lines_of (s : str) : list str :=
  match s with
  | [] => [[]]
  | c :: s' =>
      if Ascii.eqb c c_lf then [] :: lines_of s'
      else match lines_of s' with
           | [] => [[c]]
           | l :: ls => (c :: l) :: ls
           end
  end.

(** A line of at most [width] code points. *)
Definition narrow (width : nat) (line : str) : Prop := exists n, utf8_text line n /\ n <= width.

(** A line that is indented so that there are one or two columns left. *)
Definition squeezed (width : nat) (line : str) : Prop :=
  exists k piece, line = blanks k ++ piece /\ k < width <= k + 2.

Definition op_utf8 (o : text_op) : Prop := exists n, utf8_text (op_text o) n.

(** ** Indentation *)

(** No line begins with a tab and more blanks, or with spaces and a tab. *)
Definition simple_indents (s : str) : Prop :=
  forall a l b, s = a ++ l ++ b ->
    (a = [] \/ exists a' c, a = a' ++ [c] /\ (c = c_lf \/ c = c_cr)) ->
    (forall c, In c l -> c = c_space \/ c = c_tab) ->
    l = [c_tab] \/ (forall c, In c l -> c = c_space).

(** Every [OpPop] has an [OpPush] before it; [n] is the number of those that are open. *)
Fixpoint balanced (n : nat) (l : list text_op) : Prop :=
  match l with
  | [] => True
  | OpPush _ :: l' => balanced (S n) l'
  | OpPop :: l' => match n with O => False | S m => balanced m l' end
  | _ :: l' => balanced n l'
  end.
