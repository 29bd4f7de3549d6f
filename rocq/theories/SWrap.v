(** Specification of how text is put on lines (C78). Nothing of the model is used. *)
From Verif Require Import Base SStrings SText SFormat.

Definition hyphen_of (h : option ascii) : str := match h with Some c => [c] | None => [] end.

Section Wrap.
(** The rules for splitting words and the number of columns of a line. *)
Variables (rules : list str) (width : nat).

(** ** Where a word can be broken *)

(** The rule for [word] lets its rest [s] (what comes after [before]) be broken into [w]
    and [r], and [w] has room with its hyphen. *)
Definition usable (word before s : str) (room : nat) (w : str) (h : option ascii) (r : str) : Prop :=
  exists rule, first_rule rules word rule /\ w ++ r = s /\ 1 < length w /\
    rule_break rule (length before + length w) h /\ fits w h room.

(** [w] is the longest such part. *)
Definition by_rule (word before s : str) (room : nat) (w : str) (h : option ascii) (r : str) : Prop :=
  usable word before s room w h r /\
  forall w' h' r', usable word before s room w' h' r' -> length w' <= length w.

Definition no_rule (word before s : str) (room : nat) : Prop :=
  forall w h r, ~ usable word before s room w h r.

(** The break of a text for which there is no rule: at the last good place that leaves a
    column free and uses at least a third of the room, or else before the last column,
    with a hyphen. *)
Definition by_default (s : str) (room : nat) (w : str) (h : option ascii) (r : str) : Prop :=
  w ++ r = s /\ exists i, utf8_text w i /\
    ((i = room - 1 /\ h = Some c_dash /\
      forall v u j h', v ++ u = s -> utf8_text v j -> room <= 3 * j -> j < room - 1 ->
        ~ good_place s (length v) h') \/
     (room <= 3 * i /\ i < room - 1 /\ good_place s (length w) h /\
      forall v u j h', v ++ u = s -> utf8_text v j -> i < j < room - 1 ->
        ~ good_place s (length v) h')).

(** ** Words *)

(** [put indent word fresh col gap before s out e]: the rest [s] of [word] is written with
    [gap] blanks in front of it in column [col] of a line that is empty ([fresh]) or not.
    New lines are indented by [indent]. The output is [out], and [e] is the column at its
    end. *)
Inductive put (indent : nat) (word : str) : bool -> nat -> nat -> str -> str -> str -> nat -> Prop :=
| put_fits : forall fresh col gap before s n, utf8_text s n -> col + gap + n <= width ->
    put indent word fresh col gap before s (blanks gap ++ s) (col + gap + n)
| put_rule : forall fresh col gap before s n w h r out e, utf8_text s n -> width < col + gap + n ->
    by_rule word before s (width - (col + gap)) w h r ->
    put indent word true 0 indent (before ++ w) r out e ->
    put indent word fresh col gap before s (blanks gap ++ w ++ hyphen_of h ++ c_lf :: out) e
| put_next : forall col gap before s n out e, utf8_text s n -> width < col + gap + n ->
    no_rule word before s (width - (col + gap)) ->
    put indent word true 0 indent before s out e ->
    put indent word false col gap before s (c_lf :: out) e
| put_break : forall col gap before s n w h r out e, utf8_text s n -> width < col + gap + n ->
    no_rule word before s (width - (col + gap)) -> 2 < width - (col + gap) ->
    by_default s (width - (col + gap)) w h r ->
    put indent word true 0 indent (before ++ w) r out e ->
    put indent word true col gap before s (blanks gap ++ w ++ hyphen_of h ++ c_lf :: out) e
| put_over : forall col gap before s n, utf8_text s n -> width < col + gap + n ->
    no_rule word before s (width - (col + gap)) -> width - (col + gap) <= 2 ->
    put indent word true col gap before s (blanks gap ++ s) (col + gap + n).

(** What separates two words: spaces, or a tab, which goes to the next multiple of 4. *)
Inductive gap := Spaces (n : nat) | Tab.

Definition gap_text (g : gap) : str := match g with Spaces n => blanks n | Tab => [c_tab] end.

Definition gap_width (col : nat) (g : gap) : nat :=
  match g with Spaces n => n | Tab => 4 - col mod 4 end.

(** More words on a line that is not empty. *)
Inductive put_words (indent : nat) : nat -> list (gap * str) -> str -> nat -> Prop :=
| pw_nil : forall col, put_words indent col [] [] col
| pw_cons : forall col g word l out e out' e',
    put indent word false col (gap_width col g) [] word out e ->
    put_words indent e l out' e' ->
    put_words indent col ((g, word) :: l) (out ++ out') e'.

(** ** Lines *)

(** A line of the text: an empty one, or possibly a gap, possibly a list marker and a gap,
    and one or more words. *)
Inductive text_line :=
| Empty
| Line (lead : option gap) (marker : option (str * gap)) (word : str) (more : list (gap * str)).

Definition more_text (l : list (gap * str)) : str :=
  concat (map (fun x => gap_text (fst x) ++ snd x) l).

Definition line_text (l : text_line) : str :=
  match l with
  | Empty => []
  | Line lead marker word more =>
      match lead with Some g => gap_text g | None => [] end ++
      match marker with Some (m, g) => m ++ gap_text g | None => [] end ++
      word ++ more_text more
  end.

Definition good_gap (g : gap) : Prop := match g with Spaces n => 0 < n | Tab => True end.

Definition good_word (word : str) : Prop :=
  word <> [] /\ (forall c, In c word -> is_white c = false) /\ exists n, utf8_text word n.

Definition good_line (l : text_line) : Prop :=
  match l with
  | Empty => True
  | Line lead marker word more =>
      match lead with Some g => good_gap g | None => True end /\
      match marker with Some (m, g) => is_marker m /\ good_gap g | None => ~ is_marker word end /\
      good_word word /\ forall g w, In (g, w) more -> good_gap g /\ good_word w
  end.

(** New lines begin in the given column if the line has such a column. *)
Definition hung (base col : nat) : nat := if col <? width then col else base.

(** The line is written where lines begin in column [base]: what wraps is aligned with
    the first word of the line. *)
Inductive put_line (base : nat) : text_line -> str -> Prop :=
| pl_empty : put_line base Empty []
| pl_line : forall lead word more indent out e out' e',
    indent = match lead with Some g => hung base (base + gap_width base g) | None => base end ->
    put indent word true 0 indent [] word out e ->
    put_words indent e more out' e' ->
    put_line base (Line lead None word more) (out ++ out')
| pl_marker : forall lead m g word more indent hang out0 e0 out e out' e',
    indent = match lead with Some g => hung base (base + gap_width base g) | None => base end ->
    put indent m true 0 indent [] m out0 e0 ->
    hang = hung base (e0 + gap_width e0 g) ->
    put hang word false e0 (hang - e0) [] word out e ->
    put_words hang e more out' e' ->
    put_line base (Line lead (Some (m, g)) word more) (out0 ++ out ++ out').

(** ** Text *)

Fixpoint text_of (l : list text_line) : str :=
  match l with
  | [] => []
  | [x] => line_text x
  | x :: l' => line_text x ++ c_lf :: text_of l'
  end.

Inductive put_text (base : nat) : list text_line -> str -> Prop :=
| pt_one : forall x out, put_line base x out -> put_text base [x] out
| pt_more : forall x l out out', put_line base x out -> put_text base l out' ->
    put_text base (x :: l) (out ++ c_lf :: out').

(** The text is written on a line that is not empty: in column [col], with a gap in front of
    it. *)
Inductive put_beside (base col gap : nat) : list text_line -> str -> Prop :=
| pb_one : forall word more out e out' e',
    put base word false col gap [] word out e -> put_words base e more out' e' ->
    put_beside base col gap [Line None None word more] (out ++ out')
| pb_more : forall word more l out e out' e' rest,
    put base word false col gap [] word out e -> put_words base e more out' e' ->
    put_text base l rest ->
    put_beside base col gap (Line None None word more :: l) (out ++ out' ++ c_lf :: rest).
End Wrap.

Definition good_beside (ls : list text_line) : Prop :=
  match ls with
  | Line None None word more :: l =>
      good_word word /\ (forall g w, In (g, w) more -> good_gap g /\ good_word w) /\
      forall x, In x l -> good_line x
  | _ => False
  end.

(** No rule ends with a space. *)
Definition trimmed_rules (rules : list str) : Prop := forall r, In r rules -> last_char r <> Some c_space.

(** A paragraph of words of known widths, with spaces between them: as many words as there is
    room for on every line. *)
Fixpoint fill (width indent col : nat) (l : list (nat * str * nat)) : str :=
  match l with
  | [] => []
  | (k, w, n) :: l' =>
      if col + k + n <=? width then blanks k ++ w ++ fill width indent (col + k + n) l'
      else c_lf :: blanks indent ++ w ++ fill width indent (indent + n) l'
  end.

Definition paragraph (word : str) (l : list (nat * str * nat)) : str :=
  word ++ concat (map (fun x => blanks (fst (fst x)) ++ snd (fst x)) l).

(** A word without a rule that has room on a line of its own. *)
Definition short_word (rules : list str) (room : nat) (word : str) (n : nat) : Prop :=
  word <> [] /\ (forall c, In c word -> is_white c = false) /\ utf8_text word n /\ n <= room /\
  forall r, In r rules -> ~ rule_for r word.
