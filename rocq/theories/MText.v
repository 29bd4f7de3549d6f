(** Model of WordSplitter.{hpp,cpp}, TextWriter.{hpp,cpp} and TextFormatter.{hpp,cpp}
    in src/Argos. No proofs in this file.

    Simplifications: columns and lengths are natural numbers (the code uses [unsigned];
    nothing wraps as long as texts are shorter than 2^32 bytes); the output stream is
    the list of bytes written to it, and writing to it does not fail. *)
From Verif Require Import Base MStrings.

(* ------------------------------------------------------------------------ *)
(** ** Outcomes *)

(** Exceptions: ARGOS_THROW by cause, and what string_view::substr throws. *)
Inductive text_exn :=
| TInvalidRule (rule : str)
| TLineWidth
| TNoIndentation
| TOutOfRange.

(** [TBad] stands for an access outside of a string, [TNoFuel] for a loop that has not
    ended within the given number of rounds. *)
Inductive tres (A : Type) :=
| TOk (a : A)
| TThrows (e : text_exn)
| TBad
| TNoFuel.
Arguments TOk {A}. Arguments TThrows {A}. Arguments TBad {A}. Arguments TNoFuel {A}.

Definition tbind {A B} (x : tres A) (f : A -> tres B) : tres B :=
  match x with
  | TOk a => f a
  | TThrows e => TThrows e
  | TBad => TBad
  | TNoFuel => TNoFuel
  end.

(* ------------------------------------------------------------------------ *)
(** ** WordSplitter *)

(** WordSplitter.hpp 28-32, Split. [None] is the separator '\0'. *)
Record split_point := mk_split { sp_index : nat; sp_separator : option ascii }.

(** WordSplitter.hpp 33-34, [m_splits] (and [m_strings], which holds its keys). *)
Definition splitter := list (str * list split_point).

(** std::map::find. *)
Fixpoint find_rule (m : splitter) (key : str) : option (list split_point) :=
  match m with
  | [] => None
  | (k, v) :: m' => if str_eqb k key then Some v else find_rule m' key
  end.

(** WordSplitter.cpp 35-43: the loop of [add_word] over the spaces. [prev] is
    [word_rule[pos - 1]], if any; [pos] and [offset] as in the code. *)
Fixpoint rule_splits (prev : option ascii) (pos offset : nat) (s : str)
  : option (list split_point) :=
  match s with
  | [] => Some [mk_split (pos - offset) None]
  | c :: s' =>
      if Ascii.eqb c c_space then
        match prev with
        | None => None
        | Some x =>
            if Ascii.eqb x c_space then None
            else match rule_splits (Some c) (S pos) (S offset) s' with
                 | None => None
                 | Some l => Some (mk_split (pos - offset)
                     (if Ascii.eqb x c_dash then None else Some c_dash) :: l)
                 end
        end
      else rule_splits (Some c) (S pos) offset s'
  end.

(** WordSplitter.cpp 31-50, [add_word]. [m_splits.insert] does nothing if the key is
    present. *)
Definition add_word (m : splitter) (rule : str) : tres splitter :=
  match rule_splits None 0 0 rule with
  | None => TThrows (TInvalidRule rule)
  | Some l =>
      let key := to_lower (filter (fun c => negb (Ascii.eqb c c_space)) rule) in
      match find_rule m key with
      | Some _ => TOk m
      | None => TOk (m ++ [(key, l)])
      end
  end.

(** WordSplitter.cpp 52-56, [add_words]. *)
Fixpoint add_words (m : splitter) (rules : list str) : tres splitter :=
  match rules with
  | [] => TOk m
  | r :: rules' => tbind (add_word m r) (fun m' => add_words m' rules')
  end.

(** WordSplitter.cpp 26: the characters in the call of [find_last_not_of]. *)
Definition punctuation : str := $".,;:!?()[]{}<>""'`".

(** WordSplitter.cpp 24-28, [remove_punctuation]; [npos + 1] is 0. *)
Definition remove_punctuation (word : str) : str :=
  match find_last_not_of punctuation word with
  | None => []
  | Some last => firstn (last + 1) word
  end.

(** isalnum and isdigit for characters below 127. *)
Definition isdigit (c : ascii) : bool := ((48 <=? u8 c) && (u8 c <=? 57))%N.
Definition isalnum (c : ascii) : bool :=
  (isdigit c || ((65 <=? u8 c) && (u8 c <=? 90)) || ((97 <=? u8 c) && (u8 c <=? 122)))%N.

(** WordSplitter.cpp 101-105 and 112-116: back to the first byte of a code point. [None]
    is an access outside of the word. *)
Fixpoint skip_back (word : str) (i : nat) : option nat :=
  match nth_error word i with
  | None => None
  | Some c =>
      if is_utf8_continuation c
      then match i with O => None | S j => skip_back word j end
      else Some i
  end.

(** [--index] followed by [skip_back] unless [ignore_utf8]. *)
Definition step_back (ignore_utf8 : bool) (word : str) (i : nat) : option nat :=
  match i with
  | O => None
  | S j => if ignore_utf8 then Some j else skip_back word j
  end.

(** The result of [split] and [default_rule]. *)
Definition word_split := (str * option ascii * str)%type.

(** WordSplitter.cpp 109-123: the loop of [default_rule]. [Some None] is the end of the
    loop. *)
Fixpoint default_loop (ignore_utf8 : bool) (word : str) (min_pos count index : nat)
  : option (option word_split) :=
  match count with
  | O => Some None
  | S c =>
      if min_pos <? S c then
        match step_back ignore_utf8 word index with
        | None => None
        | Some i =>
            match i with
            | O => None
            | S j =>
                match nth_error word j, nth_error word i with
                | Some a, Some b =>
                    if ((127 <=? u8 a) || (127 <=? u8 b))%N
                    then default_loop ignore_utf8 word min_pos c i
                    else if negb (Bool.eqb (isalnum a) (isalnum b))
                    then Some (Some (firstn i word, None, skipn i word))
                    else if negb (Bool.eqb (isdigit a) (isdigit b))
                    then Some (Some (firstn i word, Some c_dash, skipn i word))
                    else default_loop ignore_utf8 word min_pos c i
                | _, _ => None
                end
            end
        end
      else Some None
  end.

(** WordSplitter.cpp 91-129, [default_rule]. *)
Definition default_rule (word : str) (max_length : nat) : tres word_split :=
  if max_length <=? 2 then TOk ([], None, word)
  else
    match find_nth_code_point word max_length with
    | None => TOk (word, None, [])
    | Some max_pos0 =>
        let ignore_utf8 := max_pos0 =? max_length in
        match step_back ignore_utf8 word max_pos0 with
        | None => TBad
        | Some max_pos =>
            match default_loop ignore_utf8 word ((max_length + 2) / 3) (max_length - 1) max_pos with
            | None => TBad
            | Some (Some r) => TOk r
            | Some None => TOk (firstn max_pos word, Some c_dash, skipn max_pos word)
            end
        end
    end.

(** WordSplitter.cpp 68-79: the loop of [split]; [prev] and [length] as in the code. *)
Fixpoint rule_loop (word : str) (start max_length : nat) (prev : split_point) (len : nat)
  (splits : list split_point) : split_point :=
  match splits with
  | [] => prev
  | x :: l =>
      if sp_index x <? start + 1 then rule_loop word start max_length prev len l
      else
        let len' := len + count_code_points
                      (firstn (sp_index x - sp_index prev) (skipn (sp_index prev) word)) in
        if max_length <? len' + (match sp_separator x with Some _ => 1 | None => 0 end) then prev
        else rule_loop word start max_length x len' l
  end.

(** WordSplitter.cpp 58-89, [split]. *)
Definition split (m : splitter) (word : str) (start max_length : nat) (must_split : bool)
  : tres word_split :=
  let key := remove_punctuation word in
  let found := find_rule m (if is_lower key then key else to_lower key) in
  let by_rule :=
    match found with
    | None => None
    | Some splits =>
        let prev := rule_loop word start max_length (mk_split start None) 0 splits in
        if start + 1 <? sp_index prev
        then Some (firstn (sp_index prev - start) (skipn start word), sp_separator prev,
                   skipn (sp_index prev) word)
        else None
    end in
  match by_rule with
  | Some r => TOk r
  | None =>
      if must_split then default_rule (skipn start word) max_length
      else TOk ([], None, word)
  end.

(* ------------------------------------------------------------------------ *)
(** ** TextWriter *)

(** TextWriter.hpp 52-58. [w_out] is what has been written to [m_stream]; the tab
    size is 4. *)
Record writer := mk_writer {
  w_out : str;
  w_line : str;
  w_line_width : nat;
  w_current : nat;
  w_indent : nat;
  w_spaces : nat
}.

(** TextWriter.cpp 15-18, the constructor. *)
Definition new_writer (line_width : nat) : writer := mk_writer [] [] line_width 0 0 0.

(** TextWriter.cpp 36-42, [set_indentation]; the result is not used. *)
Definition set_indentation (indent : nat) (w : writer) : writer :=
  if w_line_width w <=? indent then w
  else mk_writer (w_out w) (w_line w) (w_line_width w) (w_current w) indent (w_spaces w).

(** TextWriter.cpp 86-89, [current_width]. *)
Definition current_width (w : writer) : nat := Nat.max (w_current w) (w_indent w) + w_spaces w.

(** TextWriter.cpp 91-94, [remaining_width]. *)
Definition remaining_width (w : writer) : nat :=
  w_line_width w - Nat.min (current_width w) (w_line_width w).

(** TextWriter.cpp 44-56, [write]. *)
Definition write (s : str) (force : bool) (w : writer) : bool * writer :=
  let width := current_width w in
  let remaining := Nat.max width (w_line_width w) - width in
  let str_width := count_code_points s in
  if negb force && (remaining <? str_width) then (false, w)
  else (true, mk_writer (w_out w)
          (w_line w ++ repeat c_space (width - w_current w) ++ s)
          (w_line_width w)
          (w_current w + (width - w_current w + str_width))
          (w_indent w) 0).

(** TextWriter.cpp 65-69, [flush]. *)
Definition flush_writer (w : writer) : writer :=
  mk_writer (w_out w ++ w_line w) [] (w_line_width w) (w_current w) (w_indent w) (w_spaces w).

(** TextWriter.cpp 58-63, [newline]. *)
Definition writer_newline (w : writer) : writer :=
  flush_writer (mk_writer (w_out w) (w_line w ++ [c_lf]) (w_line_width w) 0 (w_indent w) (w_spaces w)).

(** TextWriter.cpp 81-84, [set_spaces]. *)
Definition set_spaces (n : nat) (w : writer) : writer :=
  mk_writer (w_out w) (w_line w) (w_line_width w) (w_current w) (w_indent w) n.

(** TextWriter.cpp 71-74, [tab]. *)
Definition tab (w : writer) : writer :=
  set_spaces (w_spaces w + (4 - current_width w mod 4)) w.

(** TextWriter.cpp 96-99, [is_current_line_empty]. *)
Definition is_line_empty (w : writer) : bool := is_empty (w_line w).

(* ------------------------------------------------------------------------ *)
(** ** TextFormatter *)

(** TextFormatter.hpp 64-70, State. *)
Inductive align_state := NO_ALIGNMENT | ALIGNMENT | UNALIGNED_MARKER | ALIGNED_MARKER.

(** TextFormatter.hpp 60-71. [f_indents] is [m_indents], the last element first. *)
Record formatter := mk_fmt {
  f_writer : writer;
  f_indents : list nat;
  f_rules : splitter;
  f_state : align_state
}.
Definition on_writer (g : writer -> writer) (f : formatter) : formatter :=
  mk_fmt (g (f_writer f)) (f_indents f) (f_rules f) (f_state f).
Definition set_indents (l : list nat) (f : formatter) : formatter :=
  mk_fmt (f_writer f) l (f_rules f) (f_state f).
Definition set_state (s : align_state) (f : formatter) : formatter :=
  mk_fmt (f_writer f) (f_indents f) (f_rules f) s.

(** TextFormatter.cpp 84-91, the constructor; [width] is what [get_console_width(32)]
    returns or the given line width. *)
Definition new_formatter (width : nat) : tres formatter :=
  if width <=? 2 then TThrows TLineWidth
  else TOk (mk_fmt (new_writer width) [0] [] NO_ALIGNMENT).

(** TextFormatter.cpp 191-196, [set_line_width]. *)
Definition set_line_width (width : nat) (f : formatter) : tres formatter :=
  if width <=? 2 then TThrows TLineWidth
  else TOk (on_writer (fun w => mk_writer (w_out w) (w_line w) width (w_current w)
                                  (w_indent w) (w_spaces w)) f).

(** TextFormatter.cpp 108-117, [push_indentation]; [None] is CURRENT_COLUMN. *)
Definition push_indentation (indent : option nat) (f : formatter) : formatter :=
  match indent with
  | None =>
      let n := current_width (f_writer f) in
      set_indents (n :: f_indents f) (on_writer (fun w => set_indentation n (set_spaces 0 w)) f)
  | Some n => set_indents (n :: f_indents f) (on_writer (set_indentation n) f)
  end.

(** TextFormatter.cpp 119-125, [pop_indentation]. *)
Definition pop_indentation (f : formatter) : tres formatter :=
  match f_indents f with
  | _ :: n :: l => TOk (set_indents (n :: l) (on_writer (set_indentation n) f))
  | _ => TThrows TNoIndentation
  end.

(** TextFormatter.cpp 175-179, [newline]. *)
Definition newline (f : formatter) : formatter :=
  on_writer (fun w => set_spaces 0 (writer_newline w)) f.

(** TextFormatter.cpp 18-30, [next_line]. *)
Definition next_line (text : str) : tres (str * str) :=
  match find_first_of [c_lf; c_cr] text with
  | None => TOk (text, [])
  | Some pos =>
      if match nth_error text pos with Some c => Ascii.eqb c c_lf | None => false end
         || (negb (pos + 1 =? length text) &&
             match nth_error text (pos + 1) with Some c => negb (Ascii.eqb c c_lf) | None => false end)
      then TOk (firstn pos text, skipn (pos + 1) text)
      else if length text <? pos + 2 then TThrows TOutOfRange
      else TOk (firstn pos text, skipn (pos + 2) text)
  end.

(** TextFormatter.cpp 32-59, [next_token]: the kind of token, the token and the rest. *)
Inductive token_kind := TkEnd | TkTab | TkNewline | TkSpace | TkWord.
Definition next_token (text : str) : token_kind * str * str :=
  match text with
  | [] => (TkEnd, text, [])
  | c :: t =>
      if Ascii.eqb c c_tab then (TkTab, [c], t)
      else if Ascii.eqb c c_cr then
        match t with
        | d :: t' => if Ascii.eqb d c_lf then (TkNewline, [c; d], t') else (TkNewline, [c], t)
        | [] => (TkNewline, [c], t)
        end
      else if Ascii.eqb c c_lf then (TkNewline, [c], t)
      else if Ascii.eqb c c_space then
        match find_first_not_of [c_space] text with
        | Some n => (TkSpace, firstn n text, skipn n text)
        | None => (TkSpace, text, [])
        end
      else
        match find_first_of [c_tab; c_cr; c_lf; c_space] text with
        | Some n => (TkWord, firstn n text, skipn n text)
        | None => (TkWord, text, [])
        end
  end.

(** TextFormatter.cpp 61-73, [is_list_marker]. *)
Definition is_list_marker (s : str) : bool :=
  match s with
  | [] => false
  | [c] => Ascii.eqb c c_dash || Ascii.eqb c "*"%char
  | _ => match last_char s with
         | Some c => Ascii.eqb c "."%char && forallb isdigit (removelast s)
         | None => false
         end
  end.

(** TextFormatter.cpp 208-245, [append_word]: the loop, where [remainder] is a suffix
    of [word]. *)
Fixpoint append_loop (fuel : nat) (word remainder : str) (f : formatter) : tres formatter :=
  match fuel with
  | O => TNoFuel
  | S fuel' =>
      let (ok, w1) := write remainder false (f_writer f) in
      if ok then TOk (on_writer (fun _ => w1) f)
      else
        tbind (split (f_rules f) word (length word - length remainder)
                 (remaining_width (f_writer f)) (is_line_empty (f_writer f)))
          (fun r =>
             let '(w, s, r) := r in
             if negb (is_empty w) then
               let f1 := on_writer (fun x => snd (write w false x)) f in
               let f2 := match s with
                         | Some c => on_writer (fun x => snd (write [c] false x)) f1
                         | None => f1
                         end in
               append_loop fuel' word r (newline f2)
             else if is_line_empty (f_writer f) then
               if negb (w_spaces (f_writer f) =? 0)
               then append_loop fuel' word remainder (on_writer (set_spaces 0) f)
               else TOk (on_writer (fun x => snd (write remainder true x)) f)
             else append_loop fuel' word remainder (on_writer (set_spaces 0) (newline f)))
  end.

(** TextFormatter.cpp 208-245, [append_word]. *)
Definition append_word (word : str) (f : formatter) : tres formatter :=
  append_loop (length word + 3) word word f.

(** TextFormatter.cpp 247-261, [begin_alignment]. *)
Definition begin_alignment (f : formatter) : tres formatter :=
  if is_line_empty (f_writer f) || match f_state f with UNALIGNED_MARKER => true | _ => false end
  then TOk (set_state ALIGNMENT (push_indentation None f))
  else match f_state f with
       | ALIGNED_MARKER =>
           tbind (pop_indentation f) (fun f1 => TOk (set_state ALIGNMENT (push_indentation None f1)))
       | _ => TOk f
       end.

(** TextFormatter.cpp 263-271, [update_alignment]. *)
Definition update_alignment (token : str) (f : formatter) : formatter :=
  if is_line_empty (f_writer f) && is_list_marker token
  then set_state (match f_state f with ALIGNMENT => ALIGNED_MARKER | _ => UNALIGNED_MARKER end) f
  else f.

(** TextFormatter.cpp 273-280, [end_alignment]. *)
Definition end_alignment (f : formatter) : tres formatter :=
  match f_state f with
  | ALIGNMENT | ALIGNED_MARKER => tbind (pop_indentation f) (fun f1 => TOk (set_state NO_ALIGNMENT f1))
  | _ => TOk f
  end.

(** TextFormatter.cpp 132-153: one round of the loop of [write_words]. *)
Definition write_token (k : token_kind) (token : str) (f : formatter) : tres formatter :=
  match k with
  | TkTab => begin_alignment (on_writer tab f)
  | TkNewline => tbind (end_alignment f) (fun f1 => TOk (on_writer (set_spaces 0) (on_writer writer_newline f1)))
  | TkSpace => begin_alignment (on_writer (set_spaces (length token)) f)
  | TkWord => append_word token (update_alignment token f)
  | TkEnd => TOk f
  end.

(** TextFormatter.cpp 127-157, [write_words]. *)
Fixpoint words_loop (fuel : nat) (text : str) (f : formatter) : tres formatter :=
  match text with
  | [] => end_alignment f
  | _ =>
      match fuel with
      | O => TNoFuel
      | S fuel' =>
          let '(k, token, rest) := next_token text in
          tbind (write_token k token f) (words_loop fuel' rest)
      end
  end.
Definition write_words (text : str) (f : formatter) : tres formatter :=
  words_loop (length text) text f.

(** TextFormatter.cpp 161-170, the loop of [write_lines]. *)
Fixpoint lines_loop (fuel : nat) (text : str) (f : formatter) : tres formatter :=
  match text with
  | [] => TOk f
  | _ =>
      match fuel with
      | O => TNoFuel
      | S fuel' =>
          tbind (next_line text) (fun lr =>
            let (line, rem) := lr in
            tbind (if negb (is_empty line) then append_word line f else TOk f) (fun f1 =>
              lines_loop fuel' rem (if negb (is_empty rem) then newline f1 else f1)))
      end
  end.

(** TextFormatter.cpp 159-173, [write_lines]. *)
Definition write_lines (text : str) (f : formatter) : tres formatter :=
  tbind (lines_loop (length text) text f) (fun f1 =>
    match last_char text with
    | Some c => if Ascii.eqb c c_lf || Ascii.eqb c c_cr then TOk (newline f1) else TOk f1
    | None => TOk f1
    end).

(** TextFormatter.cpp 181-184, [flush]. Not used in the library. *)
Definition flush (f : formatter) : formatter := on_writer flush_writer f.

(* ------------------------------------------------------------------------ *)
(** ** Sequences of calls *)

(** A formatter as the parser sets it up: a line width and rules for splitting words
    (TextFormatter.cpp 84-91, WordSplitter.cpp 52-56). *)
Definition text_formatter (width : nat) (rules : list str) : tres formatter :=
  tbind (new_formatter width) (fun f =>
  tbind (add_words (f_rules f) rules) (fun m =>
    TOk (mk_fmt (f_writer f) (f_indents f) m (f_state f)))).

(** The calls that the library makes. *)
Inductive text_op :=
| OpWords (text : str)
| OpLines (text : str)
| OpNewline
| OpPush (indent : option nat)
| OpPop.

Definition run_op (o : text_op) (f : formatter) : tres formatter :=
  match o with
  | OpWords t => write_words t f
  | OpLines t => write_lines t f
  | OpNewline => TOk (newline f)
  | OpPush n => TOk (push_indentation n f)
  | OpPop => pop_indentation f
  end.

Fixpoint run_ops (l : list text_op) (f : formatter) : tres formatter :=
  match l with
  | [] => TOk f
  | o :: l' => tbind (run_op o f) (run_ops l')
  end.

(** Everything written so far, including the current line. *)
Definition shown (f : formatter) : str := w_out (f_writer f) ++ w_line (f_writer f).
