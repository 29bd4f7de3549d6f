(** Byte strings and small helpers shared by the model and the specifications.
    Nothing in this file models Argos code; it provides the data types that
    stand for [std::string], [std::string_view] and [std::vector<std::string>]. *)
From Coq Require Export Arith NArith ZArith Ascii String Bool Lia.
From Coq Require Export List.
Export ListNotations.

(** A C++ [std::string] or [std::string_view]: a finite sequence of bytes. *)
Definition str := list ascii.

(** String literals. *)
Definition lit (x : string) : str := list_ascii_of_string x.
Notation "$ x" := (lit x%string) (at level 0, x at level 0, format "$ x").

(** [operator==] on strings. *)
Fixpoint str_eqb (a b : str) : bool :=
  match a, b with
  | [], [] => true
  | x :: a', y :: b' => Ascii.eqb x y && str_eqb a' b'
  | _, _ => false
  end.

(** [string::empty()]. *)
Definition is_empty {A} (l : list A) : bool :=
  match l with [] => true | _ => false end.

(** The value of a byte as [uint8_t] and as (signed, x86) [char]. *)
Definition u8 (c : ascii) : N := N_of_ascii c.
Definition s8 (c : ascii) : Z :=
  if (u8 c <? 128)%N then Z.of_N (u8 c) else (Z.of_N (u8 c) - 256)%Z.

(** [string::find(c)]: index of the first occurrence. *)
Fixpoint find_char (c : ascii) (s : str) : option nat :=
  match s with
  | [] => None
  | x :: s' => if Ascii.eqb x c then Some 0
               else option_map S (find_char c s')
  end.

(** [s1.find_first_of(set)]. *)
Fixpoint find_first_of (set : str) (s : str) : option nat :=
  match s with
  | [] => None
  | x :: s' => if existsb (Ascii.eqb x) set then Some 0
               else option_map S (find_first_of set s')
  end.

(** [s1.find_first_not_of(set)]. *)
Fixpoint find_first_not_of (set : str) (s : str) : option nat :=
  match s with
  | [] => None
  | x :: s' => if negb (existsb (Ascii.eqb x) set) then Some 0
               else option_map S (find_first_not_of set s')
  end.

(** [s1.find_last_of(set)]. *)
Fixpoint find_last_of (set : str) (s : str) : option nat :=
  match s with
  | [] => None
  | x :: s' => match find_last_of set s' with
               | Some i => Some (S i)
               | None => if existsb (Ascii.eqb x) set then Some 0 else None
               end
  end.

(** [s1.find_last_not_of(set)]. *)
Fixpoint find_last_not_of (set : str) (s : str) : option nat :=
  match s with
  | [] => None
  | x :: s' => match find_last_not_of set s' with
               | Some i => Some (S i)
               | None => if existsb (Ascii.eqb x) set then None else Some 0
               end
  end.

(** [s.back()], for a non-empty string. *)
Fixpoint last_char (s : str) : option ascii :=
  match s with
  | [] => None
  | [x] => Some x
  | _ :: s' => last_char s'
  end.

Definition c_dash : ascii := "-"%char.
Definition c_slash : ascii := "/"%char.
Definition c_eq : ascii := "="%char.
Definition c_space : ascii := " "%char.
Definition c_tab : ascii := "009"%char.
Definition c_lf : ascii := "010"%char.
Definition c_cr : ascii := "013"%char.
