(** Model of who owns what: the objects that ArgumentParser, ArgumentIterator,
    ParsedArguments, ArgumentValue(s) and the views refer to, the reference counts of the
    shared pointers between them, and when memory is released. No proofs in this file.

    What is in the objects is not modelled here, except for the pointers. A
    ParsedArgumentsBuilder (which callbacks get) is like a ParsedArguments. Assigning to an
    ArgumentValues always releases its vector. Block numbers are never used again. *)
From Verif Require Import Base.

(** [Dangling]: an object that does not exist is read or released, a null pointer is
    dereferenced, or the call is not one that C++ would compile. *)
Inductive ores (A : Type) :=
| Ok (a : A)
| Dangling
| NoFuel.
Arguments Ok {A}. Arguments Dangling {A}. Arguments NoFuel {A}.
Definition obind {A B} (m : ores A) (k : A -> ores B) : ores B :=
  match m with Ok a => k a | Dangling => Dangling | NoFuel => NoFuel end.
Notation "'get' x := m ; k" := (obind m (fun x => k)) (at level 62, x pattern, right associativity).

(* ------------------------------------------------------------------------ *)
(** ** The heap *)

(** A ParserData, with all arguments, options and commands in it (ParserData.hpp 49-55); a
    ParsedArgumentsImpl with m_data, m_command and m_stop_option (pointers into a
    ParserData) and m_commands (ParsedArgumentsImpl.hpp 83-92); the vector of an
    ArgumentValues, its views being of values in [texts]. *)
Inductive block :=
| B_data
| B_results (data : nat) (command : nat) (subcommands : list nat)
| B_values (texts : nat).
(** The blocks and their reference counts (1 for those owned by a unique_ptr or vector);
    [None]: released. *)
Definition heap := list (option (nat * block)).
Definition cell (h : heap) (b : nat) : option (nat * block) :=
  match nth_error h b with Some c => c | None => None end.
Fixpoint put (h : heap) (b : nat) (c : option (nat * block)) : heap :=
  match h, b with
  | [], _ => []
  | _ :: r, 0 => c :: r
  | x :: r, S b' => x :: put r b' c
  end.
Definition read (h : heap) (b : nat) : ores block :=
  match cell h b with Some (_, x) => Ok x | None => Dangling end.
Definition read_results (h : heap) (b : nat) : ores (nat * nat * list nat) :=
  match cell h b with Some (_, B_results d c s) => Ok (d, c, s) | _ => Dangling end.

(** The pointers that keep other blocks: m_data, m_commands. *)
Definition members (x : block) : list nat :=
  match x with B_results d _ s => d :: s | _ => [] end.

(** make_unique, make_shared, the buffer of a new vector. *)
Definition allocate (h : heap) (x : block) : nat * heap := (length h, h ++ [Some (1, x)]).
(** Copying a shared_ptr. *)
Definition retain (h : heap) (b : nat) : ores heap :=
  match cell h b with Some (n, x) => Ok (put h b (Some (S n, x))) | None => Dangling end.
Definition retain_if (h : heap) (p : option nat) : ores heap :=
  match p with Some b => retain h b | None => Ok h end.
(** Destroying pointers; the last one to a block destroys the block and the pointers in it. *)
Fixpoint drop (fuel : nat) (h : heap) (ps : list nat) : ores heap :=
  match ps with
  | [] => Ok h
  | b :: r =>
      match fuel with
      | 0 => NoFuel
      | S fuel' =>
          match cell h b with
          | Some (S (S n), x) => drop fuel' (put h b (Some (S n, x))) r
          | Some (1, x) => drop fuel' (put h b None) (members x ++ r)
          | _ => Dangling
          end
      end
  end.
Definition pointers (h : heap) : list nat :=
  flat_map (fun c => match c with Some (_, x) => members x | None => [] end) h.
Definition release (h : heap) (ps : list nat) : ores heap :=
  drop (length ps + length (pointers h)) h ps.

(* ------------------------------------------------------------------------ *)
(** ** The objects of a program *)

(** ArgumentIteratorImpl.hpp 104-106: m_data, m_command, m_parsed_args. *)
Record iter_impl := mk_impl { i_data : nat; i_command : nat; i_results : list nat }.

(** Null pointers are [None]. *)
Inductive handle :=
| H_parser (data : option nat)                     (* ArgumentParser.hpp 582 *)
| H_iterator (impl : option iter_impl)             (* ArgumentIterator.hpp: m_impl *)
| H_results (impl : option nat)                    (* ParsedArguments *)
| H_value (impl : option nat) (text : option nat)  (* ArgumentValue: m_args, m_value *)
| H_values (impl values : option nat)              (* ArgumentValues: m_args, m_values *)
| H_position (values : nat) (impl : option nat)    (* ArgumentValueIterator: m_iterator, m_args *)
| H_view (data : nat)                              (* ArgumentView, OptionView, CommandView *)
| H_text (results : nat).                          (* string_view of a value *)

Definition opt_list (p : option nat) : list nat := match p with Some b => [b] | None => [] end.
(** The pointers that the destructor destroys. *)
Definition owned (x : handle) : list nat :=
  match x with
  | H_parser p => opt_list p
  | H_iterator (Some it) => i_data it :: i_results it
  | H_iterator None => []
  | H_results p => opt_list p
  | H_value p _ => opt_list p
  | H_values p v => opt_list p ++ opt_list v
  | H_position _ p => opt_list p
  | H_view _ | H_text _ => []
  end.

(** The copy constructors: ParsedArguments.cpp 23, ArgumentValue.cpp 60, ArgumentValues.cpp 88,
    implicit ones. ArgumentParser and ArgumentIterator have none. *)
Definition copy_handle (h : heap) (x : handle) : ores (handle * heap) :=
  match x with
  | H_parser _ | H_iterator _ => Dangling
  | H_results p => get h1 := retain_if h p; Ok (x, h1)
  | H_value p t => get h1 := retain_if h p; Ok (x, h1)
  | H_values p None => get h1 := retain_if h p; Ok (x, h1)
  | H_values p (Some v) =>
      get b := read h v;
      get h1 := retain_if h p;
      let (w, h2) := allocate h1 b in
      Ok (H_values p (Some w), h2)
  | H_position v p => get h1 := retain_if h p; Ok (x, h1)
  | H_view _ | H_text _ => Ok (x, h)
  end.

(** The move constructors: what is left. ArgumentParser.cpp 64-67, ArgumentIterator.cpp 20-22,
    ParsedArguments.cpp 25, ArgumentValue.cpp 62, ArgumentValues.cpp 90; a moved-from
    string_view, iterator or plain pointer is unchanged. *)
Definition moved_from (x : handle) : handle :=
  match x with
  | H_parser _ => H_parser None
  | H_iterator _ => H_iterator None
  | H_results _ => H_results None
  | H_value _ t => H_value None t
  | H_values _ _ => H_values None None
  | H_position v _ => H_position v None
  | H_view _ | H_text _ => x
  end.
Definition same_type (x y : handle) : bool :=
  match x, y with
  | H_parser _, H_parser _ | H_iterator _, H_iterator _ | H_results _, H_results _
  | H_value _ _, H_value _ _ | H_values _ _, H_values _ _ | H_position _ _, H_position _ _
  | H_view _, H_view _ | H_text _, H_text _ => true
  | _, _ => false
  end.

(* ------------------------------------------------------------------------ *)
(** ** Parsing *)

(** ParsedArgumentsImpl.cpp 31-34. *)
Definition new_results (h : heap) (data command : nat) : ores (nat * heap) :=
  get h1 := retain h data;
  get _ := read h1 command;
  Ok (allocate h1 (B_results data command [])).

(** ArgumentIteratorImpl.cpp 44-53. *)
Definition new_iterator (h : heap) (data : nat) : ores (iter_impl * heap) :=
  get (r, h1) := new_results h data data;
  Ok (mk_impl data data [r], h1).

(** A sub-command begins (ArgumentIteratorImpl.cpp 320-324, ParsedArgumentsImpl.cpp 153-159),
    or the first ones of m_parsed_args become active again (472-475: the index is that of one
    of them). *)
Inductive pstep := P_enter | P_back (index : nat).
Definition do_step (h : heap) (it : iter_impl) (s : pstep) : ores (iter_impl * heap) :=
  match s with
  | P_enter =>
      let parent := last (i_results it) 0 in
      get (d, _, _) := read_results h parent;
      get (n, h1) := new_results h d (i_command it);
      match cell h1 parent with
      | Some (k, B_results d1 c1 s1) =>
          get h2 := retain (put h1 parent (Some (k, B_results d1 c1 (s1 ++ [n])))) n;
          Ok (mk_impl (i_data it) (i_command it) (i_results it ++ [n]), h2)
      | _ => Dangling
      end
  | P_back index =>
      get h1 := release h (skipn (S index) (i_results it));
      let l := firstn (S index) (i_results it) in
      get (_, c, _) := read_results h1 (last l 0);
      Ok (mk_impl (i_data it) c l, h1)
  end.
Fixpoint do_steps (h : heap) (it : iter_impl) (l : list pstep) : ores (iter_impl * heap) :=
  match l with
  | [] => Ok (it, h)
  | s :: r => get (it1, h1) := do_step h it s; do_steps h1 it1 r
  end.

(** How a call of parse goes: finish_initialization throws, a callback throws after some
    steps, or it returns. *)
Inductive progress := Unfinished | Thrown (l : list pstep) | Returned (l : list pstep).

(** ArgumentParser.cpp 34-40 and ArgumentIteratorImpl.cpp 75-90; [data] is the temporary
    shared_ptr. *)
Definition parse_arguments (h : heap) (data : nat) (p : progress) : ores (option handle * heap) :=
  get _ := read h data;
  match p with
  | Unfinished => get h1 := release h [data]; Ok (None, h1)
  | Thrown l =>
      get h1 := retain h data;
      get (it, h2) := new_iterator h1 data;
      get (it, h3) := do_steps h2 it l;
      get h4 := release h3 (i_data it :: i_results it);
      get h5 := release h4 [data];
      Ok (None, h5)
  | Returned l =>
      get h1 := retain h data;
      get (it, h2) := new_iterator h1 data;
      get (it, h3) := do_steps h2 it l;
      let top := hd 0 (i_results it) in
      get h4 := retain h3 top;
      get h5 := release h4 (i_data it :: i_results it);
      get h6 := release h5 [data];
      Ok (Some (H_results (Some top)), h6)
  end.
(** ArgumentParser.cpp 42-48. *)
Definition make_argument_iterator (h : heap) (data : nat) (finished : bool) : ores (option handle * heap) :=
  get _ := read h data;
  if finished then
    get h1 := retain h data;
    get (it, h2) := new_iterator h1 data;
    get h3 := release h2 [data];
    Ok (Some (H_iterator (Some it)), h3)
  else get h1 := release h [data]; Ok (None, h1).

(* ------------------------------------------------------------------------ *)
(** ** Calls *)

(** The numbers are those of the program's objects, in the order they were made. *)
Inductive call :=
| K_parser                            (* ArgumentParser() *)
| K_results                           (* ParsedArguments() *)
| K_copy (i : nat)                    (* copy constructor *)
| K_move (i : nat)                    (* move constructor *)
| K_assign (i j : nat)                (* i = j *)
| K_move_assign (i j : nat)           (* i = move(j) *)
| K_destroy (i : nat)
| K_parse (i : nat) (is_const : bool) (p : progress)
| K_iterator (i : nat) (is_const : bool) (finished : bool)   (* make_iterator *)
| K_next (i : nat) (l : list pstep)   (* ArgumentIterator::next: a view of an item and one of a value *)
| K_current (i : nat)                 (* ArgumentIterator::parsed_arguments *)
| K_subcommand (i n : nat)            (* ParsedArguments::subcommands()[n] *)
| K_value (i : nat)                   (* ParsedArguments::value *)
| K_values (i : nat)                  (* ParsedArguments::values, ArgumentValue::split *)
| K_item (i : nat)                    (* ArgumentValues::value *)
| K_begin (i : nat)                   (* ArgumentValues::begin *)
| K_deref (i : nat)                   (* ArgumentValueIterator::operator* *)
| K_get (i : nat)                     (* ArgumentValue::value *)
| K_view (i : nat)                    (* command, all_options, ..., argument, arguments *)
| K_read (i : nat).                   (* anything that reads what the object refers to *)

Inductive answer := A_done | A_thrown | A_read (b : nat).
Record world := mk_world { w_heap : heap; w_handles : list (option handle) }.
Definition no_world : world := mk_world [] [].

Definition object (w : world) (i : nat) : ores handle :=
  match nth_error (w_handles w) i with Some (Some x) => Ok x | _ => Dangling end.
Fixpoint set_object (l : list (option handle)) (i : nat) (x : option handle) : list (option handle) :=
  match l, i with
  | [], _ => []
  | _ :: r, 0 => x :: r
  | y :: r, S i' => y :: set_object r i' x
  end.
Definition add_object (w : world) (h : heap) (x : handle) : ores (answer * world) :=
  Ok (A_done, mk_world h (w_handles w ++ [Some x])).
Definition add_made (l : list (option handle)) (x : option handle) (h : heap) : ores (answer * world) :=
  match x with
  | Some y => Ok (A_done, mk_world h (l ++ [Some y]))
  | None => Ok (A_thrown, mk_world h l)
  end.
Definition thrown (w : world) : ores (answer * world) := Ok (A_thrown, w).

(** ArgumentParser.cpp 20-28. *)
Definition copy_data (h : heap) (d : nat) : ores (nat * heap) :=
  get _ := read h d; Ok (allocate h B_data).

Definition do_call (w : world) (c : call) : ores (answer * world) :=
  let h := w_heap w in
  let l := w_handles w in
  match c with
  | K_parser => let (d, h1) := allocate h B_data in add_object w h1 (H_parser (Some d))
  | K_results => add_object w h (H_results None)
  | K_copy i => get x := object w i; get (y, h1) := copy_handle h x; add_object w h1 y
  | K_move i =>
      get x := object w i;
      Ok (A_done, mk_world h (set_object l i (Some (moved_from x)) ++ [Some x]))
  | K_assign i j =>
      get x := object w i;
      get y := object w j;
      if same_type x y then
        get (z, h1) := copy_handle h y;
        get h2 := release h1 (owned x);
        Ok (A_done, mk_world h2 (set_object l i (Some z)))
      else Dangling
  | K_move_assign i j =>
      get y := object w j;
      let l1 := set_object l j (Some (moved_from y)) in
      get x := object (mk_world h l1) i;
      if same_type x y then
        get h1 := release h (owned x);
        Ok (A_done, mk_world h1 (set_object l1 i (Some y)))
      else Dangling
  | K_destroy i =>
      get x := object w i;
      get h1 := release h (owned x);
      Ok (A_done, mk_world h1 (set_object l i None))
  (* ArgumentParser.cpp 141-151 *)
  | K_parse i is_const p =>
      get x := object w i;
      match x with
      | H_parser None => thrown w
      | H_parser (Some d) =>
          if is_const then
            get (d1, h1) := copy_data h d;
            get (y, h2) := parse_arguments h1 d1 p;
            add_made l y h2
          else
            get (y, h1) := parse_arguments h d p;
            add_made (set_object l i (Some (H_parser None))) y h1
      | _ => Dangling
      end
  (* ArgumentParser.cpp 167-180 *)
  | K_iterator i is_const finished =>
      get x := object w i;
      match x with
      | H_parser None => thrown w
      | H_parser (Some d) =>
          if is_const then
            get (d1, h1) := copy_data h d;
            get (y, h2) := make_argument_iterator h1 d1 finished;
            add_made l y h2
          else
            get (y, h1) := make_argument_iterator h d finished;
            add_made (set_object l i (Some (H_parser None))) y h1
      | _ => Dangling
      end
  (* ArgumentIterator.cpp 34-67 *)
  | K_next i steps =>
      get x := object w i;
      match x with
      | H_iterator None => thrown w
      | H_iterator (Some it) =>
          get (it1, h1) := do_steps h it steps;
          get _ := read h1 (i_command it1);
          Ok (A_done, mk_world h1 (set_object l i (Some (H_iterator (Some it1)))
                                   ++ [Some (H_view (i_command it1)); Some (H_text (last (i_results it1) 0))]))
      | _ => Dangling
      end
  (* ArgumentIterator.cpp 69-72 *)
  | K_current i =>
      get x := object w i;
      match x with
      | H_iterator None => thrown w
      | H_iterator (Some it) =>
          get h1 := retain h (last (i_results it) 0);
          add_object w h1 (H_results (Some (last (i_results it) 0)))
      | _ => Dangling
      end
  (* ParsedArguments.cpp 53-59 *)
  | K_subcommand i n =>
      get x := object w i;
      match x with
      | H_results (Some r) =>
          get (_, _, s) := read_results h r;
          match nth_error s n with
          | Some b => get h1 := retain h b; add_object w h1 (H_results (Some b))
          | None => Dangling
          end
      | _ => Dangling
      end
  (* ParsedArguments.cpp 61-76 *)
  | K_value i =>
      get x := object w i;
      match x with
      | H_results (Some r) =>
          get _ := read_results h r;
          get h1 := retain h r;
          add_object w h1 (H_value (Some r) (Some r))
      | _ => Dangling
      end
  (* ParsedArguments.cpp 78-89, ArgumentValue.cpp 157-180 *)
  | K_values i =>
      get x := object w i;
      match x with
      | H_results (Some r) =>
          get _ := read_results h r;
          get h1 := retain h r;
          let (v, h2) := allocate h1 (B_values r) in
          add_object w h2 (H_values (Some r) (Some v))
      | H_value None _ => thrown w
      | H_value (Some r) (Some t) =>
          get _ := read h t;
          get h1 := retain h r;
          let (v, h2) := allocate h1 (B_values t) in
          add_object w h2 (H_values (Some r) (Some v))
      | H_value (Some r) None =>
          get h1 := retain h r;
          let (v, h2) := allocate h1 (B_values r) in
          add_object w h2 (H_values (Some r) (Some v))
      | _ => Dangling
      end
  (* ArgumentValues.cpp 149-156 *)
  | K_item i =>
      get x := object w i;
      match x with
      | H_values p (Some v) =>
          match cell h v with
          | Some (_, B_values t) =>
              get h1 := retain_if h p;
              add_object w h1 (H_value p (Some t))
          | _ => Dangling
          end
      | H_values p None => get h1 := retain_if h p; add_object w h1 (H_value p None)
      | _ => Dangling
      end
  (* ArgumentValues.cpp 251-259 *)
  | K_begin i =>
      get x := object w i;
      match x with
      | H_values p (Some v) => get h1 := retain_if h p; add_object w h1 (H_position v p)
      | _ => Dangling
      end
  (* ArgumentValueIterator.cpp 37-41 *)
  | K_deref i =>
      get x := object w i;
      match x with
      | H_position v p =>
          match cell h v with
          | Some (_, B_values t) => get h1 := retain_if h p; add_object w h1 (H_value p (Some t))
          | _ => Dangling
          end
      | _ => Dangling
      end
  (* ArgumentValue.cpp 85-88 *)
  | K_get i =>
      get x := object w i;
      match x with
      | H_value _ (Some t) => add_object w h (H_text t)
      | H_value _ None => Ok (A_done, w)
      | _ => Dangling
      end
  (* ParsedArguments.cpp 33-36, 91-130, ArgumentValue.cpp 77-83, ArgumentValues.cpp 110-114 *)
  | K_view i =>
      get x := object w i;
      match x with
      | H_results (Some r) | H_value (Some r) _ | H_values (Some r) _ =>
          get (_, c, _) := read_results h r;
          get _ := read h c;
          add_object w h (H_view c)
      | H_value None _ => thrown w
      | _ => Dangling
      end
  | K_read i =>
      get x := object w i;
      match x with
      | H_parser None => thrown w
      | H_parser (Some d) => get _ := read h d; Ok (A_read d, w)
      | H_iterator None => thrown w
      | H_iterator (Some it) =>
          get _ := read h (i_data it); get _ := read h (i_command it);
          get _ := read_results h (last (i_results it) 0);
          Ok (A_read (last (i_results it) 0), w)
      | H_results (Some r) =>
          get (d, c, _) := read_results h r; get _ := read h d; get _ := read h c;
          Ok (A_read r, w)
      | H_value _ (Some t) => get _ := read h t; Ok (A_read t, w)
      | H_value _ None | H_values _ None => Ok (A_done, w)
      | H_values _ (Some v) =>
          match cell h v with
          | Some (_, B_values t) => get _ := read h t; Ok (A_read t, w)
          | _ => Dangling
          end
      | H_view d => get _ := read h d; Ok (A_read d, w)
      | H_text t => get _ := read h t; Ok (A_read t, w)
      | _ => Dangling
      end
  end.
Fixpoint do_calls (w : world) (l : list call) : ores world :=
  match l with
  | [] => Ok w
  | c :: r => get (_, w1) := do_call w c; do_calls w1 r
  end.
