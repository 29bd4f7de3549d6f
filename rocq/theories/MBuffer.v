(** Memory model of the tokenizers: the same code as in MOptIter.v, but with the
    vector [m_all_args] in memory and [m_args] a span into it.
    StandardOptionIterator.cpp, OptionIterator.cpp and OptionIteratorWrapper.hpp in
    src/Argos. No proofs in this file.

    The elements of a vector are a block of memory. Reading outside a span or from a
    block that has been released gives [Bad].

    Simplifications: [vector::insert] always moves the elements to a new block (in
    C++ it may stay where it is if there is room, which keeps more spans alive);
    block numbers are never used again. *)
From Verif Require Import Base MOptIter.

(** The blocks that have been allocated so far; [None]: released. *)
Definition blocks := list (option (list str)).
Definition block (h : blocks) (b : nat) : option (list str) :=
  match nth_error h b with Some (Some l) => Some l | _ => None end.
Fixpoint set_block (h : blocks) (b : nat) (x : option (list str)) : blocks :=
  match h, b with
  | [], _ => []
  | _ :: r, O => x :: r
  | y :: r, S b' => y :: set_block r b' x
  end.
Definition release (h : blocks) (b : nat) : blocks := set_block h b None.
Definition allocate (h : blocks) (l : list str) : nat * blocks := (length h, h ++ [Some l]).

(** std::span<std::string>. *)
Record span := mk_span { sp_block : nat; sp_from : nat; sp_size : nat }.

(** [s[i]]. *)
Definition sp_at (h : blocks) (s : span) (i : nat) : res str :=
  if i <? sp_size s then
    match block h (sp_block s) with
    | Some l => match nth_error l (sp_from s + i) with Some x => Ok x | None => Bad end
    | None => Bad
    end
  else Bad.

(** [subspan(1)], and pop_front (StringUtilities.hpp). *)
Definition sp_pop (s : span) : res span :=
  match sp_size s with
  | O => Bad
  | S n => Ok (mk_span (sp_block s) (S (sp_from s)) n)
  end.

(** What is seen by going through the span. *)
Definition sp_read (h : blocks) (s : span) : option (list str) :=
  match block h (sp_block s) with
  | Some l => if sp_from s + sp_size s <=? length l
              then Some (firstn (sp_size s) (skipn (sp_from s) l)) else None
  | None => None
  end.

(** StandardOptionIterator.hpp 37-39, OptionIterator.hpp 37-40: [m_all_args] (its
    block), [m_args], [m_pos]; the class and [m_prefix]. *)
Record tokenizer := mk_tok {
  tk_kind : iter_kind;
  tk_all : nat;
  tk_args : span;
  tk_pos : pos
}.

Definition rbind {A B} (x : res A) (f : A -> res B) : res B :=
  match x with Ok a => f a | Bad => Bad end.
Notation "'get' x := e ; f" := (rbind e (fun x => f)) (at level 61, x pattern, right associativity).
Definition of_option {A} (x : option A) : res A := match x with Some a => Ok a | None => Bad end.

(** StandardOptionIterator.cpp 46-69, OptionIterator.cpp 42-59. *)
Definition tok_first (h : blocks) (k : iter_kind) (all : nat) (s : span)
  : res (option str * tokenizer) :=
  if sp_size s =? 0 then Ok (None, mk_tok k all s (At 0))
  else
    get a := sp_at h s 0;
    if length a <=? 2 then Ok (Some a, mk_tok k all s Npos)
    else
      get c0 := of_option (nth_error a 0);
      get c1 := of_option (nth_error a 1);
      if negb (Ascii.eqb c0 (match k with KStandard => c_dash | KPrefix p => p end)) then
        Ok (Some a, mk_tok k all s Npos)
      else if match k with KStandard => negb (Ascii.eqb c1 c_dash) | KPrefix _ => false end then
        Ok (Some (firstn 2 a), mk_tok k all s (At 2))
      else
        match find_char c_eq a with
        | None => Ok (Some a, mk_tok k all s Npos)
        | Some p => Ok (Some (firstn (S p) a), mk_tok k all s (At (S p)))
        end.

(** StandardOptionIterator.cpp 32-70, OptionIterator.cpp 34-60, [next]. *)
Definition tok_next (h : blocks) (t : tokenizer) : res (option str * tokenizer) :=
  let s := tk_args t in
  if pos_nonzero (tk_pos t) then
    let on := get s' := sp_pop s; tok_first h (tk_kind t) (tk_all t) s' in
    match tk_kind t with
    | KPrefix _ => on
    | KStandard =>
        get a := sp_at h s 0;
        match tk_pos t with
        | At k =>
            if k <? length a then
              get c1 := of_option (nth_error a 1);
              if negb (Ascii.eqb c1 c_dash) then
                get c := of_option (nth_error a k);
                Ok (Some [c_dash; c], mk_tok KStandard (tk_all t) s
                      (if S k =? length a then Npos else At (S k)))
              else on
            else on
        | Npos => on
        end
    end
  else tok_first h (tk_kind t) (tk_all t) s.

(** StandardOptionIterator.cpp 72-92, OptionIterator.cpp 62-83, [next_value]. *)
Definition tok_next_value (h : blocks) (t : tokenizer) : res (option str * tokenizer) :=
  let s := tk_args t in
  if sp_size s =? 0 then Ok (None, t)
  else match tk_pos t with
       | At k =>
           get a := sp_at h s 0;
           if k <=? length a
           then Ok (Some (skipn k a), mk_tok (tk_kind t) (tk_all t) s Npos)
           else Bad
       | Npos =>
           get s' := sp_pop s;
           if sp_size s' =? 0 then Ok (None, mk_tok (tk_kind t) (tk_all t) s' (At 0))
           else
             get a := sp_at h s' 0;
             Ok (Some a, mk_tok (tk_kind t) (tk_all t) s'
                   (match tk_kind t with KStandard => Npos | KPrefix _ => At (length a) end))
       end.

(** StandardOptionIterator.cpp 94-99, OptionIterator.cpp 85-90, [current]: the
    string_view is of the first element of the span; [None]: throws. *)
Definition tok_current (t : tokenizer) : option (nat * nat) :=
  if sp_size (tk_args t) =? 0 then None
  else Some (sp_block (tk_args t), sp_from (tk_args t)).

(** [v.insert(v.begin() + i, new.begin(), new.end())]: the new block. *)
Definition vec_insert (h : blocks) (b i : nat) (new : list str) : res (nat * blocks) :=
  get l := of_option (block h b);
  if i <=? length l
  then Ok (allocate (release h b) (firstn i l ++ new ++ skipn i l))
  else Bad.

(** [m_all_args.size() - m_args.size()]. *)
Definition args_index (h : blocks) (t : tokenizer) : res nat :=
  get l := of_option (block h (tk_all t));
  if sp_size (tk_args t) <=? length l then Ok (length l - sp_size (tk_args t)) else Bad.

(** [m_args = std::span(m_all_args.begin() + index, m_all_args.end())]. *)
Definition span_from (h : blocks) (b i : nat) : res span :=
  get l := of_option (block h b);
  if i <=? length l then Ok (mk_span b i (length l - i)) else Bad.

Fixpoint set_nth (l : list str) (i : nat) (x : str) : list str :=
  match l, i with
  | [], _ => []
  | _ :: r, O => x :: r
  | y :: r, S i' => y :: set_nth r i' x
  end.

(** StandardOptionIterator.cpp 119-129, [split_concatenated_flags]. *)
Definition tok_split (h : blocks) (t : tokenizer) : res (blocks * tokenizer) :=
  if pos_nonzero (tk_pos t) then
    get a := sp_at h (tk_args t) 0;
    match tk_pos t with
    | Npos => Ok (h, t)
    | At k =>
        if length a <=? k then Ok (h, t)
        else
          get c1 := of_option (nth_error a 1);
          if Ascii.eqb c1 c_dash then Ok (h, t)
          else
            get i := args_index h t;
            get (b, h1) := vec_insert h (tk_all t) (S i) [c_dash :: skipn k a];
            get l := of_option (block h1 b);
            get x := of_option (nth_error l i);
            let h2 := set_block h1 b (Some (set_nth l i (firstn k x))) in
            get s := span_from h2 b i;
            Ok (h2, mk_tok (tk_kind t) b s (tk_pos t))
    end
  else Ok (h, t).

(** StandardOptionIterator.cpp 101-105, OptionIterator.cpp 92-95. *)
Definition tok_remaining (h : blocks) (t : tokenizer) : res (span * blocks * tokenizer) :=
  get (h1, t1) := match tk_kind t with KStandard => tok_split h t | KPrefix _ => Ok (h, t) end;
  if pos_nonzero (tk_pos t1) then get s := sp_pop (tk_args t1); Ok (s, h1, t1)
  else Ok (tk_args t1, h1, t1).

(** StandardOptionIterator.cpp 107-117, OptionIterator.cpp 97-106, [insert]. *)
Definition tok_insert (h : blocks) (t : tokenizer) (new : list str) : res (blocks * tokenizer) :=
  get (h1, t1) := match tk_kind t with KStandard => tok_split h t | KPrefix _ => Ok (h, t) end;
  get i := args_index h1 t1;
  get (b, h2) := vec_insert h1 (tk_all t1) (if pos_nonzero (tk_pos t1) then S i else i) new;
  get s := span_from h2 b i;
  Ok (h2, mk_tok (tk_kind t1) b s (tk_pos t1)).

(** StandardOptionIterator.cpp 25-30, OptionIterator.cpp 26-32, the copy constructor. *)
Definition tok_copy (h : blocks) (t : tokenizer) : res (blocks * tokenizer) :=
  get l := of_option (block h (tk_all t));
  get i := args_index h t;
  let (b, h1) := allocate h l in
  get s := span_from h1 b i;
  Ok (h1, mk_tok (tk_kind t) b s (tk_pos t)).

(** The destructor. *)
Definition tok_destroy (h : blocks) (t : tokenizer) : blocks := release h (tk_all t).

(** ArgumentIteratorImpl.cpp 28-41, [make_option_iterator]: an iterator is
    constructed (StandardOptionIterator.cpp 19-23, OptionIterator.cpp 19-24), copied
    into the variant of the wrapper and destroyed. *)
Definition tok_make (h : blocks) (k : iter_kind) (args : list str) : res (blocks * tokenizer) :=
  let (b, h1) := allocate h args in
  get s := span_from h1 b 0;
  let t := mk_tok k b s (At 0) in
  get (h2, t2) := tok_copy h1 t;
  Ok (tok_destroy h2 t, t2).

(* ------------------------------------------------------------------------ *)
(** ** Any number of iterators *)

(** The blocks and the iterators, in the order in which they were made; [None]:
    destroyed. *)
Record world := mk_world { w_blocks : blocks; w_iters : list (option tokenizer) }.
Definition no_world : world := mk_world [] [].

Inductive call :=
| CMake (k : iter_kind) (args : list str)
| CCopy (i : nat)
| CDestroy (i : nat)
| CNext (i : nat)
| CNextValue (i : nat)
| CCurrent (i : nat)
| CRemaining (i : nat)
| CInsert (i : nat) (new : list str).

(** What a call gives. *)
Inductive answer :=
| ANothing
| AToken (t : option str)
| AView (v : option (nat * nat))
| ASpan (s : span).

Fixpoint set_iter_at (l : list (option tokenizer)) (i : nat) (x : option tokenizer)
  : list (option tokenizer) :=
  match l, i with
  | [], _ => []
  | _ :: r, O => x :: r
  | y :: r, S i' => y :: set_iter_at r i' x
  end.
Definition iter_at (w : world) (i : nat) : res tokenizer :=
  match nth_error (w_iters w) i with Some (Some t) => Ok t | _ => Bad end.

Definition do_call (w : world) (c : call) : res (answer * world) :=
  let h := w_blocks w in
  let put h i t := mk_world h (set_iter_at (w_iters w) i (Some t)) in
  match c with
  | CMake k args =>
      get (h1, t) := tok_make h k args;
      Ok (ANothing, mk_world h1 (w_iters w ++ [Some t]))
  | CCopy i =>
      get t := iter_at w i;
      get (h1, t1) := tok_copy h t;
      Ok (ANothing, mk_world h1 (w_iters w ++ [Some t1]))
  | CDestroy i =>
      get t := iter_at w i;
      Ok (ANothing, mk_world (tok_destroy h t) (set_iter_at (w_iters w) i None))
  | CNext i =>
      get t := iter_at w i;
      get (r, t1) := tok_next h t;
      Ok (AToken r, put h i t1)
  | CNextValue i =>
      get t := iter_at w i;
      get (r, t1) := tok_next_value h t;
      Ok (AToken r, put h i t1)
  | CCurrent i =>
      get t := iter_at w i;
      Ok (AView (tok_current t), w)
  | CRemaining i =>
      get t := iter_at w i;
      get (s, h1, t1) := tok_remaining h t;
      Ok (ASpan s, put h1 i t1)
  | CInsert i new =>
      get t := iter_at w i;
      get (h1, t1) := tok_insert h t new;
      Ok (ANothing, put h1 i t1)
  end.

Fixpoint do_calls (w : world) (cs : list call) : res (list (answer * world) * world) :=
  match cs with
  | [] => Ok ([], w)
  | c :: r =>
      get (a, w1) := do_call w c;
      get (l, w2) := do_calls w1 r;
      Ok ((a, w1) :: l, w2)
  end.
