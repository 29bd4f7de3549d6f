(** Memory model of the values handed out as std::string_view: the same code as in
    MValues.v and MParser.v, but with the character buffers of the stored strings.
    ArgumentIteratorImpl.cpp, ParsedArgumentsImpl.cpp in src/Argos, and
    include/Argos/Callbacks.hpp. No proofs in this file.

    A std::string_view into a stored value is the number of the buffer it points
    to. Buffer numbers are never used again. Reading through a number that is not
    live is undefined behaviour.

    Simplification: assigning to a std::string always gives it a new buffer. In C++
    the old buffer may be kept and overwritten; either way the old text is gone. *)
From Verif Require Import Base MStrings MOptIter MData MCounter MValues MParser.

(** [m_values] of a ParsedArgumentsImpl: keys, buffers and argument ids. *)
Definition nodes := list (N * (nat * N)).

(** The buffers that are live with their text, the number of the next buffer, and
    the [m_values] of all of [m_parsed_args] (innermost first) and of the
    sub-commands that are no longer in it (ParsedArgumentsImpl.cpp 153-159: their
    parents own them). *)
Record memory := mk_mem {
  mem_text : nat -> option str;
  mem_fresh : nat;
  mem_cur : nodes;
  mem_parents : list nodes;
  mem_closed : list nodes
}.

Definition empty_memory : memory := mk_mem (fun _ => None) 0 [] [] [].

Definition set_text_of (t : nat -> option str) (b : nat) (s : option str) : nat -> option str :=
  fun x => if (x =? b)%nat then s else t x.

(** The destructors of the strings in erased nodes. *)
Fixpoint free_all (t : nat -> option str) (bs : list nat) : nat -> option str :=
  match bs with
  | [] => t
  | b :: r => free_all (set_text_of t b None) r
  end.

(** [multimap::insert]. *)
Fixpoint node_append (vs : nodes) (vid : N) (b : nat) (aid : N) : nodes :=
  match vs with
  | [] => [(vid, (b, aid))]
  | (k, x) :: r =>
      if (vid <? k)%N then (vid, (b, aid)) :: (k, x) :: r
      else (k, x) :: node_append r vid b aid
  end.

(** ParsedArgumentsImpl.cpp 99-101: the nodes that are left and the buffers freed. *)
Fixpoint node_erase (vs : nodes) (vid : N) : nodes * list nat :=
  match vs with
  | (k, x) :: r =>
      if (k =? vid)%N then let (r', f) := node_erase r vid in (r', fst x :: f)
      else (vs, [])
  | [] => ([], [])
  end.

(** ParsedArgumentsImpl.cpp 89-103, [assign_value]: [b] is the buffer of the copy of
    the value; the buffer that the string had before is freed. *)
Fixpoint node_assign (vs : nodes) (vid : N) (b : nat) (aid : N) : nodes * list nat :=
  match vs with
  | [] => ([(vid, (b, aid))], [])
  | (k, x) :: r =>
      if (k <? vid)%N then let (r', f) := node_assign r vid b aid in ((k, x) :: r', f)
      else if (k =? vid)%N then
        let (r', f) := node_erase r vid in ((k, (b, aid)) :: r', fst x :: f)
      else (node_append vs vid b aid, [])
  end.

(** ParsedArgumentsImpl.cpp 113-116, [clear_value]. *)
Fixpoint node_clear (vs : nodes) (vid : N) : nodes * list nat :=
  match vs with
  | [] => ([], [])
  | (k, x) :: r =>
      let (r', f) := node_clear r vid in
      if (k =? vid)%N then (r', fst x :: f) else ((k, x) :: r', f)
  end.

(** The three operations with the string_view that they return
    (ParsedArgumentsImpl.cpp 89-116). *)
Definition mem_append (m : memory) (vid : N) (value : str) (aid : N) : nat * memory :=
  let b := mem_fresh m in
  (b, mk_mem (set_text_of (mem_text m) b (Some value)) (S b)
        (node_append (mem_cur m) vid b aid) (mem_parents m) (mem_closed m)).
Definition mem_assign (m : memory) (vid : N) (value : str) (aid : N) : nat * memory :=
  let b := mem_fresh m in
  let (vs, freed) := node_assign (mem_cur m) vid b aid in
  (b, mk_mem (free_all (set_text_of (mem_text m) b (Some value)) freed) (S b) vs
        (mem_parents m) (mem_closed m)).
Definition mem_clear (m : memory) (vid : N) : memory :=
  let (vs, freed) := node_clear (mem_cur m) vid in
  mk_mem (free_all (mem_text m) freed) (mem_fresh m) vs (mem_parents m) (mem_closed m).

(** The values as they are read through the map, [None] if a buffer is not live. *)
Fixpoint contents (t : nat -> option str) (vs : nodes) : option store :=
  match vs with
  | [] => Some []
  | (k, (b, aid)) :: r =>
      match t b, contents t r with
      | Some s, Some r' => Some ((k, (s, aid)) :: r')
      | _, _ => None
      end
  end.

(** [get_values], ParsedArgumentsImpl.cpp 141-151: string_views and argument ids. *)
Fixpoint node_from (vs : nodes) (vid : N) : nodes :=
  match vs with
  | (k, x) :: r => if (k <? vid)%N then node_from r vid else vs
  | [] => []
  end.
Fixpoint node_take (vs : nodes) (vid : N) : list (nat * N) :=
  match vs with
  | (k, x) :: r => if (k =? vid)%N then x :: node_take r vid else []
  | [] => []
  end.
Definition mem_get_values (vs : nodes) (vid : N) : list (nat * N) :=
  node_take (node_from vs vid) vid.

(* ------------------------------------------------------------------------ *)
(** ** The parser *)

(** The string_views that next() returns: a default constructed one, one into a
    stored value, or [m_iterator.current()]. *)
Inductive mview := NoText | Buffer (b : nat) | Current.

Definition read_view (m : memory) (st : pstate) (v : mview) : option str :=
  match v with
  | NoText => Some []
  | Buffer b => mem_text m b
  | Current => it_current (ps_iter st)
  end.

(** Computations that also change the memory. *)
Definition MM (A : Type) := memory -> M (A * memory).
Definition mret {A} (a : A) : MM A := fun m st => Ret (a, m) st.
Definition mbind {A B} (x : MM A) (f : A -> MM B) : MM B := fun m st =>
  match x m st with
  | Ret (a, m') st' => f a m' st'
  | Exits c st' => Exits c st'
  | Throws e st' => Throws e st'
  | Undefined => Undefined
  | NoFuel => NoFuel
  end.
Notation "x <-- m ;; f" := (mbind m (fun x => f))
  (at level 61, m at next level, right associativity).
Notation "m ;;;; f" := (mbind m (fun _ => f)) (at level 61, right associativity).
(** A computation that does not touch any stored value. *)
Definition lift {A} (x : M A) : MM A := fun m st =>
  match x st with
  | Ret a st' => Ret (a, m) st'
  | Exits c st' => Exits c st'
  | Throws e st' => Throws e st'
  | Undefined => Undefined
  | NoFuel => NoFuel
  end.

Definition store_append (vid : N) (value : str) (aid : N) : MM nat := fun m st =>
  Ret (mem_append m vid value aid)
    (set_values st (append_value (l_values (ps_cur st)) vid value aid)).
Definition store_assign (vid : N) (value : str) (aid : N) : MM nat := fun m st =>
  Ret (mem_assign m vid value aid)
    (set_values st (assign_value (l_values (ps_cur st)) vid value aid)).
Definition store_clear (vid : N) : MM unit := fun m st =>
  Ret (tt, mem_clear m vid) (set_values st (clear_value (l_values (ps_cur st)) vid)).

Section WithSettings.
Variable cfg : settings.

(** ParsedArgumentsBuilder.cpp 20-64, 109-118. *)
Definition mem_value_op (op : value_op) : MM unit :=
  match op with
  | VAssign k v => ids <-- lift (resolve_key k) ;; store_assign (fst ids) v (snd ids) ;;;; mret tt
  | VAppend k v => ids <-- lift (resolve_key k) ;; store_append (fst ids) v (snd ids) ;;;; mret tt
  | VClear k => ids <-- lift (resolve_key k) ;; store_clear (fst ids)
  | VError _ | VErrorAt _ _ => lift (run_value_op cfg op)
  end.
Fixpoint mem_value_ops (ops : list value_op) : MM unit :=
  match ops with
  | [] => mret tt
  | op :: r => mem_value_op op ;;;; mem_value_ops r
  end.

(** The callback reads its [value] (Callbacks.hpp 34) and the values in the map
    through memory. *)
Definition read_value (v : mview) : MM str := fun m st =>
  match read_view m st v with Some s => Ret (s, m) st | None => Undefined end.
Definition read_map : MM store := fun m st =>
  match contents (mem_text m) (mem_cur m) with Some vs => Ret (vs, m) st | None => Undefined end.

(** ArgumentIteratorImpl.cpp 193-204, 295-307. *)
Definition mem_callback (cb : option callback) (ev : str -> event) (v : mview) : MM unit :=
  match cb with
  | None => mret tt
  | Some f =>
      value <-- read_value v ;;
      lift (emit (ev value)) ;;;;
      vs <-- read_map ;;
      calls <-- lift (gets ps_calls) ;;
      let eff := f calls value vs in
      lift (modify count_call) ;;;;
      lift (emit_texts (eff_out eff)) ;;;;
      mem_value_ops (eff_ops eff) ;;;;
      lift (if eff_throws eff then throw ECallback else ret tt) ;;;;
      lift (update_arguments cfg (eff_new eff))
  end.

(** ArgumentIteratorImpl.cpp 148-191: [arg] stays a default constructed string_view
    unless a value is read from the command line. *)
Definition mem_operation (o : opt_data) (flag : str) : MM (option mview) :=
  match o_operation o with
  | OP_ASSIGN =>
      if negb (is_empty (o_constant o)) then
        store_assign (o_value_id o) (o_constant o) (o_argument_id o) ;;;;
        mret (Some NoText)
      else
        v <-- lift m_next_value ;;
        match v with
        | Some value =>
            b <-- store_assign (o_value_id o) value (o_argument_id o) ;;
            mret (Some (Buffer b))
        | None => lift (error cfg (MsgNoValue flag)) ;;;; mret None
        end
  | OP_APPEND =>
      if negb (is_empty (o_constant o)) then
        store_append (o_value_id o) (o_constant o) (o_argument_id o) ;;;;
        mret (Some NoText)
      else
        v <-- lift m_next_value ;;
        match v with
        | Some value =>
            b <-- store_append (o_value_id o) value (o_argument_id o) ;;
            mret (Some (Buffer b))
        | None => lift (error cfg (MsgNoValue flag)) ;;;; mret None
        end
  | OP_CLEAR => store_clear (o_value_id o) ;;;; mret (Some NoText)
  | OP_NONE => mret (Some NoText)
  end.

(** ArgumentIteratorImpl.cpp 144-229, [process_option(opt, flag)]. *)
Definition mem_known_option (o : opt_data) (flag : str) : MM (option_result * mview) :=
  v <-- mem_operation o flag ;;
  match v with
  | None => mret (OR_ERROR, NoText)
  | Some arg =>
      mem_callback (o_callback o) (EvOptionCallback false (o_argument_id o)) arg ;;;;
      mem_callback (option_cb cfg o) (EvOptionCallback true (o_argument_id o)) arg ;;;;
      r <-- lift (apply_type o) ;;
      mret (r, arg)
  end.

(** ArgumentIteratorImpl.cpp 472-478, [reactivate_multi_command_parent]. *)
Fixpoint pop_nodes (k : nat) (cur : nodes) (parents closed : list nodes)
  : nodes * list nodes * list nodes :=
  match k, parents with
  | S k', p :: r => pop_nodes k' p r (cur :: closed)
  | _, _ => (cur, parents, closed)
  end.
Definition mem_reactivate (k : nat) : MM unit := fun m st =>
  let '(cur, parents, closed) := pop_nodes k (mem_cur m) (mem_parents m) (mem_closed m) in
  match reactivate k st with
  | Ret _ st' => Ret (tt, mk_mem (mem_text m) (mem_fresh m) cur parents closed) st'
  | _ => Undefined
  end.

(** What next() returns: IteratorResult. *)
Definition mresult := (iter_code * iter_item * mview)%type.

(** ArgumentIteratorImpl.cpp 231-280, [process_option(flag)]. *)
Definition mem_option (flag : str) : MM mresult :=
  c <-- lift (gets ps_command) ;;
  match find_option c flag (s_abbreviations cfg) (s_case_insensitive cfg) with
  | Some o =>
      ra <-- mem_known_option o flag ;;
      let (r, arg) := (ra : option_result * mview) in
      match r with
      | OR_EXIT =>
          if s_auto_exit cfg then lift (exit_with (s_normal_exit cfg))
          else lift copy_remaining ;;;; mret (IC_OPTION, ItOption o, arg)
      | OR_ERROR => mret (IC_ERROR, ItOption o, NoText)
      | OR_LAST_ARGUMENT =>
          ok <-- lift (check_counts cfg) ;;
          if negb ok then mret (IC_ERROR, ItNone, NoText)
          else
            k <-- lift (gets find_first_multi_command_parent) ;;
            match k with
            | Some k => mem_reactivate k ;;;; mret (IC_OPTION, ItOption o, arg)
            | None => lift copy_remaining ;;;; mret (IC_OPTION, ItOption o, arg)
            end
      | OR_STOP => lift copy_remaining ;;;; mret (IC_OPTION, ItOption o, arg)
      | OR_NORMAL => mret (IC_OPTION, ItOption o, arg)
      end
  | None =>
      if negb (s_ignore_options cfg) then
        cur <-- lift m_current ;;
        lift (error cfg (MsgUnknownOption cur)) ;;;;
        mret (IC_ERROR, ItNone, NoText)
      else
        cur <-- lift m_current ;;
        if negb (starts_with_cs cur flag) then
          lift (error cfg (MsgUnknownOption cur)) ;;;;
          mret (IC_ERROR, ItNone, NoText)
        else
          lift (modify (fun st => set_cur st (add_unprocessed (ps_cur st) [cur]))) ;;;;
          mret (IC_UNKNOWN, ItNone, Current)
  end.

(** ArgumentIteratorImpl.cpp 320-336, [process_command]: the sub-command starts with
    an empty [m_values]. *)
Definition mem_command (c : cmd_data) : MM mresult :=
  (fun m st => Ret (tt, mk_mem (mem_text m) (mem_fresh m) [] (mem_cur m :: mem_parents m) (mem_closed m))
    (mk_ps c (new_level c) (ps_cur st :: ps_parents st) (ps_iter st)
      (ps_counter st) (ps_mode st) (ps_calls st) (ps_events st))) ;;;;
  lift (start_counter cfg) ;;;;
  lift (modify (fun st => set_mode st ARGUMENTS_AND_OPTIONS)) ;;;;
  lift m_current ;;;;
  mret (IC_COMMAND, ItCommand c, Current).

(** ArgumentIteratorImpl.cpp 282-318, [process_argument]. *)
Definition mem_argument (value : str) : MM mresult :=
  sib <-- lift (gets (fun st => find_sibling_command cfg st value)) ;;
  match sib with
  | Some (c, k) => mem_reactivate k ;;;; mem_command c
  | None =>
      a <-- lift m_next_argument ;;
      match a with
      | Some a =>
          b <-- store_append (a_value_id a) value (a_argument_id a) ;;
          mem_callback (a_callback a) (EvArgumentCallback false (a_argument_id a)) (Buffer b) ;;;;
          mem_callback (argument_cb cfg a) (EvArgumentCallback true (a_argument_id a)) (Buffer b) ;;;;
          mret (IC_ARGUMENT, ItArgument a, Buffer b)
      | None =>
          if s_ignore_arguments cfg then
            lift (modify (fun st => set_cur st (add_unprocessed (ps_cur st) [value]))) ;;;;
            lift m_current ;;;;
            mret (IC_UNKNOWN, ItNone, Current)
          else
            lift (error cfg (MsgTooManyArguments value)) ;;;;
            mret (IC_ERROR, ItNone, NoText)
      end
  end.

(** ArgumentIteratorImpl.cpp 111-129. *)
Definition mem_token (mode : pmode) (arg : str) : MM mresult :=
  c <-- lift (gets ps_command) ;;
  if match mode with ARGUMENTS_AND_OPTIONS => true | _ => false end
     && is_option arg (s_style cfg)
  then mem_option arg
  else if is_empty (c_commands c) then mem_argument arg
  else match find_command c arg (s_case_insensitive cfg) with
       | Some d => mem_command d
       | None => lift (error cfg (MsgUnknownCommand arg)) ;;;; mret (IC_ERROR, ItNone, NoText)
       end.

(** ArgumentIteratorImpl.cpp 93-130, [next]. *)
Definition mem_next : MM mresult :=
  mode <-- lift (gets ps_mode) ;;
  match mode with
  | ST_ERROR => lift (throw ENextAfterError)
  | ST_DONE => mret (IC_DONE, ItNone, NoText)
  | _ =>
      t <-- lift (match mode with
                  | ARGUMENTS_AND_OPTIONS => m_next
                  | _ => m_next_value
                  end) ;;
      match t with
      | None =>
          ok <-- lift (check_counts cfg) ;;
          mret (if (ok : bool) then IC_DONE else IC_ERROR, ItNone, NoText)
      | Some arg => mem_token mode arg
      end
  end.

End WithSettings.

(** ArgumentIteratorImpl.cpp 54-63: the initial values of the top-level options. *)
Definition initial_memory (opts : list opt_data) : memory :=
  fold_left (fun m o =>
    if negb (is_empty (o_initial_value o))
    then snd (mem_append m (o_value_id o) (o_initial_value o) (o_argument_id o))
    else m) opts empty_memory.
