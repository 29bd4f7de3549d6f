(** Specification used by PTextCall.v: which text callbacks a help text or an error
    message calls, and the command with the callbacks' answers as its texts. *)
From Verif Require Import Base MData MText MTextCall.

(* ------------------------------------------------------------------------ *)
(** ** Calls *)

(** A call and what was returned. *)
Definition exchange := (slot * str)%type.

(** The callbacks have returned this when they were called after [l]. *)
Definition returned (t : text_calls) (l : list slot) (q : list exchange) : Prop :=
  forall before s a after, q = before ++ (s, a) :: after ->
    tc_answer t (l ++ map fst before) s = Some a.

(** A text of the command is needed: what it is, and the call for it. *)
Inductive needs (t : text_calls) (c : cmd_data) (id : text_id) : option str -> list exchange -> Prop :=
| needs_missing : find_text (c_texts c) id = None -> needs t c id None []
| needs_stored : forall s, find_text (c_texts c) id = Some s -> tc_called t (S_text id) = false ->
    needs t c id (Some s) []
| needs_called : forall s a, find_text (c_texts c) id = Some s -> tc_called t (S_text id) = true ->
    needs t c id (Some a) [(S_text id, a)].

(** The usage: the text itself is needed twice, unless it is empty. *)
Inductive needs_usage (t : text_calls) (c : cmd_data) : list exchange -> Prop :=
| usage_empty : forall q, needs t c TX_USAGE (Some []) q -> needs_usage t c q
| usage_shown : forall u q1 title q2 u2 q3, needs t c TX_USAGE u q1 -> u <> Some [] ->
    needs t c TX_USAGE_TITLE title q2 -> needs t c TX_USAGE u2 q3 ->
    needs_usage t c (q1 ++ q2 ++ q3).

(** The help text of each visible item is needed once, in the order of definition. *)
Definition visible_argument (c : cmd_data) (i : nat) : bool :=
  match nth_error (c_arguments c) i with Some a => vis_text (a_visibility a) | None => false end.
Definition visible_option (c : cmd_data) (i : nat) : bool :=
  match nth_error (c_options c) i with Some o => vis_text (o_visibility o) | None => false end.
Definition visible_command (c : cmd_data) (i : nat) : bool :=
  match nth_error (c_commands c) i with
  | Some x => vis_text (c_visibility x) && match find_text (c_texts x) TX_HELP with Some _ => true | None => false end
  | None => false
  end.
Definition needs_items (t : text_calls) (place : nat -> slot) (visible : nat -> bool) (n : nat)
  (q : list exchange) : Prop :=
  map fst q = map place (filter (fun i => visible i && tc_called t (place i)) (seq 0 n)).

(** A help text. *)
Inductive needs_help (t : text_calls) (c : cmd_data) : list exchange -> Prop :=
| needs_help_intro : forall x1 x3 x4 x5 x7 x9 x11 q1 q2 q3 q4 q5 q6 q7 q8 q9 q10 q11,
    needs t c TX_INITIAL_TEXT x1 q1 ->
    needs_usage t c q2 ->
    needs t c TX_ABOUT x3 q3 ->
    (* HELP only if there is no ABOUT *)
    ((x3 = None \/ x3 = Some []) /\ needs t c TX_HELP x4 q4 \/ (x3 <> None /\ x3 <> Some []) /\ q4 = []) ->
    needs t c TX_ARGUMENTS_TITLE x5 q5 ->
    needs_items t S_argument (visible_argument c) (length (c_arguments c)) q6 ->
    needs t c TX_SUBCOMMANDS_TITLE x7 q7 ->
    needs_items t S_subcommand (visible_command c) (length (c_commands c)) q8 ->
    needs t c TX_OPTIONS_TITLE x9 q9 ->
    needs_items t S_option (visible_option c) (length (c_options c)) q10 ->
    needs t c TX_FINAL_TEXT x11 q11 ->
    needs_help t c (q1 ++ q2 ++ q3 ++ q4 ++ q5 ++ q6 ++ q7 ++ q8 ++ q9 ++ q10 ++ q11).

(** An error message. *)
Inductive needs_error (t : text_calls) (c : cmd_data) : list exchange -> Prop :=
| error_own : forall s q, needs t c TX_ERROR_USAGE (Some s) q -> needs_error t c q
| error_usage : forall q, needs t c TX_ERROR_USAGE None [] -> needs_usage t c q -> needs_error t c q.

(* ------------------------------------------------------------------------ *)
(** ** Answers as texts *)

Definition text_at (called : slot -> bool) (ans : slot -> str) (s : slot) (stored : str) : str := if called s then ans s else stored.
Definition with_help_a (called : slot -> bool) (ans : slot -> str) (i : nat) (a : arg_data) : arg_data :=
  mk_arg (a_name a) (text_at called ans (S_argument i) (a_help a)) (a_section a) (a_alias a) (a_callback a)
    (a_min a) (a_max a) (a_visibility a) (a_value_id a) (a_argument_id a).
Definition with_help_o (called : slot -> bool) (ans : slot -> str) (i : nat) (o : opt_data) : opt_data :=
  mk_opt (o_flags o) (text_at called ans (S_option i) (o_help o)) (o_section o) (o_alias o) (o_argument o)
    (o_constant o) (o_initial_value o) (o_callback o) (o_operation o) (o_type o) (o_visibility o)
    (o_optional o) (o_argument_id o) (o_value_id o).
Definition with_texts (called : slot -> bool) (ans : slot -> str) (place : text_id -> slot) (c : cmd_data) : list (text_id * str) :=
  map (fun p => (fst p, text_at called ans (place (fst p)) (snd p))) (c_texts c).
(** Of the texts of a sub-command only HELP is used. *)
Definition with_help_c (called : slot -> bool) (ans : slot -> str) (i : nat) (c : cmd_data) : cmd_data :=
  mk_cmd (c_arguments c) (c_options c) (c_commands c) (c_current_section c) (c_name c) (c_full_name c)
    (map (fun p => (fst p, match fst p with TX_HELP => text_at called ans (S_subcommand i) (snd p) | _ => snd p end)) (c_texts c))
    (c_visibility c) (c_require c) (c_multi c) (c_section c) (c_argument_id c) (c_index c).
Fixpoint number {A} (g : nat -> A -> A) (i : nat) (l : list A) : list A :=
  match l with [] => [] | x :: r => g i x :: number g (S i) r end.
Definition answered (called : slot -> bool) (ans : slot -> str) (c : cmd_data) : cmd_data :=
  mk_cmd (number (with_help_a called ans) 0 (c_arguments c)) (number (with_help_o called ans) 0 (c_options c))
    (number (with_help_c called ans) 0 (c_commands c)) (c_current_section c) (c_name c) (c_full_name c)
    (with_texts called ans S_text c) (c_visibility c) (c_require c) (c_multi c) (c_section c) (c_argument_id c) (c_index c).

(** The output so far. *)
Definition printed (f : formatter) : str := w_out (f_writer f).

(* ------------------------------------------------------------------------ *)
(** ** How often *)

Definition slot_eqb (a b : slot) : bool :=
  match a, b with
  | S_text i, S_text j => text_id_eqb i j
  | S_argument i, S_argument j | S_subcommand i, S_subcommand j | S_option i, S_option j => Nat.eqb i j
  | _, _ => false
  end.
(** How many times the callback was called. *)
Definition times (s : slot) (l : list slot) : nat := length (filter (slot_eqb s) l).

(** Texts that a help text of the command can show. *)
Definition shown_in_help (c : cmd_data) (s : slot) : Prop :=
  match s with
  | S_text id => find_text (c_texts c) id <> None /\ id <> TX_ERROR_USAGE
  | S_argument i => visible_argument c i = true
  | S_subcommand i => visible_command c i = true
  | S_option i => visible_option c i = true
  end.
(** Texts that an error message can show. *)
Definition shown_in_error (c : cmd_data) (s : slot) : Prop :=
  match s with
  | S_text id => find_text (c_texts c) id <> None /\ (id = TX_ERROR_USAGE \/ id = TX_USAGE \/ id = TX_USAGE_TITLE)
  | _ => False
  end.

(** What is written with these texts, and what happens. *)
Definition same_outcome (r : tres formatter) (x : cres unit) : Prop :=
  match r with
  | TOk f => exists l, x = CDone tt f l
  | TThrows e => exists l, x = CFormat e l
  | TBad => x = CBad
  | TNoFuel => x = CNoFuel
  end.
