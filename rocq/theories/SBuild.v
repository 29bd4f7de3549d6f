(** Specification used by PBuild.v: what calls leave behind in an object. *)
From Verif Require Import Base MStrings MOptIter MData MCounter MValues MParser MText MHelp MApi.

(* ------------------------------------------------------------------------ *)
(** ** The last call (C76) *)

(** [f] gives the value that a call sets, if it is about the property in question: the
    property has the value of the last such call, or else the default. *)
Definition settled {C V : Type} (f : C -> option V) (cs : list C) (default v : V) : Prop :=
  (exists before c after, cs = before ++ c :: after /\ f c = Some v /\ forall c', In c' after -> f c' = None) \/
  ((forall c, In c cs -> f c = None) /\ v = default).

(** The limits that a call sets, if it is accepted. *)
Definition sets_limits (c : arg_call) : option (N * N) :=
  match c with
  | A_count n => if (n =? 0)%N then None else Some (n, n)
  | A_counts lo hi => if (hi =? 0)%N || (hi <? lo)%N then None else Some (lo, hi)
  | _ => None
  end.
(** Calls that set the least number, and calls that make it at least one. *)
Definition sets_least (c : arg_call) : option N :=
  match c with
  | A_optional true | A_mandatory false => Some 0%N
  | _ => option_map fst (sets_limits c)
  end.
Definition requires_one (c : arg_call) : Prop := c = A_optional false \/ c = A_mandatory true.

(** The least number after the calls: that of the last call that set it, at least one if
    a later call says that the argument is mandatory. *)
Definition least_after (cs : list arg_call) (n : N) : Prop :=
  exists base after, 
    ((exists before c, cs = before ++ c :: after /\ sets_least c = Some base) \/ (cs = after /\ base = 1%N)) /\
    (forall c, In c after -> sets_least c = None) /\
    ((exists c, In c after /\ requires_one c) -> n = N.max 1 base) /\
    (~ (exists c, In c after /\ requires_one c) -> n = base).

Definition same_text (a b : text_id) : {a = b} + {a <> b}.
Proof. decide equality. Defined.

(** The text that a call sets. *)
Definition sets_text (t : text_id) (c : cmd_call) : option (option str) :=
  match c with
  | C_help s => if same_text t TX_HELP then Some (Some s) else None
  | C_about s => if same_text t TX_ABOUT then Some (Some s) else None
  | C_text t' s => if same_text t t' then Some (Some s) else None
  | _ => None
  end.
Definition text_is (c : cmd_data) (t : text_id) (v : option str) : Prop :=
  match v with
  | Some x => forall y, In (t, y) (c_texts c) <-> y = x
  | None => forall y, ~ In (t, y) (c_texts c)
  end.

(** A program that makes calls to a command. *)
Fixpoint call_commands (cs : list cmd_call) (o : option cmd_data) : option cmd_data :=
  match cs with
  | [] => o
  | c :: r => call_commands r (snd (call_command c o))
  end.

(** A setter of the parser's command, a setting. *)
Definition on_command {V} (f : cmd_call -> option V) (c : parser_call) : option V :=
  match c with P_command u => f u | _ => None end.
Definition on_settings {V} (f : setting_call -> option V) (c : parser_call) : option V :=
  match c with P_setting u => f u | _ => None end.

(** The word splitting rules of the calls. *)
Definition rules_of (cs : list parser_call) : list str :=
  flat_map (fun c => match c with P_word_rule s => [s] | _ => [] end) cs.

(* ------------------------------------------------------------------------ *)
(** ** Copies (C75) *)

(** [d] is a copy of the command [c]: everything is the same, but the copy and all its
    sub-commands are visible. *)
Inductive copied : cmd_data -> cmd_data -> Prop :=
| copied_all : forall c d,
    c_arguments d = c_arguments c -> c_options d = c_options c -> Forall2 copied (c_commands c) (c_commands d) ->
    c_current_section d = c_current_section c -> c_name d = c_name c -> c_full_name d = c_full_name c ->
    c_texts d = c_texts c -> c_visibility d = vis_normal -> c_require d = c_require c -> c_multi d = c_multi c ->
    c_section d = c_section c -> c_argument_id d = c_argument_id c -> c_index d = [] ->
    copied c d.

(** [c'] is what becomes of [c] when [s] is copied into it: [r] is how the call ends. *)
Definition copied_into (s c : cmd_data) (r : call unit) (c' : cmd_data) : Prop :=
  c_arguments c' = c_arguments c ++ c_arguments s /\
  c_options c' = c_options c ++ c_options s /\
  (exists ds, Forall2 copied (c_commands s) ds /\ c_commands c' = c_commands c ++ ds) /\
  c_current_section c' = c_current_section c /\ c_name c' = c_name c /\ c_full_name c' = c_full_name c /\
  c_visibility c' = c_visibility c /\ c_require c' = c_require c /\ c_section c' = c_section c /\
  c_argument_id c' = c_argument_id c /\ c_index c' = c_index c /\
  (forall t x, In (t, x) (c_texts c) -> In (t, x) (c_texts c')) /\
  (forall t x, In (t, x) (c_texts c') -> In (t, x) (c_texts c) \/ In (t, x) (c_texts s)) /\
  ((exists t x y, In (t, x) (c_texts s) /\ In (t, y) (c_texts c)) ->
     r = Raised EDuplicateText /\ c_multi c' = c_multi c) /\
  ((forall t x y, In (t, x) (c_texts s) -> ~ In (t, y) (c_texts c)) ->
     r = Done tt /\ c_multi c' = c_multi c || c_multi s /\
     forall t x, In (t, x) (c_texts s) -> In (t, x) (c_texts c')).
