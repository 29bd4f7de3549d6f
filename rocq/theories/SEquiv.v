(** Specification of "the same outcome" for two command lines (C04, C05). *)
From Verif Require Import Base MStrings MOptIter MData MCounter MValues MParser SIndex SStep.

(** When two effects count as the same: if they are equal, or, in [ev_alike], if
    both are the message about an unknown option. It shows the argument the option
    stands in, which may be spelled differently. *)
Record ev_rel := mk_ev_rel { ev_of :> event -> event -> Prop; ev_refl : forall e, ev_of e e }.
Definition ev_same : ev_rel := mk_ev_rel eq (@eq_refl event).
Definition alike_events (e f : event) : Prop :=
  e = f \/ exists c m n, e = EvError c (MsgUnknownOption m) /\ f = EvError c (MsgUnknownOption n).
Definition ev_alike : ev_rel := mk_ev_rel alike_events (fun e => or_introl eq_refl).

(** The same state except for the arguments that have not been read. *)
Record same_state (E : ev_rel) (s t : pstate) : Prop := {
  ss_command : ps_command t = ps_command s;
  ss_cur : ps_cur t = ps_cur s;
  ss_parents : ps_parents t = ps_parents s;
  ss_counter : ps_counter t = ps_counter s;
  ss_mode : ps_mode t = ps_mode s;
  ss_calls : ps_calls t = ps_calls s;
  ss_events : Forall2 E (ps_events s) (ps_events t)
}.
Arguments ss_command {E s t}.
Arguments ss_cur {E s t}.
Arguments ss_parents {E s t}.
Arguments ss_counter {E s t}.
Arguments ss_mode {E s t}.
Arguments ss_calls {E s t}.
Arguments ss_events {E s t}.

(** Both return (in the same state), exit with the same code or throw the same
    exception. *)
Definition same_outcome (E : ev_rel) {A} (RA : A -> A -> Prop) (Q : pstate -> pstate -> Prop)
  (o1 o2 : outcome A) : Prop :=
  match o1, o2 with
  | Ret a s, Ret b t => RA a b /\ same_state E s t /\ Q s t
  | Exits c s, Exits d t => c = d /\ same_state E s t
  | Throws e s, Throws f t => e = f /\ same_state E s t
  | Undefined, Undefined => True
  | NoFuel, NoFuel => True
  | _, _ => False
  end.

(** What is read next is what is read from the beginning of [l]. *)
Definition before_args (it : opt_iter) (l : list str) : Prop :=
  it_next it = it_next (it_start (it_kind it) l).

(** The flag selects the option [o] of command [c]. *)
Definition chooses (cfg : settings) (c : cmd_data) (flag : str) (o : opt_data) : Prop :=
  dependable cfg c flag /\
  selects (s_case_insensitive cfg) (s_abbreviations cfg) (c_options c) flag o.

(** Ways to give the value [v] to the option [o] of command [c]. *)
Inductive spelling (cfg : settings) (c : cmd_data) (o : opt_data) (v : str) : list str -> Prop :=
| sp_long_eq : forall n, s_style cfg = STANDARD -> ~ In "="%char n ->
    chooses cfg c ($"--" ++ n ++ ["="%char]) o ->
    spelling cfg c o v [$"--" ++ n ++ "="%char :: v]
| sp_long : forall n, s_style cfg = STANDARD -> ~ In "="%char n ->
    chooses cfg c ($"--" ++ n) o -> spelling cfg c o v [$"--" ++ n; v]
| sp_short : forall x, s_style cfg = STANDARD -> x <> "-"%char -> v <> [] ->
    chooses cfg c ["-"%char; x] o -> spelling cfg c o v ["-"%char :: x :: v]
| sp_short_next : forall x, s_style cfg = STANDARD -> x <> "-"%char ->
    chooses cfg c ["-"%char; x] o -> spelling cfg c o v [["-"%char; x]; v]
| sp_slash_eq : forall n, s_style cfg = SLASH -> n <> [] -> ~ In "="%char n ->
    chooses cfg c ("/"%char :: n ++ ["="%char]) o ->
    spelling cfg c o v ["/"%char :: n ++ "="%char :: v]
| sp_slash : forall n, s_style cfg = SLASH -> n <> [] -> ~ In "="%char n -> v <> [] ->
    chooses cfg c ("/"%char :: n) o -> spelling cfg c o v ["/"%char :: n; v]
| sp_dash_eq : forall n, s_style cfg = DASH -> n <> [] -> ~ In "="%char n ->
    chooses cfg c ("-"%char :: n ++ ["="%char]) o ->
    spelling cfg c o v ["-"%char :: n ++ "="%char :: v]
| sp_dash : forall n, s_style cfg = DASH -> n <> [] -> ~ In "="%char n -> v <> [] ->
    chooses cfg c ("-"%char :: n) o -> spelling cfg c o v ["-"%char :: n; v].

(** The same arguments are read next. *)
Definition same_reading (s t : pstate) : Prop :=
  (ps_mode s = ARGUMENTS_AND_OPTIONS -> it_next (ps_iter s) = it_next (ps_iter t)) /\
  (ps_mode s = ARGUMENTS_ONLY -> it_next_value (ps_iter s) = it_next_value (ps_iter t)).

(** The same item; the text may differ for what is not known as an option and for
    the name of a sub-command. *)
Definition ir_alike (r q : iter_result) : Prop :=
  ir_code r = ir_code q /\ ir_item r = ir_item q /\
  (ir_code r <> IC_UNKNOWN -> ir_code r <> IC_COMMAND -> ir_value r = ir_value q).

(** Callers that do not look at the states. *)
Definition any_states (s t : pstate) : Prop := True.
