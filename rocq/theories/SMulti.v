(** Specification of what a command line means if commands may be followed by further
    sub-commands of a command above them (C73). Tokens, texts and words are those of
    [SLine]. *)
From Verif Require Import Base MOptIter MData MCounter MValues MParser
  SIndex SDef SValues SCounter SParser SStep SLook SEquiv SApi SLine.

(* ------------------------------------------------------------------------ *)
(** ** Results *)

(** The results of a command: what has been done to its values, its result code, the
    option that stopped the parsing, if any, the arguments that are left and the
    results of its sub-commands. *)
Inductive node :=
| Node (c : cmd_data) (h : list change) (rc : result_code) (stop : option opt_data)
    (left : list str) (subs : list node).

Inductive shows : node -> level -> Prop :=
| shows_node : forall c h rc stop left subs l, l_command l = c ->
    (forall id, get_values (l_values l) id = history h id) -> l_result l = rc -> l_stop l = stop ->
    l_unprocessed l = left -> Forall2 shows subs (l_subs l) -> shows (Node c h rc stop left subs) l.

(* ------------------------------------------------------------------------ *)
(** ** Commands that are being read *)

(** A command with the words that have been read for it and the results of the
    sub-commands that have ended. *)
Record open := mk_open {
  op_command : cmd_data;
  op_init : list change;
  op_words : list word;
  op_result : result_code;
  op_subs : list node
}.

Definition opened (d : cmd_data) : open := mk_open d [] [] RC_NONE [].
Definition outermost (top : cmd_data) : open := mk_open top (at_first top) [] RC_NONE [].
Definition with_word (x : open) (w : word) : open :=
  mk_open (op_command x) (op_init x) (op_words x ++ [w]) (op_result x) (op_subs x).
Definition with_sub (x : open) (n : node) : open :=
  mk_open (op_command x) (op_init x) (op_words x) (op_result x) (op_subs x ++ [n]).
Definition successful (x : open) : open :=
  mk_open (op_command x) (op_init x) (op_words x) RC_SUCCESS (op_subs x).

(** The number of its arguments. *)
Definition given (x : open) : N := N.of_nat (length (positionals (op_words x))).

(** What is done to its values if its arguments are distributed fairly. *)
Definition settled (x : open) (h : list change) : Prop :=
  let args := c_arguments (op_command x) in
  exists ks, fair args (given x) ks /\ h = op_init x ++ meant (order (combine ks args)) (op_words x).

(** What may have been done to its values before all its arguments are known. *)
Definition unsettled (x : open) (h : list change) : Prop :=
  exists got, length got = length (positionals (op_words x)) /\
    (forall a, In a got -> In a (c_arguments (op_command x))) /\ h = op_init x ++ meant got (op_words x).

(** There is nothing wrong with it: it has got a sub-command if it must have one, a
    permitted number of arguments, and every option that must be given has got a value. *)
Definition faultless (x : open) (h : list change) : Prop :=
  (c_require (op_command x) = Some true -> op_subs x <> []) /\
  last_used (c_arguments (op_command x)) (given x) /\ settled x h /\
  forall o, In o (c_options (op_command x)) -> o_optional o = false -> history h (o_value_id o) <> [].

(** What is wrong with it. *)
Definition defect (x : open) (h : list change) (m : errmsg) : Prop :=
  let c := op_command x in
  (exists before o after, c_options c = before ++ o :: after /\ lacks h o /\
     (forall b, In b before -> ~ lacks h b) /\ m = MsgMandatoryMissing (commas (o_flags o))) \/
  ((forall o, In o (c_options c) -> ~ lacks h o) /\ c_require c = Some true /\ op_subs x = [] /\
     m = MsgNoCommand) \/
  ((forall o, In o (c_options c) -> ~ lacks h o) /\ (c_require c = Some true -> op_subs x <> []) /\
     ~ ((minima (c_arguments c) <= given x)%N /\ last_used (c_arguments c) (given x)) /\
     m = MsgTooFewArguments (minima (c_arguments c) =? maxima (c_arguments c))%N
           (minima (c_arguments c)) (given x)).

(** [leaves x z m z']: the command [x] ends, and so do the commands above it, [z],
    innermost first, up to the first one that accepts several sub-commands, which
    becomes [m] with [z'] above it. *)
Definition ended_as (x : open) (h : list change) : node :=
  Node (op_command x) h (op_result x) None [] (op_subs x).
Inductive leaves : open -> list open -> open -> list open -> Prop :=
| lv_here : forall x h p z, settled x h -> c_multi (op_command p) = true ->
    leaves x (p :: z) (with_sub p (ended_as x h)) z
| lv_further : forall x h p z m z', settled x h -> c_multi (op_command p) = false ->
    leaves (with_sub p (ended_as x h)) z m z' -> leaves x (p :: z) m z'.

(** The innermost command above that accepts several sub-commands. *)
Inductive resumable : list open -> cmd_data -> Prop :=
| rs_here : forall p z, c_multi (op_command p) = true -> resumable (p :: z) (op_command p)
| rs_further : forall p z m, c_multi (op_command p) = false -> resumable z m -> resumable (p :: z) m.

(** [t] is the name of another sub-command of it, [d], where the current command has
    got enough arguments. *)
Definition another (cfg : settings) (x : open) (z : list open) (t : str) (d : cmd_data) : Prop :=
  (minima (c_arguments (op_command x)) <= given x)%N /\
  exists m, resumable z m /\ first_named cfg m t d.

(* ------------------------------------------------------------------------ *)
(** ** The meaning of a line *)

(** How a line ends: [x] is the last command and [z] are those above it. *)
Inductive outcome :=
| Complete (x : open) (z : list open) (left : list str)
| Incomplete (x : open) (z : list open) (left : list str)
| Surplus (x : open) (z : list open) (t : str) (left : list str)
| Stopped (x : open) (z : list open) (o : opt_data) (left : list str)
| Faulty (x : open) (z : list open) (e : ending).

Inductive means (cfg : settings) : bool -> open -> list open -> place -> outcome -> Prop :=
| mn_complete : forall only x z pl, (if only : bool then no_text pl else no_token pl) ->
    (exists h, faultless x h) -> means cfg only x z pl (Complete x z [])
| mn_incomplete : forall only x z pl, (if only : bool then no_text pl else no_token pl) ->
    (forall h, ~ faultless x h) -> means cfg only x z pl (Incomplete x z [])
| mn_positional : forall only x z pl t pl' out, plain cfg only pl t pl' ->
    c_commands (op_command x) = [] -> no_beginning cfg (op_command x) t ->
    (forall d, ~ another cfg x z t d) -> (given x < maxima (c_arguments (op_command x)))%N ->
    means cfg only (with_word x (Positional t)) z pl' out -> means cfg only x z pl out
| mn_surplus : forall only x z pl t pl', plain cfg only pl t pl' ->
    c_commands (op_command x) = [] -> (forall d, ~ another cfg x z t d) ->
    (maxima (c_arguments (op_command x)) <= given x)%N ->
    means cfg only x z pl (Surplus x z t (left_at pl'))
| mn_unfair : forall only x z pl t pl' d, plain cfg only pl t pl' ->
    c_commands (op_command x) = [] -> no_beginning cfg (op_command x) t -> another cfg x z t d ->
    ~ last_used (c_arguments (op_command x)) (given x) ->
    means cfg only x z pl (Surplus x z t (left_at pl'))
| mn_another : forall only x z pl t pl' d m z' out, plain cfg only pl t pl' ->
    c_commands (op_command x) = [] -> no_beginning cfg (op_command x) t -> another cfg x z t d ->
    last_used (c_arguments (op_command x)) (given x) -> leaves x z m z' ->
    means cfg false (opened d) (m :: z') pl' out -> means cfg only x z pl out
| mn_command : forall only x z pl t pl' d out, plain cfg only pl t pl' ->
    first_named cfg (op_command x) t d ->
    means cfg false (opened d) (x :: z) pl' out -> means cfg only x z pl out
| mn_no_command : forall only x z pl t pl', plain cfg only pl t pl' ->
    c_commands (op_command x) <> [] -> (forall d, ~ first_named cfg (op_command x) t d) ->
    means cfg only x z pl (Faulty x z (AtNoCommand t (left_at pl')))
| mn_option : forall x z pl t o pl' v pl'' out, flag cfg (op_command x) pl t o pl' ->
    takes (s_style cfg) o pl' v pl'' -> foreseen cfg (op_command x) (Optional o v) ->
    o_type o = OT_NORMAL -> means cfg false (with_word x (Optional o v)) z pl'' out ->
    means cfg false x z pl out
| mn_last_option : forall x z pl t o pl' v pl'' out, flag cfg (op_command x) pl t o pl' ->
    takes (s_style cfg) o pl' v pl'' -> foreseen cfg (op_command x) (Optional o v) ->
    o_type o = OT_LAST_OPTION -> means cfg true (with_word x (Optional o v)) z pl'' out ->
    means cfg false x z pl out
| mn_last : forall x z pl t o pl' v pl'', flag cfg (op_command x) pl t o pl' ->
    takes (s_style cfg) o pl' v pl'' -> o_type o = OT_LAST_ARGUMENT ->
    (exists h, faultless (with_word x (Optional o v)) h) -> (forall m, ~ resumable z m) ->
    means cfg false x z pl (Complete (with_word x (Optional o v)) z (left_at pl''))
| mn_too_early : forall x z pl t o pl' v pl'', flag cfg (op_command x) pl t o pl' ->
    takes (s_style cfg) o pl' v pl'' -> o_type o = OT_LAST_ARGUMENT ->
    (forall h, ~ faultless (with_word x (Optional o v)) h) ->
    means cfg false x z pl (Incomplete (with_word x (Optional o v)) z (left_at pl''))
| mn_return : forall x z pl t o pl' v pl'' m z' out, flag cfg (op_command x) pl t o pl' ->
    takes (s_style cfg) o pl' v pl'' -> o_type o = OT_LAST_ARGUMENT ->
    (exists h, faultless (with_word x (Optional o v)) h) ->
    leaves (successful (with_word x (Optional o v))) (map successful z) m z' ->
    means cfg true m z' pl'' out -> means cfg false x z pl out
| mn_stop : forall x z pl t o pl' v pl'', flag cfg (op_command x) pl t o pl' ->
    takes (s_style cfg) o pl' v pl'' ->
    o_type o = OT_STOP \/ o_type o = OT_EXIT \/ o_type o = OT_HELP ->
    means cfg false x z pl (Stopped (with_word x (Optional o v)) z o (left_at pl''))
| mn_unknown : forall x z pl t pl', token (s_style cfg) pl t pl' -> looks_like_option (s_style cfg) t ->
    dependable cfg (op_command x) t -> unknown_option cfg (op_command x) t ->
    means cfg false x z pl (Faulty x z (AtUnknown t (left_at pl')))
| mn_no_value : forall x z pl t o pl', flag cfg (op_command x) pl t o pl' -> takes_value o ->
    no_text pl' -> means cfg false x z pl (Faulty x z (AtNoValue t)).

(** The results of the whole line: [n] are those of the last command, [z] the commands
    above it. Their result code is [rc], or what it was if there is none. *)
Fixpoint whole (rc : option result_code) (n : node) (z : list open) : node :=
  match z with
  | [] => n
  | p :: r =>
      whole rc (Node (op_command p) (op_init p ++ meant [] (op_words p))
                  (match rc with Some y => y | None => op_result p end) None []
                  (op_subs p ++ [n])) r
  end.

(** Parsing fails with the error [m] in the command [c], and these are the results
    unless the program exits. *)
Definition fails (cfg : settings) (top : cmd_data) (args : list str) (c : cmd_data) (m : errmsg)
  (n : node) : Prop :=
  exists evs st, Forall quiet evs /\ ps_events st = evs ++ [EvError c m] /\
    if s_auto_exit cfg
    then exists fuel, run_parser cfg fuel top args = Exits (s_error_exit cfg) st
    else parsed cfg top args st /\ shows n (toplevel st).

(** What the user sees of an outcome. *)
Definition yields (cfg : settings) (top : cmd_data) (args : list str) (out : outcome) : Prop :=
  let failed x z rest h :=
    whole (Some RC_FAILURE) (Node (op_command x) h RC_FAILURE None rest (op_subs x)) z in
  match out with
  | Complete x z rest => exists h, faultless x h /\
      exists st, parsed cfg top args st /\ Forall quiet (ps_events st) /\
        shows (whole (Some RC_SUCCESS) (Node (op_command x) h RC_SUCCESS None rest (op_subs x)) z)
          (toplevel st)
  | Incomplete x z rest => exists h m, unsettled x h /\ defect x h m /\
      fails cfg top args (op_command x) m (failed x z rest h)
  | Surplus x z t rest => exists h, unsettled x h /\
      fails cfg top args (op_command x) (MsgTooManyArguments t) (failed x z rest h)
  | Faulty x z e => exists h m rest, unsettled x h /\ complaint args e m rest /\
      fails cfg top args (op_command x) m (failed x z rest h)
  | Stopped x z o rest => exists h, unsettled x h /\
      exists evs st, Forall quiet evs /\
        ps_events st = evs ++ match o_type o with OT_HELP => [EvHelp (op_command x)] | _ => [] end /\
        if s_auto_exit cfg && match o_type o with OT_STOP => false | _ => true end
        then exists fuel, run_parser cfg fuel top args = Exits (s_normal_exit cfg) st
        else parsed cfg top args st /\
             shows (whole None (Node (op_command x) h RC_STOP (Some o) rest (op_subs x)) z) (toplevel st)
  end.

(** The definitions considered, as for C71 but without a limit on sub-commands. *)
Definition orderly (cfg : settings) (top : cmd_data) : Prop :=
  sound top /\ no_insertions cfg top /\ no_interference cfg top /\
  s_ignore_arguments cfg = false /\ s_ignore_options cfg = false.

(** Look-ahead understands the options and arguments of every command. *)
Definition clear (cfg : settings) (top : cmd_data) : Prop :=
  forall c, within top c ->
    (forall t, no_beginning cfg c t) /\
    (forall o, In o (c_options c) -> o_argument o <> [] -> takes_value o).
