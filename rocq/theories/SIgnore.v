(** Specification of command lines in which unknown options are ignored (C88). It
    extends SLine.v by arguments that are left out. *)
From Verif Require Import Base MOptIter MData MCounter MValues MParser
  SIndex SDef SValues SCounter SParser SStep SLook SEquiv SApi SLine.

(** The parts of a command line: words as in SLine.v, and arguments that are ignored. *)
Inductive item := Read (w : word) | Ignored (a : str).

Definition words (is : list item) : list word :=
  flat_map (fun i => match i with Read w => [w] | Ignored _ => [] end) is.
Definition ignored (is : list item) : list str :=
  flat_map (fun i => match i with Read _ => [] | Ignored a => [a] end) is.
Definition words_of (seg : cmd_data * list item) : cmd_data * list word := (fst seg, words (snd seg)).

(** The next argument, [a], is an unknown option, with or without a value after "=". It is
    not part of a group of flags, see C35 for these. *)
Definition ignorable (cfg : settings) (c : cmd_data) (pl : place) (a : str) (pl' : place) : Prop :=
  s_ignore_options cfg = true /\ match pl with Group _ _ => False | _ => True end /\
  left_at pl = a :: left_at pl' /\
  exists t, token (s_style cfg) pl t pl' /\ looks_like_option (s_style cfg) t /\
    dependable cfg c t /\ unknown_option cfg c t.

(** [reading] with [Ignored] arguments. *)
Inductive skimming (cfg : settings) : bool -> cmd_data -> place -> list item ->
  list (cmd_data * list item) -> ending -> Prop :=
| sk_ignored : forall c pl a pl' is subs e, ignorable cfg c pl a pl' ->
    skimming cfg false c pl' is subs e -> skimming cfg false c pl (Ignored a :: is) subs e
| sk_end : forall c pl, no_token pl -> skimming cfg false c pl [] [] AtEnd
| sk_end_only : forall c pl, no_text pl -> skimming cfg true c pl [] [] AtEnd
| sk_positional : forall only c pl t pl' is subs e, plain cfg only pl t pl' -> c_commands c = [] ->
    skimming cfg only c pl' is subs e -> skimming cfg only c pl (Read (Positional t) :: is) subs e
| sk_option : forall c pl t o pl' v pl'' is subs e, flag cfg c pl t o pl' ->
    takes (s_style cfg) o pl' v pl'' -> o_type o = OT_NORMAL ->
    skimming cfg false c pl'' is subs e -> skimming cfg false c pl (Read (Optional o v) :: is) subs e
| sk_last_option : forall c pl t o pl' v pl'' is subs e, flag cfg c pl t o pl' ->
    takes (s_style cfg) o pl' v pl'' -> o_type o = OT_LAST_OPTION ->
    skimming cfg true c pl'' is subs e -> skimming cfg false c pl (Read (Optional o v) :: is) subs e
| sk_last_argument : forall c pl t o pl' v pl'', flag cfg c pl t o pl' ->
    takes (s_style cfg) o pl' v pl'' -> o_type o = OT_LAST_ARGUMENT ->
    skimming cfg false c pl [Read (Optional o v)] [] (AtLast o (left_at pl''))
| sk_stop : forall c pl t o pl' v pl'', flag cfg c pl t o pl' ->
    takes (s_style cfg) o pl' v pl'' ->
    o_type o = OT_STOP \/ o_type o = OT_EXIT \/ o_type o = OT_HELP ->
    skimming cfg false c pl [Read (Optional o v)] [] (AtStop o (left_at pl''))
| sk_command : forall only c pl t pl' d is subs e, plain cfg only pl t pl' -> first_named cfg c t d ->
    skimming cfg false d pl' is subs e -> skimming cfg only c pl [] ((d, is) :: subs) e
| sk_no_command : forall only c pl t pl', plain cfg only pl t pl' -> c_commands c <> [] ->
    (forall d, ~ first_named cfg c t d) -> skimming cfg only c pl [] [] (AtNoCommand t (left_at pl'))
| sk_unknown : forall c pl t pl', token (s_style cfg) pl t pl' -> looks_like_option (s_style cfg) t ->
    dependable cfg c t -> unknown_option cfg c t -> skimming cfg false c pl [] [] (AtUnknown t (left_at pl'))
| sk_no_value : forall c pl t o pl', flag cfg c pl t o pl' -> takes_value o -> no_text pl' ->
    skimming cfg false c pl [] [] (AtNoValue t).

(** What each command leaves unprocessed: what is ignored, and in the last one also what
    is left at the end. *)
Fixpoint leftovers (segs : list (cmd_data * list item)) (left : list str) : list (list str) :=
  match segs with
  | [] => []
  | (_, is) :: r =>
      match r with
      | [] => [ignored is ++ left]
      | _ => ignored is :: leftovers r left
      end
  end.

(** [tells], with what each command leaves unprocessed. *)
Fixpoint shows (outer rc : result_code) (stop : option opt_data) (l : level)
  (hs : list (cmd_data * list change)) (lefts : list (list str)) : Prop :=
  match hs, lefts with
  | (c, h) :: r, u :: us =>
      l_command l = c /\ (forall id, get_values (l_values l) id = history h id) /\
      l_unprocessed l = u /\
      match r with
      | [] => l_result l = rc /\ l_stop l = stop /\ l_subs l = [] /\ us = []
      | _ => l_result l = outer /\ l_stop l = None /\
             exists s, l_subs l = [s] /\ shows outer rc stop s r us
      end
  | _, _ => False
  end.

(** [succeeds], [refuses] and [stops], with what each command leaves unprocessed. *)
Definition succeeds_with (cfg : settings) (top : cmd_data) (args : list str)
  (hs : list (cmd_data * list change)) (lefts : list (list str)) : Prop :=
  exists st, parsed cfg top args st /\ Forall quiet (ps_events st) /\
    shows RC_SUCCESS RC_SUCCESS None (toplevel st) hs lefts.

Definition refuses_with (cfg : settings) (top : cmd_data) (args : list str) (m : errmsg)
  (hs : list (cmd_data * list change)) (lefts : list (list str)) : Prop :=
  exists evs st, Forall quiet evs /\
    ps_events st = evs ++ [EvError (last (map fst hs) top) m] /\
    if s_auto_exit cfg
    then exists fuel, run_parser cfg fuel top args = Exits (s_error_exit cfg) st
    else parsed cfg top args st /\ shows RC_FAILURE RC_FAILURE None (toplevel st) hs lefts.

Definition stops_with (cfg : settings) (top : cmd_data) (args : list str) (o : opt_data)
  (hs : list (cmd_data * list change)) (lefts : list (list str)) : Prop :=
  exists evs st, Forall quiet evs /\
    ps_events st = evs ++ match o_type o with
                          | OT_HELP => [EvHelp (last (map fst hs) top)]
                          | _ => []
                          end /\
    if s_auto_exit cfg && match o_type o with OT_STOP => false | _ => true end
    then exists fuel, run_parser cfg fuel top args = Exits (s_normal_exit cfg) st
    else parsed cfg top args st /\ shows RC_NONE RC_STOP (Some o) (toplevel st) hs lefts.

(** [f] is one of several flags in a single argument, like -b in "-abc". *)
Definition flag_in_group (args : list str) (f : str) : Prop :=
  exists x b g, f = ["-"%char; x] /\ In ("-"%char :: b ++ x :: g) args /\ 2 <= length (b ++ x :: g).

(** Everything that is ignored, in order. *)
Definition all_ignored (segs : list (cmd_data * list item)) : list str :=
  flat_map (fun sg => ignored (snd sg)) segs.

(** [all] consists of [xs] and [ys], each in its order. *)
Inductive woven : list str -> list str -> list str -> Prop :=
| wv_nil : woven [] [] []
| wv_left : forall x xs ys all, woven xs ys all -> woven (x :: xs) ys (x :: all)
| wv_right : forall y xs ys all, woven xs ys all -> woven xs (y :: ys) (y :: all).
