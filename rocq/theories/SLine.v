(** Specification of what a whole command line means (C71). From the model come the
    types, and from the other specifications how a flag selects an option, what an
    option does to the values and how arguments are distributed. *)
From Verif Require Import Base MOptIter MData MCounter MValues MParser
  SIndex SDef SValues SCounter SParser SStep SLook SEquiv SApi.

(* ------------------------------------------------------------------------ *)
(** ** Tokens *)

(** What has not been read: whole arguments, at the beginning or after something else,
    preceded by the rest of a group of flags (at least one), or by text after a flag
    that is read as its value if the flag needs one. *)
Inductive place :=
| Fresh (args : list str)
| After (rest : list str)
| Group (flags : str) (rest : list str)
| Attached (value : str) (rest : list str).

(** What a flag with more than one letter begins with. *)
Definition long_prefix (style : option_style) : str :=
  match style with STANDARD => $"--" | SLASH => $"/" | DASH => $"-" end.

(** The next flag or plain argument. *)
Inductive token (style : option_style) : place -> str -> place -> Prop :=
| tok_fresh : forall args t pl, token style (After args) t pl -> token style (Fresh args) t pl
| tok_short : forall a rest, length a <= 2 -> token style (After (a :: rest)) a (After rest)
| tok_plain : forall a rest, hd_error a <> Some (style_prefix style) ->
    token style (After (a :: rest)) a (After rest)
| tok_long : forall n rest, ~ In "="%char n ->
    token style (After ((long_prefix style ++ n) :: rest)) (long_prefix style ++ n) (After rest)
| tok_long_value : forall n v rest, ~ In "="%char n ->
    2 < length (long_prefix style ++ n ++ "="%char :: v) ->
    token style (After ((long_prefix style ++ n ++ "="%char :: v) :: rest))
      (long_prefix style ++ n ++ ["="%char]) (Attached v rest)
| tok_group : forall x g rest, style = STANDARD -> x <> "-"%char -> g <> [] ->
    token style (After (("-"%char :: x :: g) :: rest)) ["-"%char; x] (Group g rest)
| tok_in_group : forall x g rest, g <> [] ->
    token style (Group (x :: g) rest) ["-"%char; x] (Group g rest)
| tok_last_in_group : forall x rest, token style (Group [x] rest) ["-"%char; x] (After rest)
| tok_unused_value : forall v rest t pl, token style (After rest) t pl ->
    token style (Attached v rest) t pl.

(** The next text, whatever it looks like. With the styles SLASH and DASH an argument
    that is read this way is followed by an empty text, and an empty argument is read
    a second time. *)
Inductive text (style : option_style) : place -> str -> place -> Prop :=
| txt_fresh : forall a rest, text style (Fresh (a :: rest)) a (After rest)
| txt_argument : forall a rest, style = STANDARD -> text style (After (a :: rest)) a (After rest)
| txt_followed : forall a rest, style <> STANDARD -> a <> [] ->
    text style (After (a :: rest)) a (Attached [] rest)
| txt_repeated : forall rest, style <> STANDARD ->
    text style (After ([] :: rest)) [] (Fresh ([] :: rest))
| txt_group : forall g rest, text style (Group g rest) g (After rest)
| txt_attached : forall v rest, text style (Attached v rest) v (After rest).

(** No text and no token are left, respectively. *)
Definition no_text (pl : place) : Prop := pl = After [] \/ pl = Fresh [].
Definition no_token (pl : place) : Prop := no_text pl \/ exists v, pl = Attached v [].

(** What is left for the caller. *)
Definition left_at (pl : place) : list str :=
  match pl with
  | Fresh args => args
  | After rest => rest
  | Group g rest => ("-"%char :: g) :: rest
  | Attached _ rest => rest
  end.

(* ------------------------------------------------------------------------ *)
(** ** Words *)

(** The parts of a command line: an option and the value read for it ("" if it needs
    none), or a positional argument. *)
Inductive word := Optional (o : opt_data) (v : str) | Positional (t : str).

(** How a command line ends: there is nothing left, or after a LAST_ARGUMENT option,
    or after an option that stops the parsing; or it does not make sense, because
    of an unknown option, an option without its value or an unknown command. *)
Inductive ending :=
| AtEnd
| AtLast (o : opt_data) (left : list str)
| AtStop (o : opt_data) (left : list str)
| AtUnknown (flag : str) (left : list str)
| AtNoValue (flag : str)
| AtNoCommand (name : str) (left : list str).

(** The value of an option. *)
Definition takes (style : option_style) (o : opt_data) (pl : place) (v : str) (pl' : place) : Prop :=
  (takes_value o /\ text style pl v pl') \/ (~ takes_value o /\ v = [] /\ pl' = pl).

(** [d] is the first sub-command of [c] with this name. *)
Definition first_named (cfg : settings) (c : cmd_data) (t : str) (d : cmd_data) : Prop :=
  exists before after, c_commands c = before ++ d :: after /\
    folded (s_case_insensitive cfg) (c_name d) = folded (s_case_insensitive cfg) t /\
    forall b, In b before ->
      folded (s_case_insensitive cfg) (c_name b) <> folded (s_case_insensitive cfg) t.

(** Something that is not an option. [only] is true after a LAST_OPTION option. *)
Definition plain (cfg : settings) (only : bool) (pl : place) (t : str) (pl' : place) : Prop :=
  if only then text (s_style cfg) pl t pl'
  else token (s_style cfg) pl t pl' /\ ~ looks_like_option (s_style cfg) t.

(** A flag that selects the option [o]. *)
Definition flag (cfg : settings) (c : cmd_data) (pl : place) (t : str) (o : opt_data)
  (pl' : place) : Prop :=
  token (s_style cfg) pl t pl' /\ looks_like_option (s_style cfg) t /\ chooses cfg c t o.

(** [reading cfg only c pl ws subs e]: what is left at [pl], read as part of command [c],
    are the words [ws] of [c], then the sub-commands [subs] with their words, each one
    of which is a sub-command of the one before. *)
Inductive reading (cfg : settings) : bool -> cmd_data -> place -> list word ->
  list (cmd_data * list word) -> ending -> Prop :=
| rd_end : forall c pl, no_token pl -> reading cfg false c pl [] [] AtEnd
| rd_end_only : forall c pl, no_text pl -> reading cfg true c pl [] [] AtEnd
| rd_positional : forall only c pl t pl' ws subs e, plain cfg only pl t pl' -> c_commands c = [] ->
    reading cfg only c pl' ws subs e -> reading cfg only c pl (Positional t :: ws) subs e
| rd_option : forall c pl t o pl' v pl'' ws subs e, flag cfg c pl t o pl' ->
    takes (s_style cfg) o pl' v pl'' -> o_type o = OT_NORMAL ->
    reading cfg false c pl'' ws subs e -> reading cfg false c pl (Optional o v :: ws) subs e
| rd_last_option : forall c pl t o pl' v pl'' ws subs e, flag cfg c pl t o pl' ->
    takes (s_style cfg) o pl' v pl'' -> o_type o = OT_LAST_OPTION ->
    reading cfg true c pl'' ws subs e -> reading cfg false c pl (Optional o v :: ws) subs e
| rd_last_argument : forall c pl t o pl' v pl'', flag cfg c pl t o pl' ->
    takes (s_style cfg) o pl' v pl'' -> o_type o = OT_LAST_ARGUMENT ->
    reading cfg false c pl [Optional o v] [] (AtLast o (left_at pl''))
| rd_stop : forall c pl t o pl' v pl'', flag cfg c pl t o pl' ->
    takes (s_style cfg) o pl' v pl'' ->
    o_type o = OT_STOP \/ o_type o = OT_EXIT \/ o_type o = OT_HELP ->
    reading cfg false c pl [Optional o v] [] (AtStop o (left_at pl''))
| rd_command : forall only c pl t pl' d ws subs e, plain cfg only pl t pl' -> first_named cfg c t d ->
    reading cfg false d pl' ws subs e -> reading cfg only c pl [] ((d, ws) :: subs) e
| rd_no_command : forall only c pl t pl', plain cfg only pl t pl' -> c_commands c <> [] ->
    (forall d, ~ first_named cfg c t d) -> reading cfg only c pl [] [] (AtNoCommand t (left_at pl'))
| rd_unknown : forall c pl t pl', token (s_style cfg) pl t pl' -> looks_like_option (s_style cfg) t ->
    dependable cfg c t -> unknown_option cfg c t -> reading cfg false c pl [] [] (AtUnknown t (left_at pl'))
| rd_no_value : forall c pl t o pl', flag cfg c pl t o pl' -> takes_value o -> no_text pl' ->
    reading cfg false c pl [] [] (AtNoValue t).

(* ------------------------------------------------------------------------ *)
(** ** Meaning *)

(** The positional arguments among the words. *)
Definition positionals (ws : list word) : list str :=
  flat_map (fun w => match w with Positional t => [t] | _ => [] end) ws.

(** What is done to the values, if the positional arguments go to the definitions
    [got], in order. *)
Fixpoint meant (got : list arg_data) (ws : list word) : list change :=
  match ws with
  | [] => []
  | Optional o v :: r =>
      match option_change o v with Some ch => [ch] | None => [] end ++ meant got r
  | Positional t :: r =>
      match got with
      | a :: got' => Appended (a_value_id a) t (a_argument_id a) :: meant got' r
      | [] => []
      end
  end.

(** The words of the last command are in order: there is a permitted number of
    arguments and every option that must be given has got a value. [h] is what is done
    to the values, beginning with [init]. *)
Definition acceptable (init : list change) (c : cmd_data) (ws : list word) (h : list change) : Prop :=
  let k := N.of_nat (length (positionals ws)) in
  c_require c <> Some true /\ last_used (c_arguments c) k /\
  (exists ks, fair (c_arguments c) k ks /\
     h = init ++ meant (order (combine ks (c_arguments c))) ws) /\
  forall o, In o (c_options c) -> o_optional o = false -> history h (o_value_id o) <> [].

(** What is done to the values of the commands before the last one, and what has been
    done to the values of the last one at its beginning. *)
Fixpoint passed (init : list change) (front : list (cmd_data * list word))
  : list (cmd_data * list change) :=
  match front with
  | [] => []
  | (c, ws) :: r => (c, init ++ meant [] ws) :: passed [] r
  end.
Definition begin (init : list change) (front : list (cmd_data * list word)) : list change :=
  match front with [] => init | _ => [] end.

(** All commands with their words; only the last one has to be complete. *)
Definition all_acceptable (init : list change) (segs : list (cmd_data * list word))
  (hs : list (cmd_data * list change)) : Prop :=
  exists front c ws h, segs = front ++ [(c, ws)] /\ acceptable (begin init front) c ws h /\
    hs = passed init front ++ [(c, h)].

(** What has been done to the values after these words, complete or not. *)
Definition so_far (init : list change) (segs : list (cmd_data * list word))
  (hs : list (cmd_data * list change)) : Prop :=
  exists front c ws got, segs = front ++ [(c, ws)] /\
    length got = length (positionals ws) /\ (forall a, In a got -> In a (c_arguments c)) /\
    hs = passed init front ++ [(c, begin init front ++ meant got ws)].

(** The values that the options of the top-level command have at the beginning. *)
Definition at_first (top : cmd_data) : list change := given_changes initial_change (c_options top).

(** The results [l]: the values of each command are what [hs] gives, every command has
    the next one as its only sub-command, and the last one has got what is left, the
    result [rc] and the option that stopped the parsing, if any. *)
Fixpoint tells (outer rc : result_code) (stop : option opt_data) (l : level)
  (hs : list (cmd_data * list change)) (left : list str) : Prop :=
  match hs with
  | [] => False
  | (c, h) :: r =>
      l_command l = c /\ (forall id, get_values (l_values l) id = history h id) /\
      match r with
      | [] => l_result l = rc /\ l_stop l = stop /\ l_subs l = [] /\ l_unprocessed l = left
      | _ => l_result l = outer /\ l_stop l = None /\ l_unprocessed l = [] /\
             exists s, l_subs l = [s] /\ tells outer rc stop s r left
      end
  end.

(** Neither help nor an error. *)
Definition quiet (e : event) : Prop :=
  match e with EvHelp _ | EvError _ _ => False | _ => True end.

(** Parsing succeeds. *)
Definition succeeds (cfg : settings) (top : cmd_data) (args : list str)
  (hs : list (cmd_data * list change)) (left : list str) : Prop :=
  exists st, parsed cfg top args st /\ Forall quiet (ps_events st) /\
    tells RC_SUCCESS RC_SUCCESS None (toplevel st) hs left.

(** Parsing fails with the error [m]: the program exits or the results say so. *)
Definition refuses (cfg : settings) (top : cmd_data) (args : list str) (m : errmsg)
  (hs : list (cmd_data * list change)) (left : list str) : Prop :=
  exists evs st, Forall quiet evs /\
    ps_events st = evs ++ [EvError (last (map fst hs) top) m] /\
    if s_auto_exit cfg
    then exists fuel, run_parser cfg fuel top args = Exits (s_error_exit cfg) st
    else parsed cfg top args st /\ tells RC_FAILURE RC_FAILURE None (toplevel st) hs left.

(** Parsing is stopped by the option [o]: help is shown if it is a HELP option, and the
    program exits or the results name the option. *)
Definition stops (cfg : settings) (top : cmd_data) (args : list str) (o : opt_data)
  (hs : list (cmd_data * list change)) (left : list str) : Prop :=
  exists evs st, Forall quiet evs /\
    ps_events st = evs ++ match o_type o with
                          | OT_HELP => [EvHelp (last (map fst hs) top)]
                          | _ => []
                          end /\
    if s_auto_exit cfg && match o_type o with OT_STOP => false | _ => true end
    then exists fuel, run_parser cfg fuel top args = Exits (s_normal_exit cfg) st
    else parsed cfg top args st /\ tells RC_NONE RC_STOP (Some o) (toplevel st) hs left.

(** The error with which a line is refused that does not make sense. The message about
    an unknown option quotes the whole argument, which is the one before what is left;
    if the option is part of a group then the rest of the group is left as well. *)
Definition within_line (args left : list str) (a : str) : Prop :=
  exists front rest, args = front ++ a :: rest /\
    (left = rest \/ exists x g, a = x ++ g /\ x <> [] /\ g <> [] /\ left = ("-"%char :: g) :: rest).
Definition complaint (args : list str) (e : ending) (m : errmsg) (left : list str) : Prop :=
  match e with
  | AtUnknown _ l => left = l /\ exists a, within_line args l a /\ m = MsgUnknownOption a
  | AtNoValue f => left = [] /\ m = MsgNoValue f
  | AtNoCommand t l => left = l /\ m = MsgUnknownCommand t
  | _ => False
  end.

(** The error with which a line is refused that is not complete: [h] has been done to
    the values of the last command [c], which has received [k] arguments. *)
Definition lacks (h : list change) (o : opt_data) : Prop :=
  o_optional o = false /\ history h (o_value_id o) = [].
Definition commas (flags : list str) : str := skipn 2 (concat (map (fun f => $", " ++ f) flags)).
Definition shortfall (c : cmd_data) (h : list change) (k : N) (m : errmsg) : Prop :=
  (exists before o after, c_options c = before ++ o :: after /\ lacks h o /\
     (forall b, In b before -> ~ lacks h b) /\ m = MsgMandatoryMissing (commas (o_flags o))) \/
  ((forall o, In o (c_options c) -> ~ lacks h o) /\ c_require c = Some true /\ m = MsgNoCommand) \/
  ((forall o, In o (c_options c) -> ~ lacks h o) /\ c_require c <> Some true /\
     ~ ((minima (c_arguments c) <= k)%N /\ last_used (c_arguments c) k) /\
     m = MsgTooFewArguments (minima (c_arguments c) =? maxima (c_arguments c))%N (minima (c_arguments c)) k).

(** What is left at the end of a command line that makes sense. *)
Definition left_of (e : ending) : option (list str) :=
  match e with AtEnd => Some [] | AtLast _ l => Some l | _ => None end.

(** No command accepts more than one sub-command. *)
Definition one_at_a_time (top : cmd_data) : Prop := forall c, within top c -> c_multi c = false.

(** Words that look-ahead judges correctly, see [foreseeable]. *)
Definition foreseen (cfg : settings) (c : cmd_data) (w : word) : Prop :=
  match w with
  | Optional o _ => o_argument o <> [] -> takes_value o
  | Positional t => no_beginning cfg c t
  end.
Definition all_foreseen (cfg : settings) (segs : list (cmd_data * list word)) : Prop :=
  Forall (fun sg => Forall (foreseen cfg (fst sg)) (snd sg)) segs.

(** The last command is not given too many arguments. *)
Definition room (segs : list (cmd_data * list word)) : Prop :=
  forall front c ws, segs = front ++ [(c, ws)] ->
    (N.of_nat (length (positionals ws)) <= maxima (c_arguments c))%N.

(** Lookup without regard to case is dependable for these definitions and arguments. *)
Definition dependable_line (cfg : settings) (top : cmd_data) (args : list str) : Prop :=
  s_case_insensitive cfg = true ->
  (forall c, within top c -> safe_flags true (c_options c)) /\ Forall SStrings.safe args.

(** The definitions considered: the limits make sense, callbacks do not interfere,
    arguments are not ignored and there is never more than one sub-command. *)
Definition regular (cfg : settings) (top : cmd_data) : Prop :=
  sound top /\ no_insertions cfg top /\ no_interference cfg top /\
  s_ignore_arguments cfg = false /\ one_at_a_time top.

(* ------------------------------------------------------------------------ *)
(** ** Parts of command lines (C06, C72) *)

(** None of the options makes the arguments behind it be read verbatim. *)
Definition no_last_option (segs : list (cmd_data * list word)) : Prop :=
  forall c ws o v, In (c, ws) segs -> In (Optional o v) ws -> o_type o <> OT_LAST_OPTION.

(** The arguments that are read behind such an option: with the styles SLASH and DASH
    there is an additional empty argument after each one. *)
Definition verbatim (style : option_style) (rest : list str) : list str :=
  match style with STANDARD => rest | _ => flat_map (fun a => [a; []]) rest end.
