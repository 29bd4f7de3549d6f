(** Specification of what ignore_undefined_options and ignore_undefined_arguments
    change (C94): nothing, until something undefined is met. *)
From Verif Require Import Base MOptIter MData MCounter MValues MParser SExit.

(** The same settings after ignore_undefined_options(true), if [o], and
    ignore_undefined_arguments(true), if [a]. *)
Definition lenient (o a : bool) (s : settings) : settings :=
  mk_settings (s_argument_callback s) (s_option_callback s) (s_style s) (s_auto_exit s)
    (s_abbreviations s) (if o then true else s_ignore_options s)
    (if a then true else s_ignore_arguments s) (s_case_insensitive s)
    (s_generate_help s) (s_normal_exit s) (s_error_exit s).
Definition lenient_parser (o a : bool) (d : parser_data) : parser_data :=
  mk_data (d_command d) (lenient o a (d_settings d)) (d_version d) (d_line_width d)
    (d_word_rules d).

(** The messages that the two settings suppress. *)
Definition forgiven (o a : bool) (m : errmsg) : Prop :=
  match m with
  | MsgUnknownOption _ => o = true
  | MsgTooManyArguments _ => a = true
  | _ => False
  end.

(** After doing what is listed in [before], the parser reported such an error, as the last
    thing it did. *)
Definition objected (o a : bool) (before : list event) (s : pstate) : Prop :=
  exists c m, forgiven o a m /\ ps_events s = before ++ [EvError c m].

Definition all_failed (s : pstate) : Prop := Forall (fun l => l_result l = RC_FAILURE) (all_levels s).

(** The run begins with what is listed in [before]. *)
Definition begins (before : list event) {A} (out : outcome A) : Prop :=
  match out with
  | Ret _ s | Exits _ s | Throws _ s => exists more, ps_events s = before ++ more
  | NoFuel => True
  | Undefined => False
  end.
