(** Specification of command lines in which arguments that no argument of the command can
    take are ignored (C89). *)
From Verif Require Import Base MOptIter MData MCounter MValues MParser
  SIndex SDef SValues SCounter SParser SStep SLook SEquiv SApi SLine SIgnore.

(** The same settings after ignore_undefined_arguments(true). *)
Definition lenient (s : settings) : settings :=
  mk_settings (s_argument_callback s) (s_option_callback s) (s_style s) (s_auto_exit s)
    (s_abbreviations s) (s_ignore_options s) true (s_case_insensitive s)
    (s_generate_help s) (s_normal_exit s) (s_error_exit s).
Definition lenient_parser (d : parser_data) : parser_data :=
  mk_data (d_command d) (lenient (d_settings d)) (d_version d) (d_line_width d)
    (d_word_rules d).

(** All arguments but the first [k] are ignored. *)
Fixpoint trim (k : nat) (is : list item) : list item :=
  match is with
  | [] => []
  | Read (Positional t) :: r =>
      match k with
      | O => Ignored t :: trim O r
      | S k' => Read (Positional t) :: trim k' r
      end
  | i :: r => i :: trim k r
  end.

(** A command has room for as many arguments as its definitions can take together. *)
Definition trimmed (sg : cmd_data * list item) : cmd_data * list item :=
  (fst sg, trim (N.to_nat (maxima (c_arguments (fst sg)))) (snd sg)).
