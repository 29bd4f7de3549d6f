(** Specification of what it means that a definition has been extended or that its options
    are declared in another order (C87). *)
From Coq Require Import Permutation.
From Verif Require Import Base MOptIter MData MCounter MValues MParser
  SIndex SDef SValues SCounter SParser SStep SLook SEquiv SApi SLine.

(** The settings with or without abbreviations of flags. *)
Definition with_abbreviations (b : bool) (cfg : settings) : settings :=
  mk_settings (s_argument_callback cfg) (s_option_callback cfg) (s_style cfg) (s_auto_exit cfg) b
    (s_ignore_options cfg) (s_ignore_arguments cfg) (s_case_insensitive cfg) (s_generate_help cfg)
    (s_normal_exit cfg) (s_error_exit cfg).

(** What the two settings must have in common. *)
Definition like_settings (cfg cfg' : settings) : Prop :=
  s_style cfg = s_style cfg' /\ s_case_insensitive cfg = s_case_insensitive cfg'.

(** Less: with the second, upper and lower case may be the same. *)
Definition like_style (cfg cfg' : settings) : Prop :=
  s_style cfg = s_style cfg' /\ (s_case_insensitive cfg = true -> s_case_insensitive cfg' = true).

(** The names of the sub-commands that are different remain so. *)
Definition names_apart (ci ci' : bool) (c : cmd_data) : Prop :=
  forall d1 d2, In d1 (c_commands c) -> In d2 (c_commands c) ->
    folded ci' (c_name d1) = folded ci' (c_name d2) -> folded ci (c_name d1) = folded ci (c_name d2).
Definition all_apart (cfg cfg' : settings) (top : cmd_data) : Prop :=
  forall c, within top c -> names_apart (s_case_insensitive cfg) (s_case_insensitive cfg') c.

(** The same as far as parsing is concerned; texts, names, callbacks and ids can be
    different. *)
Definition like_option (o o' : opt_data) : Prop :=
  o_flags o = o_flags o' /\ o_argument o = o_argument o' /\ o_constant o = o_constant o' /\
  o_operation o = o_operation o' /\ o_type o = o_type o' /\ o_optional o = o_optional o'.
Definition like_argument (a a' : arg_data) : Prop := a_min a = a_min a' /\ a_max a = a_max a'.

(** The ids of the values of corresponding items. *)
Definition value_pairs (c c' : cmd_data) (opts : list opt_data) : list (N * N) :=
  combine (map a_value_id (c_arguments c)) (map a_value_id (c_arguments c')) ++
  combine (map o_value_id (c_options c)) (map o_value_id opts).

(** The initial values of a value. *)
Definition initials (v : N) (opts : list opt_data) : list str :=
  flat_map (fun o => if N.eqb (o_value_id o) v
                     then match o_initial_value o with [] => [] | t => [t] end else []) opts.

(** The options [opts] of [c'] correspond to those of [c], in any order; the others
    ([extra]) need not be given. Two items of [c] have the same value if and only if the
    corresponding ones have, and the initial values of a value are the same. No flag is
    one that [c] has, too, followed by '='. *)
Definition extended_by (ci : bool) (c c' : cmd_data) (opts extra : list opt_data) : Prop :=
  c_name c = c_name c' /\ c_require c = c_require c' /\
  Forall2 like_argument (c_arguments c) (c_arguments c') /\
  Forall2 like_option (c_options c) opts /\ Permutation (opts ++ extra) (c_options c') /\
  (forall o, In o extra -> o_optional o = true) /\
  (forall v1 v1' v2 v2', In (v1, v1') (value_pairs c c' opts) -> In (v2, v2') (value_pairs c c' opts) ->
     (v1 = v2 <-> v1' = v2')) /\
  (forall v v', In (v, v') (value_pairs c c' opts) -> initials v (c_options c) = initials v' (c_options c')) /\
  (forall f f', In f (all_flags (c_options c)) -> In f' (all_flags (c_options c')) ->
     ~ begins_with (folded ci f') (folded ci f ++ ["="%char])) /\
  safe_flags ci (c_options c').

(** [c'] is [c] with further options, or with its options in another order, and so are the
    sub-commands. *)
Inductive extends (ci : bool) : cmd_data -> cmd_data -> Prop :=
| extended : forall c c' opts extra, extended_by ci c c' opts extra ->
    Forall2 (extends ci) (c_commands c) (c_commands c') -> extends ci c c'.

(** Each option and argument has the same texts as its counterpart. *)
Definition texts (h : list change) (v : N) : list str := map fst (history h v).
Definition like_values (x x' : cmd_data * list change) : Prop :=
  c_name (fst x) = c_name (fst x') /\
  (forall o, In o (c_options (fst x)) -> exists o', In o' (c_options (fst x')) /\ like_option o o' /\
     texts (snd x) (o_value_id o) = texts (snd x') (o_value_id o')) /\
  Forall2 (fun a a' => texts (snd x) (a_value_id a) = texts (snd x') (a_value_id a'))
    (c_arguments (fst x)) (c_arguments (fst x')).
