(** Properties of parser definitions: C14-C17, and C09, C10 and C12 for whole
    definitions. The specification is in SDef.v and SIndex.v. *)
From Verif Require Import Base MData SStrings SIndex SDef DefProofs FinishProofs.

(** C14. An option is accepted exactly when it is valid. *)
Theorem C14_option_valid : forall o style,
  (exists o', validate_and_update o style = Val o') <-> valid_option style o.
Proof. exact validate_iff_proof. Qed.
Print Assumptions C14_option_valid.

(** Validation changes nothing but the constant: "1" for an ASSIGN option with
    neither argument nor constant, and "1" for a CLEAR option with one of them. *)
Theorem C14_option_result : forall o style o',
  validate_and_update o style = Val o' ->
  same_but_constant o o' /\
  o_constant o' =
    match o_operation o with
    | OP_ASSIGN => if is_empty (o_argument o) && is_empty (o_constant o)
                   then $"1" else o_constant o
    | OP_CLEAR => if is_empty (o_argument o) && is_empty (o_constant o)
                  then [] else $"1"
    | _ => o_constant o
    end.
Proof. exact validate_result_proof. Qed.
Print Assumptions C14_option_result.

(** An accepted ASSIGN or APPEND option has either a constant or an argument. *)
Theorem C14_option_value : forall o style o',
  validate_and_update o style = Val o' ->
  o_operation o = OP_ASSIGN \/ o_operation o = OP_APPEND ->
  (o_argument o' = [] /\ o_constant o' <> []) \/
  (o_argument o' <> [] /\ o_constant o' = []).
Proof. exact validate_value_proof. Qed.
Print Assumptions C14_option_value.

(** A whole parser definition is accepted exactly when in each command all options
    are valid, no flag occurs twice and a required sub-command exists. *)
Theorem C14_definition_accepted : forall p,
  (forall c, within (d_command p) c -> command_safe (d_settings p) c) ->
  ((exists q, finish_parser p = Val q) <->
   forall c, within (d_command p) c -> command_ok (d_settings p) c).
Proof. exact finish_parser_iff_proof. Qed.
Print Assumptions C14_definition_accepted.

Definition opt_arg (flags : list str) (arg : str) : opt_data :=
  mk_opt flags [] [] [] arg [] [] None OP_ASSIGN OT_NORMAL vis_normal true 0 0.

Definition ex_sub : cmd_data :=
  set_c_items (new_command ($"add")) [new_argument ($"FILE")]
    [opt_arg [$"-m"; $"--message="] ($"TEXT")] [].
Definition ex_top : cmd_data :=
  set_c_items (new_command ($"prog")) [] [opt_arg [$"-C"; $"--dir"] ($"DIR"); new_option [$"-h"]]
    [ex_sub; new_command ($"list")].
Definition ex_parser : parser_data :=
  mk_data ex_top default_settings ($"1.0") 80 [].

Example C14_example :
  (forall c, within (d_command ex_parser) c -> command_safe (d_settings ex_parser) c) /\
  (exists q, finish_parser ex_parser = Val q) /\
  validate_and_update (new_option [$"-ab"]) STANDARD = Exn (EInvalidFlag ($"-ab")) /\
  validate_and_update (new_option [$"--ab="]) STANDARD = Exn (EEqualNoArgument ($"--ab=")) /\
  (exists o, validate_and_update (new_option [$"-ab"]) DASH = Val o) /\
  valid_option STANDARD (opt_arg [$"-="; $"--x="] ($"N")).
Proof.
  split; [intros c _ X; discriminate|]. split; [eexists; vm_compute; reflexivity|].
  split; [reflexivity|]. split; [reflexivity|]. split; [eexists; reflexivity|].
  apply C14_option_valid. eexists. reflexivity.
Qed.

(** C09 for every command of an accepted definition. *)
Theorem C09_own_flag_in_parser : forall p q c f o abbrev,
  finish_parser p = Val q -> s_case_insensitive (d_settings q) = false ->
  within (d_command q) c -> In o (c_options c) -> In f (o_flags o) ->
  find_option c f abbrev false = Some o.
Proof. exact finished_own_flag_proof. Qed.
Print Assumptions C09_own_flag_in_parser.

(** C10 for every command of an accepted definition. *)
Theorem C10_lookup_in_parser : forall p q c s abbrev o,
  finish_parser p = Val q -> s_case_insensitive (d_settings q) = false ->
  within (d_command q) c ->
  (find_option c s abbrev false = Some o <-> selects false abbrev (c_options c) s o).
Proof. exact finished_lookup_proof. Qed.
Print Assumptions C10_lookup_in_parser.

Example C09_parser_example : exists q c o,
  finish_parser ex_parser = Val q /\ within (d_command q) c /\ In o (c_options c) /\
  In ($"--message=") (o_flags o) /\ find_option c ($"--message=") false false = Some o /\
  c_name c = $"add".
Proof.
  eexists. eexists. eexists. split; [vm_compute; reflexivity|].
  split; [eapply within_sub; [constructor|left; reflexivity]|].
  split; [left; reflexivity|]. split; [right; left; reflexivity|].
  vm_compute. split; reflexivity.
Qed.

(** C15. Whatever is added to commands, successfully or not, no command has both
    arguments and sub-commands, and all items have names or flags. *)
Theorem C15_built_well_formed : forall c, built c ->
  forall d, within c d -> well_formed d.
Proof. exact built_well_formed_proof. Qed.
Print Assumptions C15_built_well_formed.

(** An accepted argument is added at the end; nothing else changes. *)
Theorem C15_add_argument : forall c a c', add_argument c (Some a) = Val c' ->
  map a_name (c_arguments c') = map a_name (c_arguments c) ++ [a_name a] /\
  c_options c' = c_options c /\ c_commands c' = c_commands c.
Proof. exact add_argument_effect. Qed.
Print Assumptions C15_add_argument.

Example C15_example : exists c1 c2,
  add_argument (new_command ($"p")) (Some (new_argument ($"FILE"))) = Val c1 /\
  add_option c1 (Some (new_option [$"-a"])) = Val c2 /\ built c2 /\
  add_command c2 (Some (new_command ($"x"))) = Exn EArgumentsAndCommands.
Proof.
  eexists. eexists. split; [vm_compute; reflexivity|]. split; [vm_compute; reflexivity|].
  split; [|reflexivity].
  eapply built_option with (o := Some (new_option [$"-a"])).
  - eapply built_argument with (a := Some (new_argument ($"FILE"))).
    + apply built_new.
    + vm_compute. reflexivity.
  - reflexivity.
Qed.

(** C16. When the help option is generated. *)
Theorem C16_help_added : forall opts sec st,
  (exists o, add_help_option opts sec st = opts ++ [o] /\ o_type o = OT_HELP) <->
  s_generate_help st = true /\ ~ (exists o, In o opts /\ o_type o = OT_HELP) /\
  exists f, In f (default_help_flags (s_style st)) /\
            free_flag (s_case_insensitive st) opts f.
Proof. exact help_added_proof. Qed.
Print Assumptions C16_help_added.

(** Otherwise nothing is added. *)
Theorem C16_help_not_added : forall opts sec st,
  add_help_option opts sec st = opts \/
  exists o, add_help_option opts sec st = opts ++ [o] /\ o_type o = OT_HELP.
Proof. exact help_not_added_proof. Qed.
Print Assumptions C16_help_not_added.

(** It has only default flags that nobody else uses. *)
Theorem C16_help_flags_free : forall opts sec st o f,
  add_help_option opts sec st = opts ++ [o] -> In f (o_flags o) ->
  In f (default_help_flags (s_style st)) /\ free_flag (s_case_insensitive st) opts f.
Proof. exact help_flags_free_proof. Qed.
Print Assumptions C16_help_flags_free.

Theorem C16_help_valid : forall opts sec st o,
  add_help_option opts sec st = opts ++ [o] -> valid_option (s_style st) o.
Proof. exact help_valid_proof. Qed.
Print Assumptions C16_help_valid.

(** It never causes a conflict. *)
Theorem C16_help_no_conflict : forall opts sec st,
  NoDup (map (folded (s_case_insensitive st)) (all_flags (add_help_option opts sec st))) <->
  NoDup (map (folded (s_case_insensitive st)) (all_flags opts)).
Proof. exact help_no_conflict_proof. Qed.
Print Assumptions C16_help_no_conflict.

(** In standard style it has all the default flags that are free. *)
Theorem C16_help_standard_flags : forall opts sec st o f,
  s_style st = STANDARD -> add_help_option opts sec st = opts ++ [o] ->
  (In f (o_flags o) <->
   In f (default_help_flags STANDARD) /\ free_flag (s_case_insensitive st) opts f).
Proof. exact help_standard_flags_proof. Qed.
Print Assumptions C16_help_standard_flags.

Example C16_example : exists o,
  add_help_option [new_option [$"-h"]] [] default_settings = [new_option [$"-h"]] ++ [o] /\
  o_flags o = [$"--help"] /\ o_type o = OT_HELP.
Proof. eexists. split; [reflexivity|]. split; reflexivity. Qed.

(** C17. Identities are distinct, and two items share a value only if a chain of
    common names connects them. *)
Theorem C17_ids : forall p q c, finish_parser p = Val q -> within (d_command q) c ->
  NoDup (c_argument_id c :: all_argument_ids c) /\
  (forall n1 n2 v,
     In (n1, v) (named_values (c_arguments c) (c_options c)) ->
     In (n2, v) (named_values (c_arguments c) (c_options c)) ->
     linked (named_values (c_arguments c) (c_options c)) n1 n2) /\
  (forall n v, In (n, v) (named_values (c_arguments c) (c_options c)) -> v <> 0%N).
Proof. exact command_ids_proof. Qed.
Print Assumptions C17_ids.

(** Items with the same key (the alias, or the name of an argument without alias)
    share their value. *)
Theorem C17_same_key : forall p q c, finish_parser p = Val q -> within (d_command q) c ->
  (forall a b, In a (c_arguments c) -> In b (c_arguments c) -> arg_key a = arg_key b ->
     a_value_id a = a_value_id b) /\
  (forall a o, In a (c_arguments c) -> In o (c_options c) -> o_operation o <> OP_NONE ->
     o_alias o <> [] -> arg_key a = o_alias o -> a_value_id a = o_value_id o) /\
  (forall o1 o2, In o1 (c_options c) -> In o2 (c_options c) ->
     o_operation o1 <> OP_NONE -> o_operation o2 <> OP_NONE ->
     o_alias o1 <> [] -> o_alias o1 = o_alias o2 -> o_value_id o1 = o_value_id o2).
Proof. exact same_key_proof. Qed.
Print Assumptions C17_same_key.

Theorem C17_flag_key : forall p q c a o,
  finish_parser p = Val q -> within (d_command q) c ->
  In a (c_arguments c) -> In o (c_options c) -> o_operation o <> OP_NONE -> o_alias o = [] ->
  o_flags o = [arg_key a] -> a_value_id a = o_value_id o.
Proof. exact flag_key_proof. Qed.
Print Assumptions C17_flag_key.

(** A sub-command has no identity or value id in common with its ancestors. *)
Theorem C17_nested_ids : forall p q c d e,
  finish_parser p = Val q -> within (d_command q) c -> In d (c_commands c) -> within d e ->
  (forall x y, In x (c_argument_id c :: all_argument_ids c) ->
     In y (c_argument_id e :: all_argument_ids e) -> (x < y)%N) /\
  (forall x y, In x (all_value_ids c) -> In y (all_value_ids e) -> (x < y)%N).
Proof. exact nested_ids_proof. Qed.
Print Assumptions C17_nested_ids.

(** A common name is not always enough: if an option takes over the value of one of
    its flags then its other flags are not registered. *)
Theorem C17_common_name_refuted : exists p q o1 o2 x,
  finish_parser p = Val q /\
  In o1 (c_options (d_command q)) /\ In o2 (c_options (d_command q)) /\
  In x (opt_names o1) /\ In x (opt_names o2) /\
  o_operation o1 = OP_ASSIGN /\ o_operation o2 = OP_ASSIGN /\
  o_value_id o1 <> o_value_id o2.
Proof. exact common_name_refuted_proof. Qed.
Print Assumptions C17_common_name_refuted.

Example C17_example : exists q c,
  finish_parser ex_parser = Val q /\ within (d_command q) c /\ c_name c = $"add" /\
  c_argument_id c = 6%N /\ all_argument_ids c = [7; 8; 9]%N /\ all_value_ids c = [5; 6; 7]%N.
Proof.
  eexists. eexists. split; [vm_compute; reflexivity|].
  split; [eapply within_sub; [constructor|left; reflexivity]|].
  vm_compute. repeat split; reflexivity.
Qed.
