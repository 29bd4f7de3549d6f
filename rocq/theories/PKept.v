(** The properties C69 and, for single items, C15: what the parser knows is what was
    declared. *)
From Verif Require Import Base MStrings MData SIndex SDef SKept DefProofs FinishProofs KeptProofs.
Open Scope nat_scope.

(** C15. An argument is accepted exactly if there are no sub-commands and it has a name; it
    is added after the others, in the current section if it has none. *)
Theorem C15_argument_added : forall c a c', add_argument c (Some a) = Val c' <->
  c_commands c = [] /\ a_name a <> [] /\
  exists a', arg_in (in_section (a_section a) (c_current_section c)) a a' /\
    with_items c c' (c_arguments c ++ [a']) (c_options c) (c_commands c).
Proof. exact add_argument_proof. Qed.
Print Assumptions C15_argument_added.

(** An option is accepted exactly if it has a flag. *)
Theorem C15_option_added : forall c o c', add_option c (Some o) = Val c' <->
  o_flags o <> [] /\
  exists o', opt_in (in_section (o_section o) (c_current_section c)) o o' /\
    with_items c c' (c_arguments c) (c_options c ++ [o']) (c_commands c).
Proof. exact add_option_proof. Qed.
Print Assumptions C15_option_added.

(** A sub-command is accepted exactly if there are no arguments and it has a name. *)
Theorem C15_command_added : forall c d c', add_command c (Some d) = Val c' <->
  c_arguments c = [] /\ c_name d <> [] /\
  exists d', cmd_in (in_section (c_section d) (c_current_section c)) d d' /\
    with_items c c' (c_arguments c) (c_options c) (c_commands c ++ [d']).
Proof. exact add_command_proof. Qed.
Print Assumptions C15_command_added.

Definition kept_top : cmd_data :=
  mk_cmd [] [new_option [$"-a"]] [] ($"MORE") ($"prog") [] [] vis_normal None false [] 0 [].

Example C15_added_ex : exists c1 c2,
  add_option kept_top (Some (new_option [$"-b"])) = Val c1 /\
  map o_section (c_options c1) = [[]; $"MORE"] /\
  add_command c1 (Some (new_command ($"sub"))) = Val c2 /\ map c_section (c_commands c2) = [$"MORE"] /\
  add_argument c2 (Some (new_argument ($"FILE"))) = Exn EArgumentsAndCommands.
Proof.
  eexists. eexists. split; [vm_compute; reflexivity|]. split; [reflexivity|].
  split; [vm_compute; reflexivity|]. split; reflexivity.
Qed.

(** C69. Parsing uses exactly the declared arguments, options, sub-commands, texts and
    settings, completed as [kept] says, and a version option if a version was given and its
    flag is free. *)
Theorem C69_kept : forall p q, finish_parser p = Val q ->
  d_settings q = d_settings p /\ d_version q = d_version p /\ d_line_width q = d_line_width p /\
  d_word_rules q = d_word_rules p /\
  exists extra top,
    (version_wanted p /\ (exists o, extra = [o] /\ version_option p o) \/ ~ version_wanted p /\ extra = []) /\
    with_items (d_command p) top (c_arguments (d_command p)) (c_options (d_command p) ++ extra) (c_commands (d_command p)) /\
    kept (d_settings p) (match c_full_name (d_command p) with [] => c_name (d_command p) | s => s end) top (d_command q).
Proof. exact finish_parser_kept_proof. Qed.
Print Assumptions C69_kept.

Definition kept_sub (name : str) (cmds : list cmd_data) : cmd_data :=
  mk_cmd [] [new_option [$"-h"]] cmds [] name [] [] vis_hidden None true [] 0 [].
Definition kept_parser : parser_data :=
  mk_data (mk_cmd [] [new_option [$"-a"]] [kept_sub ($"one") [kept_sub ($"two") []]] ($"MORE") ($"prog") [] [] vis_normal None false [] 0 [])
    default_settings ($"1.0") 80 [].

Example C69_kept_ex : exists q one two,
  finish_parser kept_parser = Val q /\ c_commands (d_command q) = [one] /\ c_commands one = [two] /\
  map o_flags (c_options (d_command q)) = [[$"-a"]; [$"--version"]; [$"-h"; $"--help"]] /\
  map o_constant (c_options (d_command q)) = [$"1"; $"1"; $"1"] /\
  map o_section (c_options (d_command q)) = [[]; $"MORE"; $"MORE"] /\
  map o_flags (c_options one) = [[$"-h"]; [$"--help"]] /\
  map c_require [d_command q; one; two] = [Some true; Some true; Some false] /\
  map c_full_name [d_command q; one; two] = [$"prog"; $"prog one"; $"one two"].
Proof.
  do 3 eexists. split; [vm_compute; reflexivity|]. split; [reflexivity|]. split; [reflexivity|].
  split; [vm_compute; reflexivity|]. split; [vm_compute; reflexivity|]. split; [vm_compute; reflexivity|].
  split; [vm_compute; reflexivity|]. split; vm_compute; reflexivity.
Qed.

(** The full name of a sub-command of a sub-command lacks the name of the program. *)
Theorem C69_full_name_refuted : exists p q c, finish_parser p = Val q /\ within (d_command q) c /\
  c_name (d_command q) = $"prog" /\ c_full_name c = $"one two".
Proof.
  exists kept_parser. do 2 eexists. split; [vm_compute; reflexivity|].
  split; [eapply within_sub; [eapply within_sub; [constructor|left; reflexivity]|left; reflexivity]|].
  split; reflexivity.
Qed.
Print Assumptions C69_full_name_refuted.
