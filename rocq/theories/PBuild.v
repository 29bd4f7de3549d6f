(** C75: copies. C76: the last call decides. *)
From Verif Require Import Base MStrings MOptIter MData MCounter MValues MParser MText MHelp MApi
  SStrings SDef SApi SBuild BuildProofs.
Open Scope nat_scope.

(* ------------------------------------------------------------------------ *)
(** ** C75 *)

(** Copying a command gives an equal one, except that it and its sub-commands are
    visible. *)
Theorem C75_copy : forall c, copied c (copy_command c).
Proof. exact copied_proof. Qed.
Print Assumptions C75_copy.

(** copy_from adds the arguments, options and (copies of) sub-commands of the other command
    at the end, in order. It succeeds exactly if no text is set in both, and then all texts
    of both are set. Name, section, visibility and whether a sub-command is required are
    not copied; several sub-commands are allowed afterwards if one of both allows them. *)
Theorem C75_copy_from : forall s c r c', made_command s -> made_command c ->
  command_copy_from (Some s) (Some c) = (r, Some c') -> copied_into s c r c'.
Proof. exact copy_from_proof. Qed.
Print Assumptions C75_copy_from.

(** Likewise for parsers, of which nothing but the command changes. *)
Theorem C75_parser_copy_from : forall fuel s d r d', made_command s -> made_parser d ->
  call_parser fuel (P_copy_from (Some s)) (Some d) = (r, Some d') ->
  exists r', r = R_call r' /\ copied_into s (d_command d) r' (d_command d') /\
    d_settings d' = d_settings d /\ d_version d' = d_version d /\ d_line_width d' = d_line_width d /\
    d_word_rules d' = d_word_rules d.
Proof. exact parser_copy_from_proof. Qed.
Print Assumptions C75_parser_copy_from.

Definition ex_common : cmd_data :=
  cmd_update (C_text TX_FINAL_TEXT ($"Bye.")) (cmd_update (C_multi true) (cmd_update (C_current_section ($"COMMON")) (new_command []))).

Example C75_example : exists s c c1,
  made_command s /\ made_command c /\ command_copy_from (Some s) (Some c) = (Done tt, Some c1) /\
  map o_flags (c_options c1) = [[$"-a"]; [$"-b"]] /\ map o_section (c_options c1) = [[]; $"COMMON"] /\
  text_is c1 TX_FINAL_TEXT (Some ($"Bye.")) /\ text_is c1 TX_ABOUT (Some ($"About.")) /\
  c_multi c1 = true /\ c_name c1 = $"c" /\
  exists c2, command_copy_from (Some s) (Some c1) = (Raised EDuplicateText, Some c2) /\
    map o_flags (c_options c2) = [[$"-a"]; [$"-b"]; [$"-b"]].
Proof.
  assert (Mo : forall f, made_option (new_option f)) by (intros f; exists f, []; reflexivity).
  assert (Ms : made_command ex_common) by (repeat apply made_set; constructor).
  assert (Mc : made_command (cmd_update (C_about ($"About.")) (new_command ($"c")))) by (repeat apply made_set; constructor).
  do 3 eexists.
  split; [eapply (made_add_option (new_option [$"-b"])); [apply Mo|exact Ms|vm_compute; reflexivity]|].
  split; [eapply (made_add_option (new_option [$"-a"])); [apply Mo|exact Mc|vm_compute; reflexivity]|].
  split; [vm_compute; reflexivity|]. split; [reflexivity|]. split; [reflexivity|].
  split; [intros y; cbn; split; [intros [X|[X|[]]]; inversion X; reflexivity|intros ->; auto]|].
  split; [intros y; cbn; split; [intros [X|[X|[]]]; inversion X; reflexivity|intros ->; auto]|].
  split; [reflexivity|]. split; [reflexivity|]. eexists. split; vm_compute; reflexivity.
Qed.

(** C15: copy_from does not check anything: arguments and sub-commands can come together. *)
Theorem C15_copy_from_refuted : exists c src c', made_command c /\ made_command src /\
  command_copy_from (Some src) (Some c) = (Done tt, Some c') /\ c_arguments c' <> [] /\ c_commands c' <> [].
Proof.
  do 3 eexists.
  split; [eapply (made_add_argument (new_argument ($"x")) (new_command ($"a"))); [exists ($"x"), []; reflexivity|constructor|vm_compute; reflexivity]|].
  split; [eapply (made_add_command (new_command ($"y")) (new_command ($"b"))); [constructor|constructor|vm_compute; reflexivity]|].
  split; [vm_compute; reflexivity|split; discriminate].
Qed.
Print Assumptions C15_copy_from_refuted.

(* ------------------------------------------------------------------------ *)
(** ** C76 *)

(** Whatever calls are made to an argument, each of its properties is what the last call
    about it said, or the default; refused calls do not count. [optional] and [mandatory]
    act on the least number of values. *)
Theorem C76_argument : forall name cs a, call_arguments cs (Some (new_argument name)) = Some a ->
  settled (fun c => match c with A_name s => Some s | _ => None end) cs name (a_name a) /\
  settled (fun c => match c with A_help s => Some s | _ => None end) cs [] (a_help a) /\
  settled (fun c => match c with A_section s => Some s | _ => None end) cs [] (a_section a) /\
  settled (fun c => match c with A_alias s => Some s | _ => None end) cs [] (a_alias a) /\
  settled (fun c => match c with A_callback cb => Some cb | _ => None end) cs None (a_callback a) /\
  settled (fun c => match c with A_visibility v => Some v | _ => None end) cs vis_normal (a_visibility a) /\
  settled (fun c => option_map snd (sets_limits c)) cs 1%N (a_max a) /\
  least_after cs (a_min a).
Proof. exact argument_settled_proof. Qed.
Print Assumptions C76_argument.

Theorem C76_option : forall flags cs o, call_options cs (Some (new_option flags)) = Some o ->
  settled (fun c => match c with O_flags l => Some l | _ => None end) cs flags (o_flags o) /\
  settled (fun c => match c with O_help s => Some s | _ => None end) cs [] (o_help o) /\
  settled (fun c => match c with O_section s => Some s | _ => None end) cs [] (o_section o) /\
  settled (fun c => match c with O_alias s => Some s | _ => None end) cs [] (o_alias o) /\
  settled (fun c => match c with O_argument s => Some s | _ => None end) cs [] (o_argument o) /\
  settled (fun c => match c with O_constant s => Some s | _ => None end) cs [] (o_constant o) /\
  settled (fun c => match c with O_initial_value s => Some s | _ => None end) cs [] (o_initial_value o) /\
  settled (fun c => match c with O_callback cb => Some cb | _ => None end) cs None (o_callback o) /\
  settled (fun c => match c with O_operation x => Some x | _ => None end) cs OP_ASSIGN (o_operation o) /\
  settled (fun c => match c with O_type x => Some x | _ => None end) cs OT_NORMAL (o_type o) /\
  settled (fun c => match c with O_visibility v => Some v | _ => None end) cs vis_normal (o_visibility o) /\
  settled (fun c => match c with O_optional b => Some b | O_mandatory b => Some (negb b) | _ => None end) cs true (o_optional o).
Proof. exact option_settled_proof. Qed.
Print Assumptions C76_option.

Theorem C76_command : forall name cs c, call_commands cs (Some (new_command name)) = Some c ->
  settled (fun u => match u with C_name s => Some s | _ => None end) cs name (c_name c) /\
  settled (fun u => match u with C_section s => Some s | _ => None end) cs [] (c_section c) /\
  settled (fun u => match u with C_current_section s => Some s | _ => None end) cs [] (c_current_section c) /\
  settled (fun u => match u with C_visibility v => Some v | _ => None end) cs vis_normal (c_visibility c) /\
  settled (fun u => match u with C_multi b => Some b | _ => None end) cs false (c_multi c) /\
  settled (fun u => match u with C_require b => Some (Some b) | _ => None end) cs None (c_require c) /\
  (forall t, exists v, settled (sets_text t) cs None v /\ text_is c t v) /\
  c_arguments c = [] /\ c_options c = [] /\ c_commands c = [].
Proof. exact command_settled_proof. Qed.
Print Assumptions C76_command.

(** Parsers: the settings. The option style is C60's subject. *)
Theorem C76_settings : forall fuel name file cs rs d,
  call_parsers fuel cs (Some (new_parser name file)) = (rs, Some d) ->
  let s := d_settings d in
  settled (on_settings (fun u => match u with S_argument_callback cb => Some cb | _ => None end)) cs None (s_argument_callback s) /\
  settled (on_settings (fun u => match u with S_option_callback cb => Some cb | _ => None end)) cs None (s_option_callback s) /\
  settled (on_settings (fun u => match u with S_auto_exit b => Some b | _ => None end)) cs true (s_auto_exit s) /\
  settled (on_settings (fun u => match u with S_abbreviations b => Some b | _ => None end)) cs false (s_abbreviations s) /\
  settled (on_settings (fun u => match u with S_ignore_options b => Some b | _ => None end)) cs false (s_ignore_options s) /\
  settled (on_settings (fun u => match u with S_ignore_arguments b => Some b | _ => None end)) cs false (s_ignore_arguments s) /\
  settled (on_settings (fun u => match u with S_case_insensitive b => Some b | _ => None end)) cs false (s_case_insensitive s) /\
  settled (on_settings (fun u => match u with S_generate_help b => Some b | _ => None end)) cs true (s_generate_help s) /\
  settled (on_settings (fun u => match u with S_exit_codes e n => Some n | _ => None end)) cs 0%Z (s_normal_exit s) /\
  settled (on_settings (fun u => match u with S_exit_codes e n => Some e | _ => None end)) cs 64%Z (s_error_exit s).
Proof. exact settings_settled_proof. Qed.
Print Assumptions C76_settings.

(** Parsers: the rest. The name of a new parser is the one given, or its part behind the
    last separator. Calls of copy_from are C75's subject. *)
Theorem C76_parser : forall fuel name file cs rs d,
  call_parsers fuel cs (Some (new_parser name file)) = (rs, Some d) ->
  settled (fun c => match c with P_version s => Some s | _ => None end) cs [] (d_version d) /\
  settled (fun c => match c with P_line_width n => Some n | _ => None end) cs 0%N (d_line_width d) /\
  d_word_rules d = rules_of cs /\
  (exists name0, (if file then file_part name name0 else name0 = name) /\
   settled (on_command (fun u => match u with C_name s => Some s | _ => None end)) cs name0 (c_name (d_command d))) /\
  settled (on_command (fun u => match u with C_current_section s => Some s | _ => None end)) cs [] (c_current_section (d_command d)) /\
  settled (on_command (fun u => match u with C_section s => Some s | _ => None end)) cs [] (c_section (d_command d)) /\
  settled (on_command (fun u => match u with C_visibility v => Some v | _ => None end)) cs vis_normal (c_visibility (d_command d)) /\
  settled (on_command (fun u => match u with C_require b => Some (Some b) | _ => None end)) cs None (c_require (d_command d)) /\
  ((forall s, ~ In (P_copy_from s) cs) ->
   settled (on_command (fun u => match u with C_multi b => Some b | _ => None end)) cs false (c_multi (d_command d)) /\
   forall t, exists v, settled (on_command (sets_text t)) cs None v /\ text_is (d_command d) t v).
Proof. exact parser_all_settled_proof. Qed.
Print Assumptions C76_parser.

(** An argument: count(2, 4), optional(true), mandatory(true), count(0) (refused), and a
    parser with some calls. *)
Example C76_example :
  (exists a, call_arguments [A_counts 2 4; A_optional true; A_help ($"h"); A_mandatory true; A_count 0]
     (Some (new_argument ($"X"))) = Some a /\ a_min a = 1%N /\ a_max a = 4%N /\ a_help a = $"h") /\
  (exists a, call_arguments [A_counts 2 4; A_mandatory true; A_help ($"h"); A_help ($"i")]
     (Some (new_argument ($"X"))) = Some a /\ a_min a = 2%N /\ a_help a = $"i") /\
  (exists rs d, call_parsers 10 [P_setting (S_abbreviations true); P_version ($"1"); P_add_option (Some (new_option [$"-a"]));
     P_help 80 []; P_style SLASH; P_version ($"2"); P_command (C_about ($"A")); P_word_rule ($"a b"); P_setting (S_exit_codes 3 4)]
     (Some (new_parser ($"bin/prog") true)) = (rs, Some d) /\
   c_name (d_command d) = $"prog" /\ d_version d = $"2" /\ s_abbreviations (d_settings d) = true /\
   s_error_exit (d_settings d) = 3%Z /\ s_style (d_settings d) = STANDARD /\ text_is (d_command d) TX_ABOUT (Some ($"A"))).
Proof.
  split; [eexists; split; [vm_compute; reflexivity|repeat split]|].
  split; [eexists; split; [vm_compute; reflexivity|repeat split]|].
  do 2 eexists. split; [vm_compute; reflexivity|]. repeat (split; [reflexivity|]).
  intros y. cbn. split; [intros [X|[]]; inversion X; reflexivity|intros ->; auto].
Qed.

(** C60: as long as the parser has no options the style can be set; nothing else changes. *)
Theorem C60_accepted : forall fuel d s, c_options (d_command d) = [] ->
  exists d', call_parser fuel (P_style s) (Some d) = (R_call (Done tt), Some d') /\
    s_style (d_settings d') = s /\ d_command d' = d_command d /\ d_version d' = d_version d /\
    d_line_width d' = d_line_width d /\ d_word_rules d' = d_word_rules d /\
    set_style (d_settings d') (s_style (d_settings d)) = d_settings d.
Proof. exact style_accepted_proof. Qed.
Print Assumptions C60_accepted.
