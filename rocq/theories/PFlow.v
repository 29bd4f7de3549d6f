(** C38: where the values and the unprocessed arguments of a result come from. *)
From Verif Require Import Base MStrings MOptIter MData MCounter MValues MParser
  SIndex SDef SValues SCounter SParser SStep SExamples ExProofs ValueFlow.
Open Scope nat_scope.

(** Every value that the result (of the command or of a sub-command) holds for a value
    id is the initial value of an option of the main command, the constant of an option
    of that command, or text from the command line that an option or argument of that
    command received; and the option or argument stores its values under that id. *)
Theorem C38_values : forall p q args st n x id t aid,
  finish_parser p = Val q ->
  no_insertions (d_settings q) (d_command q) -> no_interference (d_settings q) (d_command q) ->
  reached (d_settings q) (d_command q) args st n ->
  in_result (toplevel st) x -> In (t, aid) (get_values (l_values x) id) ->
  rightly args (d_command q) (l_command x) id t aid.
Proof. exact values_given_proof. Qed.
Print Assumptions C38_values.

(** Every unprocessed argument is text from the command line, or the flags that are
    left of a group with a dash in front. *)
Theorem C38_unprocessed : forall p q args st n x u,
  finish_parser p = Val q ->
  no_insertions (d_settings q) (d_command q) -> no_interference (d_settings q) (d_command q) ->
  reached (d_settings q) (d_command q) args st n ->
  in_result (toplevel st) x -> In u (l_unprocessed x) -> left_from args u.
Proof. exact unprocessed_given_proof. Qed.
Print Assumptions C38_unprocessed.

(** Initial values of options of sub-commands are never used: the option -l of "add"
    has the initial value "3" and the result has no value for it. *)
Definition ex_initial : cmd_data := ex_command ($"tool") []
  [mk_opt [$"-j"] [] [] [] ($"N") [] ($"4") None OP_ASSIGN OT_NORMAL vis_normal true 0 0]
  [ex_command ($"add") []
     [mk_opt [$"-l"] [] [] [] ($"N") [] ($"3") None OP_ASSIGN OT_NORMAL vis_normal true 0 0] [] false]
  false.
Theorem C38_initial_sub_refuted : exists p q args st n x o,
  finish_parser p = Val q /\ reached (d_settings q) (d_command q) args st n /\
  ps_mode st = ST_DONE /\ in_result (toplevel st) x /\ In o (c_options (l_command x)) /\
  o_initial_value o <> [] /\ get_values (l_values x) (o_value_id o) = [].
Proof.
  exists (ex_data false false ex_initial), (completed (ex_data false false ex_initial)), [$"add"],
    (after (ex_data false false ex_initial) [$"add"] 2).
  assert (R : exists n, reached (d_settings (completed (ex_data false false ex_initial)))
    (d_command (completed (ex_data false false ex_initial))) [$"add"]
    (after (ex_data false false ex_initial) [$"add"] 2) n) by solve_reached.
  destruct R as (n & R). exists n. do 2 eexists.
  split; [vm_compute; reflexivity|]. split; [exact R|]. split; [vm_compute; reflexivity|].
  split; [eapply in_result_sub; [|apply in_result_self]; vm_compute; left; reflexivity|].
  split; [vm_compute; left; reflexivity|]. split; [discriminate|]. vm_compute. reflexivity.
Qed.
Print Assumptions C38_initial_sub_refuted.

(** tool -C dir add -mhello f -s -x: the values are text from the command line. *)
Example C38_example :
  let d := ex_data false false ex_tool in
  let args := [$"-C"; $"dir"; $"add"; $"-mhello"; $"f"; $"-s"; $"-x"] in
  let st := after d args 5 in
  finish_parser d = Val (completed d) /\
  no_insertions (d_settings (completed d)) (d_command (completed d)) /\
  no_interference (d_settings (completed d)) (d_command (completed d)) /\
  (exists n, reached (d_settings (completed d)) (d_command (completed d)) args st n) /\
  map (fun x => (c_name (l_command x), map (fun v => fst (snd v)) (l_values x), l_unprocessed x))
    (toplevel st :: l_subs (toplevel st)) =
  [($"tool", [$"dir"], []); ($"add", [$"f"; $"hello"], [$"-x"])].
Proof.
  cbv zeta. split; [vm_compute; reflexivity|].
  assert (G : forall f, ~ callback_of (d_settings (completed (ex_data false false ex_tool)))
                            (d_command (completed (ex_data false false ex_tool))) f).
  { intros f. eapply (no_callbacks_sound 5); vm_compute; reflexivity. }
  split; [intros f Cf; destruct (G f Cf)|]. split; [intros f Cf; destruct (G f Cf)|].
  split; [solve_reached|]. vm_compute. reflexivity.
Qed.
