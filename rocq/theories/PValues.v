(** Properties of stored values: C18-C20, C24, C25 and C39. The specification is
    in SValues.v; [apply_change] (ValuesProofs.v) performs a change with the
    model's [assign_value], [append_value] or [clear_value]. *)
From Verif Require Import Base MStrings MData MValues SValues ValuesProofs.

(** C18. The values of an id are those its history of changes gives. *)
Theorem C18_history : forall cs id,
  get_values (fold_left apply_change cs []) id = history cs id.
Proof. exact history_proof. Qed.
Print Assumptions C18_history.

(** A change of one id leaves the others alone. *)
Theorem C18_frame : forall cs c id,
  match c with Assigned i _ _ | Appended i _ _ | Cleared i => i <> id end ->
  get_values (fold_left apply_change (cs ++ [c]) []) id =
  get_values (fold_left apply_change cs []) id.
Proof. exact frame_proof. Qed.
Print Assumptions C18_frame.

Definition ex_changes : list change :=
  [Appended 3 ($"a") 7; Appended 2 ($"x") 5; Appended 3 ($"b") 8; Assigned 2 ($"y") 5;
   Cleared 4; Appended 3 ($"c") 7; Assigned 1 ($"z") 9].

Example C18_example :
  history ex_changes 3 = [($"a", 7%N); ($"b", 8%N); ($"c", 7%N)] /\
  history ex_changes 2 = [($"y", 5%N)] /\
  history (ex_changes ++ [Cleared 3]) 3 = [] /\
  get_values (fold_left apply_change ex_changes []) 3 = history ex_changes 3.
Proof. repeat split. Qed.

(** C19. [has], [value] and [values] with a name agree, for the values of any
    history. *)
Theorem C19_agree : forall l cs name,
  l_values l = fold_left apply_change cs [] ->
  (forall e, pa_values l name = Exn e <-> pa_has l name = Exn e) /\
  (forall e, pa_values l name = Exn e -> pa_value l name = Exn e) /\
  forall vs, pa_values l name = Val vs ->
    (pa_has l name = Val true <-> vs <> []) /\
    (pa_has l name = Val false <-> vs = []) /\
    (pa_value l name = Val None <-> vs = []) /\
    (forall v, pa_value l name = Val (Some v) <-> vs = [v]) /\
    (pa_value l name = Exn EMultipleValues <-> 2 <= length vs).
Proof. exact agree_proof. Qed.
Print Assumptions C19_agree.

Definition ex_command : cmd_data :=
  mk_cmd
    [mk_arg ($"FILE") [] [] ($"input") None 1 1 vis_normal 2 5]
    [mk_opt [$"-i"; $"--include"] [] [] [] ($"DIR") [] [] None OP_APPEND OT_NORMAL
       vis_normal true 7 3;
     mk_opt [$"-h"] [] [] [] [] [] [] None OP_NONE OT_HELP vis_normal true 9 0]
    [] [] ($"prog") ($"prog") [] vis_normal (Some false) false [] 0 [].

Definition ex_level : level :=
  mk_level ex_command (fold_left apply_change ex_changes []) [] RC_SUCCESS None [].

Example C19_example :
  l_values ex_level = fold_left apply_change ex_changes [] /\
  pa_values ex_level ($"-i") = Val [$"a"; $"b"; $"c"] /\
  pa_value ex_level ($"--include") = Exn EMultipleValues /\
  pa_value ex_level ($"input") = Val (Some ($"y")) /\
  pa_has ex_level ($"FILE") = Val true /\
  pa_has ex_level ($"-h") = Exn (EUnknownValue ($"-h")).
Proof. vm_compute. repeat split; reflexivity. Qed.

(** C20. A name selects the smallest value id among the items that carry it; a
    name that no item carries is rejected. *)
Theorem C20_lookup : forall c name v,
  get_value_id c name = Val v <->
  carries c name v /\ forall v', carries c name v' -> (v <= v')%N.
Proof. exact get_value_id_least. Qed.
Print Assumptions C20_lookup.

Theorem C20_unknown : forall c name,
  get_value_id c name = Exn (EUnknownValue name) <-> forall v, ~ carries c name v.
Proof. exact unknown_name_proof. Qed.
Print Assumptions C20_unknown.

(** Every name of an item can be used, whatever else is declared. *)
Theorem C20_known : forall c name v, carries c name v ->
  exists w, get_value_id c name = Val w /\ carries c name w.
Proof. exact known_name_proof. Qed.
Print Assumptions C20_known.

Example C20_example :
  carries ex_command ($"--include") 3 /\ get_value_id ex_command ($"--include") = Val 3%N /\
  carries ex_command ($"input") 2 /\ (forall v, ~ carries ex_command ($"-h") v).
Proof.
  split; [eapply carries_option; [left; reflexivity|reflexivity|discriminate|left; right; left; reflexivity]|].
  split; [reflexivity|].
  split; [eapply carries_argument; [left; reflexivity|reflexivity|right; split; [discriminate|reflexivity]]|].
  apply C20_unknown. vm_compute. reflexivity.
Qed.

(** C24. [as_bool]. *)
Theorem C24_as_bool : forall v default,
  as_bool v default = false <->
  (v = None /\ default = false) \/ v = Some [] \/ v = Some ($"0") \/ v = Some ($"false").
Proof. exact as_bool_proof. Qed.
Print Assumptions C24_as_bool.

Example C24_example :
  as_bool (Some ($"False")) false = true /\ as_bool (Some ($"00")) false = true /\
  as_bool (Some ($"false")) true = false /\ as_bool None true = true.
Proof. repeat split. Qed.

(** C25. [split] returns the one way to split the value that [split_in] allows,
    if it has enough parts. *)
Theorem C25_split : forall s sep min max parts,
  value_split s sep min max = Val parts <->
  split_in sep max s parts /\ (min <= N.of_nat (length parts))%N.
Proof. exact split_proof. Qed.
Print Assumptions C25_split.

Theorem C25_split_unique : forall sep limit s p1 p2,
  split_in sep limit s p1 -> split_in sep limit s p2 -> p1 = p2.
Proof. exact split_unique. Qed.
Print Assumptions C25_split_unique.

(** The number of parts. *)
Theorem C25_split_count : forall sep limit s parts, split_in sep limit s parts ->
  N.of_nat (length parts) =
  if (limit =? 0)%N then (occurrences sep s + 1)%N
  else N.min limit (occurrences sep s + 1).
Proof. exact split_count. Qed.
Print Assumptions C25_split_count.

(** When it fails. *)
Theorem C25_split_error : forall s sep min max,
  value_split s sep min max = Exn EParseError <->
  ((if max =? 0 then occurrences sep s + 1 else N.min max (occurrences sep s + 1)) < min)%N.
Proof. exact split_error_proof. Qed.
Print Assumptions C25_split_error.

(** Splitting several values gives the parts of each, in order. *)
Theorem C25_split_values : forall vs sep min max parts,
  values_split vs sep min max = Val parts <->
  exists pss, parts = concat pss /\
    Forall2 (fun v ps => value_split v sep min max = Val ps) vs pss.
Proof. exact values_split_proof. Qed.
Print Assumptions C25_split_values.

Example C25_example :
  value_split ($"a,b,,c") ","%char 2 3 = Val [$"a"; $"b"; $",c"] /\
  value_split ($"a,b,,c") ","%char 0 0 = Val [$"a"; $"b"; []; $"c"] /\
  value_split ($"a,b,,c") ","%char 5 0 = Exn EParseError /\
  value_split ($"a,b") ","%char 1 1 = Val [$"a,b"] /\
  split_in ","%char 3 ($"a,b,,c") [$"a"; $"b"; $",c"] /\
  values_split [$"a,b"; $"c"] ","%char 1 2 = Val [$"a"; $"b"; $"c"].
Proof.
  do 4 (split; [reflexivity|]). split; [|reflexivity].
  apply (C25_split _ _ 2). reflexivity.
Qed.

(** C39. What is left in argv: the program name and the longest initial part of
    the unprocessed arguments that occurs in argv in order. *)
Theorem C39_filter : forall un argv, argv <> [] ->
  exists kept, filter_parsed_arguments un argv = hd [] argv :: kept /\
    subsequence kept (tl argv) /\ (exists rest, un = kept ++ rest) /\
    forall k rest, un = k ++ rest -> subsequence k (tl argv) -> length k <= length kept.
Proof. exact filter_proof. Qed.
Print Assumptions C39_filter.

(** If all unprocessed arguments occur in argv in order, all are kept. *)
Theorem C39_filter_exact : forall un p argv, subsequence un argv ->
  filter_parsed_arguments un (p :: argv) = p :: un.
Proof. exact filter_exact_proof. Qed.
Print Assumptions C39_filter_exact.

Example C39_example :
  subsequence [$"-x"; $"b"] [$"a"; $"-x"; $"-q"; $"b"] /\
  filter_parsed_arguments [$"-x"; $"b"] [$"prog"; $"a"; $"-x"; $"-q"; $"b"] =
    [$"prog"; $"-x"; $"b"] /\
  filter_parsed_arguments [$"-x"; $"-y"; $"b"] [$"prog"; $"a"; $"-x"; $"-q"; $"b"] =
    [$"prog"; $"-x"].
Proof. split; [repeat constructor|]. split; reflexivity. Qed.
