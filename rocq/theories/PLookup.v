(** The property C84: the results by name and by view, and the option that stopped the
    parsing. [x] is the result of the program or of one of its sub-commands. *)
From Verif Require Import Base MStrings MOptIter MParseInt MData MCounter MValues MParser MText MHelp MApi MResults
  SIndex SDef SValues SText SFormat SHelp SStep SParser SApi SExamples SResults SLookup ExProofs HelpExamples
  ResultProofs ResultExamples LookupProofs.
Open Scope nat_scope.

(** If all items with a name share one value, looking it up by that name gives what
    looking it up by the view of any of them gives. *)
Theorem C84_same : forall x i name, shared_name (l_command x) i name ->
  pa_has x name = Val (has_by_view x i) /\
  values_by_name x name = VGot (values_by_view x i) /\
  (forall v, value_by_name x name = VGot v ->
     exists w, value_by_view x i = VGot w /\ av_value w = av_value v) /\
  (forall w, value_by_view x i = VGot w ->
     exists v, value_by_name x name = VGot v /\ av_value v = av_value w) /\
  (forall e out, value_by_name x name = VThrow e out <-> value_by_view x i = VThrow e out).
Proof. exact same_lookup_proof. Qed.
Print Assumptions C84_same.

Definition res_y : iview := OptionView (nth 4 (c_options (d_command res_done)) (new_option [])).
Definition res_m : iview := OptionView (nth 2 (c_options (d_command res_done)) (new_option [])).

Lemma res_command : l_command res_top = d_command res_done.
Proof. vm_compute. reflexivity. Qed.

Example C84_same_ex : shared_name (l_command res_top) res_y ($"-x") /\
  (exists v, value_by_name res_top ($"-x") = VGot v /\ av_value v = Some ($"0x")) /\
  shared_name (l_command res_top) res_m ($"--num") /\
  value_by_view res_top res_m = VThrow (XOther EMultipleValues) [].
Proof.
  rewrite res_command.
  split; [apply shared_b_ok; [apply in_app_iff; right; apply in_map, nth_In; vm_compute; lia|vm_compute; reflexivity]|].
  split; [exists (res_value ($"-x")); split; vm_compute; reflexivity|].
  split; [apply shared_b_ok; [apply in_app_iff; right; apply in_map, nth_In; vm_compute; lia|vm_compute; reflexivity]|].
  vm_compute. reflexivity.
Qed.

(** The functions that take a view agree with each other. *)
Theorem C84_view : forall p q args st n x, finish_parser p = Val q ->
  reached (d_settings q) (d_command q) args st n -> in_result (toplevel st) x ->
  forall i,
  (has_by_view x i = true <-> avs_list (values_by_view x i) <> []) /\
  (forall v, value_by_view x i = VGot v ->
     map av_value (avs_list (values_by_view x i)) = match av_value v with None => [] | s => [s] end) /\
  (forall e out, value_by_view x i = VThrow e out <->
     e = XOther EMultipleValues /\ out = [] /\ 2 <= length (avs_list (values_by_view x i))) /\
  (forall default, has_by_view x i = true ->
     map Some (avs_strings (values_by_view x i) default) = map av_value (avs_list (values_by_view x i))) /\
  (forall default, has_by_view x i = false -> avs_strings (values_by_view x i) default = default).
Proof. exact view_agree_proof. Qed.
Print Assumptions C84_view.

Example C84_view_ex : in_result res_top res_top /\ has_by_view res_top res_m = true /\
  avs_strings (values_by_view res_top res_m) [] = [$"1"; $"two"; $"3"] /\
  has_by_view res_top (OptionView (nth 1 (c_options (d_command res_done)) (new_option []))) = false.
Proof. split; [constructor|]. vm_compute. auto. Qed.

(** value(view) is about the item of the view. *)
Theorem C84_item : forall p q args st n x i w, finish_parser p = Val q ->
  reached (d_settings q) (d_command q) args st n -> in_result (toplevel st) x ->
  In i (listed (l_command x)) -> value_by_view x i = VGot w -> av_argument w = VGot (Some i).
Proof. exact value_item_proof. Qed.
Print Assumptions C84_item.

(** The values of values(view) are about the items that supplied them, which share the
    value of the view. *)
Theorem C84_suppliers : forall p q args st n x, finish_parser p = Val q ->
  no_insertions (d_settings q) (d_command q) -> no_interference (d_settings q) (d_command q) ->
  reached (d_settings q) (d_command q) args st n -> in_result (toplevel st) x ->
  forall i v, In v (avs_list (values_by_view x i)) ->
  exists j t, av_argument v = VGot (Some j) /\ av_value v = Some t /\
    given_by args (d_command q) (l_command x) j t /\ view_value_id j = view_value_id i.
Proof. exact view_suppliers_proof. Qed.
Print Assumptions C84_suppliers.

Example C84_item_ex : In res_y (listed (l_command res_top)) /\
  (exists w, value_by_view res_top res_y = VGot w /\ av_value w = Some ($"0x")) /\
  map (fun v => (match av_argument v with VGot (Some j) => view_names j | _ => [] end, av_value v))
    (avs_list (values_by_view res_top res_m)) =
  [([$"-n"; $"--num"], Some ($"1")); ([$"-m"], Some ($"two")); ([$"-n"; $"--num"], Some ($"3"))].
Proof.
  rewrite res_command. split; [apply in_app_iff; right; apply in_map, nth_In; vm_compute; lia|].
  split; [|vm_compute; reflexivity].
  exists (match value_by_view res_top res_y with VGot w => w | _ => no_argument_value end). vm_compute. split; reflexivity.
Qed.

(** An option that stores nothing has no value, if no such option of the program has an
    initial value. *)
Theorem C84_none : forall p q args st n x i, made_parser p -> finish_parser p = Val q ->
  no_insertions (d_settings q) (d_command q) -> no_interference (d_settings q) (d_command q) ->
  reached (d_settings q) (d_command q) args st n -> in_result (toplevel st) x ->
  no_idle_values (d_command q) ->
  In i (listed (l_command x)) -> valueless i = true ->
  has_by_view x i = false /\ avs_list (values_by_view x i) = [] /\
  exists v, value_by_view x i = VGot v /\ av_value v = None.
Proof. exact no_value_proof. Qed.
Print Assumptions C84_none.

Example C84_none_ex : made_parser res_parser /\ finish_parser res_parser = Val res_done /\
  no_idle_values (d_command res_done) /\
  valueless (OptionView (nth 1 (c_options (d_command res_done)) (new_option []))) = true.
Proof.
  split; [exact res_made|]. split; [exact res_finish|]. split; [|reflexivity].
  apply no_idle_b_ok. vm_compute. reflexivity.
Qed.

(** Otherwise every such option has that value: after "prog" the option -q, which stores
    nothing and has not been given, has the initial value of -r. *)
Definition idle_calls : list parser_call :=
  [P_add_option (Some (opt [$"-q"] [O_operation OP_NONE]));
   P_add_option (Some (opt [$"-r"] [O_operation OP_NONE; O_initial_value ($"5")]))].
Definition idle_parser : parser_data :=
  match snd (call_parsers 10 idle_calls (Some (new_parser ($"prog") false))) with
  | Some d => d | None => new_parser [] false end.

Theorem C84_none_refuted : exists p q st n i, made_parser p /\ finish_parser p = Val q /\
  reached (d_settings q) (d_command q) [] st n /\
  In i (listed (l_command (toplevel st))) /\ valueless i = true /\ view_names i = [$"-q"] /\
  has_by_view (toplevel st) i = true /\
  avs_strings (values_by_view (toplevel st) i) [] = [$"5"].
Proof.
  assert (R : exists n, reached (d_settings (completed idle_parser)) (d_command (completed idle_parser)) []
                (after idle_parser [] 1) n) by solve_reached.
  destruct R as (n & R).
  exists idle_parser, (completed idle_parser), (after idle_parser [] 1), n,
    (OptionView (nth 0 (c_options (d_command (completed idle_parser))) (new_option []))).
  split.
  { exists 10, ($"prog"), false, idle_calls. eexists. split; [vm_compute; reflexivity|].
    unfold idle_calls. repeat (apply Forall_cons; [apply opt_made; vm_compute; discriminate|]). constructor. }
  split; [vm_compute; reflexivity|]. split; [exact R|].
  assert (E : l_command (toplevel (after idle_parser [] 1)) = d_command (completed idle_parser)) by (vm_compute; reflexivity).
  rewrite E. split; [apply in_app_iff; right; apply in_map, nth_In; vm_compute; lia|]. vm_compute. auto.
Qed.
Print Assumptions C84_none_refuted.

(** A name that items with different values have finds only one of them: after
    "--bar 5" the value of --bar, whose alias is -y, is not found under -y. *)
Definition names_calls : list parser_call :=
  [P_add_option (Some (opt [$"--foo"] [O_argument ($"F"); O_alias ($"-x")]));
   P_add_option (Some (opt [$"-x"; $"-y"] [O_argument ($"X")]));
   P_add_option (Some (opt [$"--bar"] [O_argument ($"B"); O_alias ($"-y")]))].
Definition names_parser : parser_data :=
  match snd (call_parsers 10 names_calls (Some (new_parser ($"prog") false))) with
  | Some d => d | None => new_parser [] false end.

Theorem C84_same_refuted : exists p q st n i w, made_parser p /\ finish_parser p = Val q /\
  reached (d_settings q) (d_command q) [$"--bar"; $"5"] st n /\
  In i (listed (l_command (toplevel st))) /\ valueless i = false /\ In ($"-y") (item_names i) /\
  value_by_view (toplevel st) i = VGot w /\ av_value w = Some ($"5") /\
  pa_has (toplevel st) ($"-y") = Val false.
Proof.
  assert (R : exists n, reached (d_settings (completed names_parser)) (d_command (completed names_parser)) [$"--bar"; $"5"]
                (after names_parser [$"--bar"; $"5"] 2) n) by solve_reached.
  destruct R as (n & R).
  exists names_parser, (completed names_parser), (after names_parser [$"--bar"; $"5"] 2), n,
    (OptionView (nth 2 (c_options (d_command (completed names_parser))) (new_option []))).
  assert (E : l_command (toplevel (after names_parser [$"--bar"; $"5"] 2)) = d_command (completed names_parser))
    by (vm_compute; reflexivity).
  eexists. split.
  { exists 10, ($"prog"), false, names_calls. eexists. split; [vm_compute; reflexivity|].
    unfold names_calls. repeat (apply Forall_cons; [apply opt_made; vm_compute; discriminate|]). constructor. }
  split; [vm_compute; reflexivity|]. split; [exact R|].
  rewrite E. split; [apply in_app_iff; right; apply in_map, nth_In; vm_compute; lia|].
  split; [vm_compute; reflexivity|]. split; [vm_compute; auto|]. split; [vm_compute; reflexivity|]. vm_compute. auto.
Qed.
Print Assumptions C84_same_refuted.

(** stop_option() gives an option of the command that stops the parsing, and throws
    exactly if result_code() is not STOP. *)
Theorem C84_stop_option : forall p q args st n x, finish_parser p = Val q ->
  reached (d_settings q) (d_command q) args st n -> in_result (toplevel st) x ->
  (forall o, pa_stop_option x = Val o ->
     l_result x = RC_STOP /\ In o (c_options (l_command x)) /\ stops o) /\
  (forall e, pa_stop_option x = Exn e <-> e = ENoStopOption /\ l_result x <> RC_STOP).
Proof. exact stop_option_proof. Qed.
Print Assumptions C84_stop_option.

Example C84_stop_option_ex :
  let d := ex_data false false ex_tool in
  let st := after d [$"add"; $"-s"; $"u"] 3 in
  finish_parser d = Val (completed d) /\
  (exists n, reached (d_settings (completed d)) (d_command (completed d)) [$"add"; $"-s"; $"u"] st n) /\
  (exists s o, l_subs (toplevel st) = [s] /\ pa_stop_option s = Val o /\ In ($"-s") (o_flags o)) /\
  pa_stop_option (toplevel st) = Exn ENoStopOption.
Proof.
  cbv zeta. split; [vm_compute; reflexivity|]. split; [solve_reached|].
  split; [|vm_compute; reflexivity]. do 2 eexists. split; [vm_compute; reflexivity|]. split; [vm_compute; reflexivity|].
  vm_compute. auto.
Qed.
