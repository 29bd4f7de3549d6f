(** The property C85: callbacks that use their builder step by step. *)
From Verif Require Import Base BaseProofs MStrings MOptIter MData MCounter MValues MParser MBuilder
  SIndex SDef SValues SCounter SHelp SParser SStep SCallback SBuilder SExamples ExProofs InvProofs NextProofs ParseProofs
  TokProofs ValuesProofs MonadProofs StepProofs StepProofs2 CallbackProofs BuilderProofs.
Open Scope nat_scope.

(** Whatever a callback does with its builder, and in whatever order, each call takes effect
    at once: has(), value() and values() return what is there at that moment, including what
    the callback itself has assigned, appended and cleared before. Calls that fail throw and
    change nothing, and if the callback catches the exception it goes on from there; error()
    writes its message and exits or throws. The specification has one result only, and
    besides the values and the output nothing has changed. *)
Theorem C85_steps : forall cfg p st, is_multimap (l_values (ps_cur st)) ->
  let c := l_command (ps_cur st) in let vs := l_values (ps_cur st) in
  exists evs vs' s, proceeds cfg c vs p evs vs' s /\
    run_program cfg p st = comes_out s (left_by st evs vs') /\ is_multimap vs' /\
    forall evs2 vs2 s2, proceeds cfg c vs p evs2 vs2 s2 ->
      evs2 = evs /\ (forall id, get_values vs2 id = get_values vs' id) /\ s2 = s.
Proof.
  intros cfg p st O c vs. destruct (program_exact cfg p st O) as (evs & vs' & s & B & O' & E).
  exists evs, vs', s. split; [exact B|]. split; [exact E|]. split; [exact O'|].
  intros evs2 vs2 s2 B2. exact (behaves_unique cfg c p vs vs evs2 vs2 s2 evs vs' s (fun _ => eq_refl) B2 B).
Qed.
Print Assumptions C85_steps.

(** For each such callback there is a function from the values that it finds to its output,
    its changes, its end and its new arguments, all done in this order, that has the same
    effect: what the other properties say about callbacks, which are such functions there,
    holds for callbacks that read and write in turns. Excepted are callbacks that catch what
    error() throws. *)
Theorem C85_callback : forall c (P : nat -> str -> program), exists f : callback,
  forall cfg ev v st, l_command (ps_cur st) = c ->
    (s_auto_exit cfg = true \/ yields (P (ps_calls st) v)) ->
    by_callback (run_steps cfg P ev v st) = run_callback cfg (Some f) ev v st.
Proof. exact steps_are_callback. Qed.
Print Assumptions C85_callback.

(** The option -m sets -w, then acts on what it finds. *)
Definition ex_stepwise : parser_data := ex_data false false (ex_command ($"c")
  [ex_argument ($"FILE") 0 9 None]
  [ex_option [$"-w"] ($"N") [] OP_APPEND OT_NORMAL true None;
   ex_option [$"-m"] [] ($"1") OP_ASSIGN OT_NORMAL true None] [] false).
Definition ex_before : pstate := after ex_stepwise [$"-w1"; $"-w2"; $"file"] 2.

Definition shows (a : answer) : str :=
  match a with
  | AHas true => $"yes" | AHas false => $"no"
  | AValue (Some s) _ _ => s | AValue None _ _ => $"none"
  | AValues l _ => concat (map fst l)
  end.
(** Reads -w as a single value, which throws, and goes on without it: counts the values,
    replaces them, appends to FILE and reads both; in the end clears -w and asks for a name
    that does not exist. *)
Definition ex_program : program :=
  Read (QValue (ByName ($"-w"))) (Some
    (Read (QValues (ByName ($"-w"))) None (fun a =>
     Write (shows a)
    (Change (VAssign (ByName ($"-w")) (shows a)) None
    (Read (QValue (ByName ($"-w"))) None (fun b =>
     Change (VAppend (ByName ($"FILE")) (shows b ++ $"!")) None
    (Write (shows b)
    (Read (QValue (ByName ($"FILE"))) None (fun d =>
     Write (shows d)
    (Change (VClear (ByName ($"-w"))) None
    (Read (QHas (ByName ($"-w"))) None (fun e =>
     Write (shows e)
    (Change (VClear (ByName ($"-q"))) None (Finish []))))))))))))))
    (fun _ => Raise).

Example C85_example : let cfg := d_settings (completed ex_stepwise) in let st := ex_before in
  (exists n, reached cfg (d_command (completed ex_stepwise)) [$"-w1"; $"-w2"; $"file"] st n) /\
  is_multimap (l_values (ps_cur st)) /\ yields ex_program /\
  map (get_values (l_values (ps_cur st))) [1; 2]%N = [[]; [($"1", 3%N); ($"2", 3%N)]] /\
  exists st', run_program cfg ex_program st = Throws (EUnknownValue ($"-q")) st' /\
    map (get_values (l_values (ps_cur st'))) [1; 2]%N = [[($"12!", 0%N)]; []] /\
    map (fun e => match e with EvText s => s | _ => [] end) (ps_events st') = [$"12"; $"12"; $"12!"; $"no"].
Proof.
  cbv zeta. split; [solve_reached|]. split.
  { unfold is_multimap. vm_compute. repeat constructor; intros H; discriminate H. }
  split.
  { unfold ex_program. repeat (constructor; intros; try discriminate; repeat match goal with H : Some _ = Some _ |- _ => injection H as <- end). }
  split; [vm_compute; reflexivity|]. eexists. split; [vm_compute; reflexivity|]. split; vm_compute; reflexivity.
Qed.

(** A callback that catches the exception of error() and goes on is not such a function: the
    message has been written, and parsing goes on as if nothing had happened. *)
Theorem C85_caught_refuted : exists q args st P ev, finish_parser ex_stepwise = Val q /\
  (exists n, reached (d_settings q) (d_command q) args st n) /\ s_auto_exit (d_settings q) = false /\
  (exists st', run_steps (d_settings q) P ev [] st = Ret tt st' /\
     ps_events st' = ps_events st ++ [ev; EvError (l_command (ps_cur st)) (MsgUser ($"bad"))]) /\
  forall f, by_callback (run_steps (d_settings q) P ev [] st) <> run_callback (d_settings q) (Some f) ev [] st.
Proof.
  exists (completed ex_stepwise), [$"-w1"; $"-w2"; $"file"], ex_before,
    (fun _ _ => Change (VError ($"bad")) (Some (Finish [])) (Finish [])), (EvOptionCallback false 4 []).
  split; [vm_compute; reflexivity|]. split; [solve_reached|]. split; [vm_compute; reflexivity|]. split.
  { eexists. split; vm_compute; reflexivity. }
  intros f E. cbv beta in E. symmetry in E.
  assert (W : wf_iter (ps_iter ex_before)) by (vm_compute; discriminate).
  assert (O : in_order (l_values (ps_cur ex_before))).
  { unfold in_order. vm_compute. repeat constructor; intros H; discriminate H. }
  destruct (callback_writes _ _ _ _ _ _ O W E) as (ts & X). vm_compute in X. injection X as X.
  destruct ts; discriminate X.
Qed.
Print Assumptions C85_caught_refuted.
