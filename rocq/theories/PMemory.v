(** The property C80: the std::string_view in what next() returns, and those that
    value() and values() give, can be read. [m] says which stored texts exist and
    [mem_next] is next() with the views it returns (MMemory.v); a view that cannot be
    read has no text in [m]. *)
From Verif Require Import Base BaseProofs MStrings MOptIter MData MCounter MValues MParser MMemory
  SIndex SDef SValues SParser SCallback SMemory SExamples ExProofs MemoryProofs3.
Open Scope nat_scope.

(** As long as no callback takes away the value that it is called for, next() never
    reads a text that is gone, does exactly what the parser model says, and returns a
    view that shows the value. For an option or argument it is empty or a view of a
    stored text, which belongs to the value of that item. *)
Theorem C80_returned : forall p q args m st,
  let cfg := d_settings q in
  finish_parser p = Val q -> in_memory cfg (d_command q) args m st -> considerate cfg (ps_command st) ->
  match next cfg st with
  | Ret r st' => exists v m', mem_next cfg m st = Ret ((ir_code r, ir_item r, v), m') st' /\
      read_view m' st' v = Some (ir_value r) /\
      (v = Current -> forall id, ~ stores_to (ir_item r) id) /\
      (forall b, v = Buffer b -> exists id, stores_to (ir_item r) id /\ held m' id b)
  | Exits e st' => mem_next cfg m st = Exits e st'
  | Throws e st' => mem_next cfg m st = Throws e st'
  | _ => False
  end.
Proof. exact (fun p q args m st H => value_proof p q H args m st). Qed.
Print Assumptions C80_returned.

(** A stored text stays where it is while next() goes on, until an option replaces or
    clears its value, a callback does so, or there is an error. This covers texts of
    commands that have been left for a sub-command, and of those that are closed. *)
Theorem C80_kept : forall p q args m st rs m' st' id b s,
  let cfg := d_settings q in
  finish_parser p = Val q -> in_memory cfg (d_command q) args m st -> goes_on cfg m st rs m' st' ->
  held m id b -> mem_text m b = Some s ->
  (forall c, within (d_command q) c -> undisturbed cfg c id) ->
  (forall r, In r rs -> code_of r <> IC_ERROR /\ harmless id (item_of r)) ->
  mem_text m' b = Some s /\ held m' id b.
Proof. exact (fun p q args m st rs m' st' id b s H => kept_long_proof p q H args m st rs m' st' id b s). Qed.
Print Assumptions C80_kept.

(** Nothing that is done in a command can take away a text of a command before it. *)
Theorem C80_kept_before : forall p q args m st r m' st' b,
  let cfg := d_settings q in
  finish_parser p = Val q -> in_memory cfg (d_command q) args m st -> mem_next cfg m st = Ret (r, m') st' ->
  belongs_before m b -> mem_text m' b = mem_text m b.
Proof. exact (fun p q args m st r m' st' b H R E => proj1 (kept_proof p q H args m st r m' st' R E) b). Qed.
Print Assumptions C80_kept_before.

(** Whatever callbacks do: after every call of next() all views that value() and
    values() give can be read, and show the values of the parser model, for the
    current command and all commands that it is a sub-command of. *)
Theorem C80_values : forall p q args m st id,
  finish_parser p = Val q -> in_memory (d_settings q) (d_command q) args m st ->
  Forall2 (readable m) (mem_get_values (mem_cur m) id) (get_values (l_values (ps_cur st)) id) /\
  Forall2 (fun vs l => Forall2 (readable m) (mem_get_values vs id) (get_values (l_values l) id)) (mem_parents m) (ps_parents st) /\
  (forall b aid, In (b, aid) (mem_get_values (mem_cur m) id) -> belongs m id b).
Proof. exact (fun p q args m st id H => values_proof p q H args m st id). Qed.
Print Assumptions C80_values.

(** -n sets a value of another option; FILE adds to its own value; the sub-command has
    values of its own; -p has an initial value. *)
Definition memory_data : parser_data := ex_data false false (ex_command ($"c") []
  [ex_option [$"-n"] ($"N") [] OP_APPEND OT_NORMAL true (Some (fun n v vs => mk_eff [] [VAssign (ByName ($"-p")) v] false []));
   mk_opt [$"-p"] [] [] [] ($"P") [] ($"first") None OP_ASSIGN OT_NORMAL vis_normal true 0 0]
  [ex_command ($"sub")
    [ex_argument ($"FILE") 0 9 (Some (fun n v vs => mk_eff [] [VAppend (ByName ($"FILE")) ($"more")] false []))]
    [ex_option [$"-c"] [] ($"1") OP_CLEAR OT_NORMAL true None] [] false] false).
Definition memory_args := [$"-n1"; $"-n"; $"2"; $"sub"; $"f"; $"g"; $"-c"].
Definition memory_after := mem_after (completed memory_data) memory_args.
Definition view_at (n : nat) : option str :=
  match mem_next (d_settings (completed memory_data)) (fst (memory_after n)) (snd (memory_after n)) with
  | Ret (r, m') st' => read_view m' st' (view_in r)
  | _ => None
  end.

Lemma memory_considerate : forall n, n < 6 -> considerate (d_settings (completed memory_data)) (ps_command (snd (memory_after n))).
Proof.
  intros n L.
  assert (G : forall c, (In c [d_command (completed memory_data)] \/ In c (c_commands (d_command (completed memory_data)))) ->
    considerate (d_settings (completed memory_data)) c).
  { intros c J. vm_compute in J.
    destruct J as [[<-|[]]|[<-|[]]]; (split; intros x Jx; vm_compute in Jx);
      repeat (destruct Jx as [<-|Jx]); try destruct Jx;
      (split; intros f k v vs op E Jo; vm_compute in E; try discriminate E; injection E as <-;
        vm_compute in Jo; destruct Jo as [<-|[]]; intros T; inversion T as [kk vv bb Mn|kk bb Mn]; subst).
    (* -n assigns to -p *)
    destruct Mn as (Ca & _). revert Ca. vm_compute. intros Ca.
    destruct Ca as [a [] _ _|o Jo Ev _ Ef]. destruct Jo as [<-|[<-|[<-|[]]]]; try discriminate Ev.
    vm_compute in Ef. destruct Ef as [[Ef|[]]|(_ & Ef)]; discriminate Ef. }
  apply G. clear G.
  assert (X : In n [0; 1; 2; 3; 4; 5]) by (cbn; lia).
  repeat (destruct X as [<-|X]; [vm_compute; tauto|]). destruct X.
Qed.

Example C80_example : let cfg := d_settings (completed memory_data) in
  finish_parser memory_data = Val (completed memory_data) /\
  (forall n, in_memory cfg (d_command (completed memory_data)) memory_args (fst (memory_after n)) (snd (memory_after n))) /\
  (forall n, n < 6 -> considerate cfg (ps_command (snd (memory_after n)))) /\
  map view_at [0; 1; 2; 3; 4; 5; 6] = [Some ($"1"); Some ($"2"); Some ($"sub"); Some ($"f"); Some ($"g"); Some []; Some []].
Proof.
  cbv zeta. split; [vm_compute; reflexivity|]. split; [intros n; solve_in_memory|].
  split; [exact memory_considerate|vm_compute; reflexivity].
Qed.

(** The text "1" of -n is still there after all of it. *)
Example C80_kept_example : let cfg := d_settings (completed memory_data) in
  let m := fst (memory_after 1) in let st := snd (memory_after 1) in let rs := mem_results cfg 5 m st in
  goes_on cfg m st rs (fst (mem_nexts cfg 5 m st)) (snd (mem_nexts cfg 5 m st)) /\ map code_of rs =
    [IC_OPTION; IC_COMMAND; IC_ARGUMENT; IC_ARGUMENT; IC_OPTION] /\
  held m 1 1 /\ mem_text m 1 = Some ($"1") /\
  (forall c, within (d_command (completed memory_data)) c -> undisturbed cfg c 1) /\
  (forall r, In r rs -> code_of r <> IC_ERROR /\ harmless 1 (item_of r)) /\
  mem_text (fst (mem_nexts cfg 5 m st)) 1 = Some ($"1").
Proof.
  cbv zeta. split; [apply results_go_on|]. split; [vm_compute; reflexivity|].
  split; [exists (mem_cur (fst (memory_after 1))); eexists; split; [left; reflexivity|vm_compute; left; reflexivity]|].
  split; [vm_compute; reflexivity|]. split.
  { intros c W.
    assert (J : c = d_command (completed memory_data) \/ In c (c_commands (d_command (completed memory_data)))).
    { induction W as [|c d W IH I]; [left; reflexivity|right]. destruct IH as [->|J]; [exact I|].
      vm_compute in J. destruct J as [<-|[]]. vm_compute in I. destruct I. }
    vm_compute in J. destruct J as [->|[<-|[]]].
    all: split; intros x Jx; (split; [|intros f k v vs op E; discriminate E]);
      vm_compute in Jx; repeat (destruct Jx as [<-|Jx]); try destruct Jx.
    all: intros f k v vs op E Jo; vm_compute in E; try discriminate E; injection E as <-;
        vm_compute in Jo; destruct Jo as [<-|[]]; intros T; inversion T as [kk vv bb Mn|kk bb Mn]; subst.
    destruct Mn as (Ca & _). revert Ca. vm_compute. intros Ca.
    destruct Ca as [a [] _ _|o Jo Ev _ Ef]. destruct Jo as [<-|[<-|[<-|[]]]]; try discriminate Ev.
    vm_compute in Ef. destruct Ef as [[Ef|[]]|(_ & Ef)]; discriminate Ef. }
  split; [|vm_compute; reflexivity].
  assert (E : forallb (fun r => match code_of r with IC_ERROR => false | _ => true end &&
      match item_of r with ItOption o => negb (N.eqb (o_value_id o) 1) || match o_operation o with OP_APPEND => true | _ => false end | _ => true end)
    (mem_results (d_settings (completed memory_data)) 5 (fst (memory_after 1)) (snd (memory_after 1))) = true) by (vm_compute; reflexivity).
  intros r J. rewrite forallb_forall in E. specialize (E r J). clear J. apply andb_prop in E. destruct E as (E1 & E2).
  split; [destruct (code_of r); discriminate|]. destruct (item_of r) as [|a|o|c]; try exact Logic.I. cbn. intros Eo. rewrite Eo in E2.
  cbn in E2. destruct (o_operation o); try discriminate E2. split; discriminate.
Qed.

(** Every open command can be looked at, while the sub-command is being parsed. *)
Example C80_values_example : let m := fst (memory_after 4) in let st := snd (memory_after 4) in
  map (fun p => mem_text m (fst p)) (mem_get_values (mem_cur m) 4) = [Some ($"f"); Some ($"more")] /\
  map (fun vs => map (fun p => mem_text m (fst p)) (mem_get_values vs 1)) (mem_parents m) = [[Some ($"1"); Some ($"2")]] /\
  map (fun vs => map (fun p => mem_text m (fst p)) (mem_get_values vs 2)) (mem_parents m) = [[Some ($"2")]].
Proof. vm_compute. auto. Qed.

(** A parser whose callbacks do [ops], possibly to the value they are called for,
    and [wide], the callback for all options. *)
Definition replacing (ops : list value_op) (wide : option callback) : parser_data :=
  mk_data (ex_command ($"c") [ex_argument ($"FILE") 0 9 (Some (fun n v vs => mk_eff [] ops false []))]
      [ex_option [$"-n"] ($"N") [] OP_ASSIGN OT_NORMAL true (Some (fun n v vs => mk_eff [] ops false []))] [] false)
    (mk_settings None (option_map (fun f _ => f) wide) STANDARD false false false false false true 0 64) [] 0 [].

(** A callback that corrects the value of its own option leaves next() with a view of
    the old text, which has been released: for an option and an argument, by assign and
    by clear. The parsed values themselves are right. *)
Theorem C80_own_value_refuted : forall ops arg,
  In (ops, arg) [([VAssign (ByName ($"-n")) ($"7")], $"-n1"); ([VClear (ByName ($"-n"))], $"-n1");
                 ([VAssign (ByName ($"FILE")) ($"7")], $"one"); ([VClear (ByName ($"FILE"))], $"one")] ->
  exists q m st r m' st', finish_parser (replacing ops None) = Val q /\
    in_memory (d_settings q) (d_command q) [arg] m st /\
    mem_next (d_settings q) m st = Ret (r, m') st' /\ code_of r <> IC_ERROR /\ read_view m' st' (view_in r) = None.
Proof.
  intros ops arg J. set (q := completed (replacing ops None)).
  set (m := fst (mem_after q [arg] 0)). set (st := snd (mem_after q [arg] 0)).
  assert (G : match mem_next (d_settings q) m st with
    | Ret (r, m') st' => code_of r <> IC_ERROR /\ read_view m' st' (view_in r) = None
    | _ => False
    end).
  { destruct J as [J|[J|[J|[J|[]]]]]; injection J as <- <-; vm_compute; (split; [discriminate|reflexivity]). }
  exists q, m, st. destruct (mem_next (d_settings q) m st) as [(r, m') st'|? ?|? ?| |]; try destruct G. exists r, m', st'.
  split; [destruct J as [J|[J|[J|[J|[]]]]]; injection J as <- <-; vm_compute; reflexivity|].
  split; [|auto]. destruct J as [J|[J|[J|[J|[]]]]]; injection J as <- <-; solve_in_memory.
Qed.
Print Assumptions C80_own_value_refuted.

(** If there is also a callback for all options, it is called with that view. *)
Theorem C80_wide_callback_refuted : exists q m st,
  finish_parser (replacing [VAssign (ByName ($"-n")) ($"7")] (Some (fun n v vs => mk_eff [] [] false []))) = Val q /\
  in_memory (d_settings q) (d_command q) [$"-n1"] m st /\
  next (d_settings q) st <> Undefined /\ mem_next (d_settings q) m st = Undefined.
Proof.
  set (p := replacing _ _). exists (completed p), (fst (mem_after (completed p) [$"-n1"] 0)), (snd (mem_after (completed p) [$"-n1"] 0)).
  split; [vm_compute; reflexivity|]. split; [solve_in_memory|]. split; [vm_compute; discriminate|vm_compute; reflexivity].
Qed.
Print Assumptions C80_wide_callback_refuted.
