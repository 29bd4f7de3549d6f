(** The property C77: what callbacks do to the values takes effect, and what happens
    when a callback breaks off. [p] is any definition that the library accepts and
    [q] the definition after parse() has completed it. *)
From Verif Require Import Base BaseProofs MStrings MOptIter MData MCounter MValues MParser
  SIndex SDef SValues SCounter SHelp SParser SStep SCallback SExamples ExProofs InvProofs NextProofs ParseProofs
  StepProofs StepProofs2 CallbackProofs.
Open Scope nat_scope.

(** An option that has got its value changes the values first ([vs1]); then its own
    callback and the parser's option callback change them further, in this order and
    each starting from what the one before it left. If one of them calls error(),
    uses an unknown name or throws, nothing further is done, and the changes made
    until then stay. Otherwise the option has the effect of its type, and nothing
    else has changed. *)
Theorem C77_option : forall p q args st n t it o v it',
  let cfg := d_settings q in
  finish_parser p = Val q -> reached cfg (d_command q) args st n ->
  ps_mode st = ARGUMENTS_AND_OPTIONS -> it_next (ps_iter st) = Ok (Some t, it) ->
  looks_like_option (s_style cfg) t -> dependable cfg (ps_command st) t ->
  selects (s_case_insensitive cfg) (s_abbreviations cfg) (c_options (ps_command st)) t o ->
  reads_value o it v it' ->
  exists vs1, changed (option_change o v) (l_values (ps_cur st)) vs1 /\
    both_act cfg st (o_callback o) (option_cb cfg o)
      (EvOptionCallback false (o_argument_id o) v) (EvOptionCallback true (o_argument_id o) v)
      v vs1 (next cfg st) (option_goes_on cfg st o v (next cfg st)).
Proof. exact (fun p q args st n t it o v it' H => option_acts_proof p q H args st n t it o v it'). Qed.
Print Assumptions C77_option.

(** The same for a positional argument, unless there is no argument left that could
    receive it: then next() reports an error or skips it. *)
Theorem C77_argument : forall p q args st n t it,
  let cfg := d_settings q in
  finish_parser p = Val q -> reached cfg (d_command q) args st n ->
  reads st (Some t) it -> (ps_mode st = ARGUMENTS_ONLY \/ ~ looks_like_option (s_style cfg) t) ->
  c_commands (ps_command st) = [] -> no_sibling cfg st t ->
  match next cfg st with
  | Ret r _ => ir_code r = IC_UNKNOWN \/ ir_code r = IC_ERROR
  | Exits c _ => s_auto_exit cfg = true
  | _ => False
  end \/
  exists a vs1, In a (c_arguments (ps_command st)) /\
    changed (argument_change a t) (l_values (ps_cur st)) vs1 /\
    both_act cfg st (a_callback a) (argument_cb cfg a)
      (EvArgumentCallback false (a_argument_id a) t) (EvArgumentCallback true (a_argument_id a) t)
      t vs1 (next cfg st) (fun evs k vs => exists st',
        next cfg st = Ret (mk_ir IC_ARGUMENT (ItArgument a) t) st' /\
        became st st' evs k vs /\ same_end st st' /\ ps_mode st' = ps_mode st).
Proof. exact (fun p q args st n t it H => argument_acts_proof p q H args st n t it). Qed.
Print Assumptions C77_argument.

(** -s sets -w, adds to FILE and clears -q; -b adds to -w and then complains about
    itself; FILE uses a name that does not exist. *)
Definition ex_acting : parser_data := ex_data false false (ex_command ($"c")
  [ex_argument ($"FILE") 0 9 (Some (fun n v vs => mk_eff [$"hm"] [VAppend (ByName ($"-w")) v; VClear (ByName ($"-z"))] false []))]
  [ex_option [$"-w"] ($"N") [] OP_ASSIGN OT_NORMAL true None;
   ex_option [$"-q"] [] ($"1") OP_APPEND OT_NORMAL true None;
   ex_option [$"-s"] ($"N") [] OP_ASSIGN OT_NORMAL true (Some (fun n v vs =>
     mk_eff [$"set"] [VAssign (ByName ($"-w")) v; VAppend (ByName ($"FILE")) ($"x"); VClear (ByName ($"-q"))] false []));
   ex_option [$"-b"; $"--bad"] ($"N") [] OP_ASSIGN OT_NORMAL true (Some (fun n v vs =>
     mk_eff [] [VAppend (ByName ($"-w")) v; VErrorAt ($"too big") 6; VClear (ByName ($"-w"))] false [$"more"]))]
  [] false).

Example C77_option_example :
  let d := ex_acting in let a := [$"-q"; $"-w1"; $"-s7"; $"-b8"] in
  finish_parser d = Val (completed d) /\
  (exists n, reached (d_settings (completed d)) (d_command (completed d)) a (after d a 2) n) /\
  (exists n, reached (d_settings (completed d)) (d_command (completed d)) a (after d a 3) n) /\
  (exists it it' o, it_next (ps_iter (after d a 2)) = Ok (Some ($"-s"), it) /\
     selects false false (c_options (ps_command (after d a 2))) ($"-s") o /\ reads_value o it ($"7") it') /\
  (let vs := l_values (ps_cur (after d a 3)) in
   map (get_values vs) [1; 2; 3; 4; 5]%N = [[($"x", 0)]; [($"7", 0)]; []; [($"7", 5)]; []]%N) /\
  (exists it it' o, it_next (ps_iter (after d a 3)) = Ok (Some ($"-b"), it) /\
     selects false false (c_options (ps_command (after d a 3))) ($"-b") o /\ reads_value o it ($"8") it') /\
  exists st', next (d_settings (completed d)) (after d a 3) = Throws EParseError st' /\
    map (get_values (l_values (ps_cur st'))) [2; 5]%N = [[($"7", 0); ($"8", 0)]; [($"8", 6)]]%N /\
    map (fun e => match e with EvError _ m => error_text m | _ => [] end) (skipn 2 (ps_events st')) =
      [[]; $"-b, --bad: too big"].
Proof.
  cbv zeta. split; [vm_compute; reflexivity|]. split; [solve_reached|]. split; [solve_reached|].
  split.
  { do 3 eexists. split; [vm_compute; reflexivity|]. split.
    - left; left. exists ($"-s"). split; [split; [vm_compute; right; right; left; reflexivity|vm_compute; left; reflexivity]|reflexivity].
    - left. split; [split; [left; reflexivity|reflexivity]|vm_compute; reflexivity]. }
  split; [vm_compute; reflexivity|]. split.
  { do 3 eexists. split; [vm_compute; reflexivity|]. split.
    - left; left. exists ($"-b"). split; [split; [vm_compute; right; right; right; left; reflexivity|vm_compute; left; reflexivity]|reflexivity].
    - left. split; [split; [left; reflexivity|reflexivity]|vm_compute; reflexivity]. }
  eexists. split; [vm_compute; reflexivity|]. split; vm_compute; reflexivity.
Qed.

Example C77_argument_example :
  let d := ex_acting in let a := [$"-w1"; $"file"] in let st := after d a 1 in
  finish_parser d = Val (completed d) /\
  (exists n, reached (d_settings (completed d)) (d_command (completed d)) a st n) /\
  (exists it, reads st (Some ($"file")) it) /\ ~ looks_like_option STANDARD ($"file") /\
  c_commands (ps_command st) = [] /\ no_sibling (d_settings (completed d)) st ($"file") /\
  exists st', next (d_settings (completed d)) st = Throws (EUnknownValue ($"-z")) st' /\
    map (get_values (l_values (ps_cur st'))) [1; 2]%N = [[($"file", 2)]; [($"1", 3); ($"file", 0)]]%N.
Proof.
  cbv zeta. split; [vm_compute; reflexivity|]. split; [solve_reached|].
  split; [eexists; vm_compute; reflexivity|]. split; [intros (c & r & E); discriminate E|].
  split; [vm_compute; reflexivity|]. split; [intros l d0 I; vm_compute in I; destruct I|].
  eexists. split; vm_compute; reflexivity.
Qed.

(** The option --end of a sub-command "b" below "a" ends both, and its callback sets FILE
    before that: the results of "b" are in those of "a", and those in the results of the
    program, which regains control. *)
Definition ex_ending : parser_data := ex_data false false (ex_command ($"c") []
  [] [ex_command ($"a") [] []
     [ex_command ($"b") [ex_argument ($"FILE") 0 9 None]
       [ex_option [$"--end"] [] [] OP_NONE OT_LAST_ARGUMENT true (Some (fun n v vs =>
          mk_eff [] [VAssign (ByName ($"FILE")) ($"x")] false []))] [] false] false] true).

Example C77_last_example :
  let d := ex_ending in let a := [$"a"; $"b"; $"--end"; $"a"] in let st := after d a 2 in
  finish_parser d = Val (completed d) /\
  (exists n, reached (d_settings (completed d)) (d_command (completed d)) a st n) /\
  (exists it o, it_next (ps_iter st) = Ok (Some ($"--end"), it) /\
     selects false false (c_options (ps_command st)) ($"--end") o /\ reads_value o it [] it /\
     o_type o = OT_LAST_ARGUMENT) /\
  map (fun l => c_multi (l_command l)) (ps_parents st) = [false; true] /\
  exists r st', next (d_settings (completed d)) st = Ret r st' /\ ir_code r = IC_OPTION /\
    ps_mode st' = ARGUMENTS_ONLY /\ c_name (ps_command st') = $"c" /\ ps_parents st' = [] /\
    map (fun l => (c_name (l_command l), map (fun x => (c_name (l_command x), map snd (l_values x))) (l_subs l)))
      (l_subs (ps_cur st')) = [($"a", [($"b", [($"x", 0%N)])])].
Proof.
  cbv zeta. split; [vm_compute; reflexivity|]. split; [solve_reached|].
  split.
  { do 2 eexists. split; [vm_compute; reflexivity|]. split; [|split].
    - left; left. exists ($"--end"). split; [split; [vm_compute; left; reflexivity|vm_compute; left; reflexivity]|reflexivity].
    - right. split; [intros ([E|E] & _); discriminate E|split; reflexivity].
    - reflexivity. }
  split; [vm_compute; reflexivity|].
  do 2 eexists. split; [vm_compute; reflexivity|]. repeat split; vm_compute; reflexivity.
Qed.
