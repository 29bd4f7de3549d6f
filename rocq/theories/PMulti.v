(** C73: the meaning of a command line with several sub-commands. C32, C33: what is not
    checked and not set in the sub-commands before the last one. *)
From Verif Require Import Base MStrings MOptIter MData MCounter MValues MParser
  SIndex SDef SValues SCounter SParser SStep SLook SEquiv SApi SLine SMulti SExamples
  MultiProofs MultiProofs2 MultiProofs3 LineExamples MultiExamples.
Open Scope nat_scope.

(** What the user sees is what the command line means. *)
Theorem C73_line : forall p q args out,
  finish_parser p = Val q -> orderly (d_settings q) (d_command q) ->
  means (d_settings q) false (outermost (d_command q)) [] (Fresh args) out ->
  yields (d_settings q) (d_command q) args out.
Proof.
  intros p q args out H (Sd & Hn & Hi & Ig & Iq). exact (line_means p q H Sd Hn Hi Ig Iq args out).
Qed.
Print Assumptions C73_line.

(** Every command line has a meaning, and one only. *)
Theorem C73_total : forall p q args,
  finish_parser p = Val q -> orderly (d_settings q) (d_command q) -> clear (d_settings q) (d_command q) ->
  dependable_line (d_settings q) (d_command q) args ->
  exists out, means (d_settings q) false (outermost (d_command q)) [] (Fresh args) out.
Proof.
  intros p q args H (Sd & _) Cl. exact (multi_total p q H Sd Cl args).
Qed.
Print Assumptions C73_total.

Theorem C73_unique : forall p q args out out', finish_parser p = Val q ->
  means (d_settings q) false (outermost (d_command q)) [] (Fresh args) out ->
  means (d_settings q) false (outermost (d_command q)) [] (Fresh args) out' -> out = out'.
Proof. exact (fun p q args out out' H => multi_one p q H args out out'). Qed.
Print Assumptions C73_unique.

(* ------------------------------------------------------------------------ *)
(** ** Examples *)

(** tool [-C DIR] (add [-m TEXT] [--] FILE [FILE] | remote [-q] list [URL] | tag A B [-- LAST])... *)
Definition tools : cmd_data := ex_command ($"tool") []
  [ex_option [$"-C"] ($"DIR") [] OP_ASSIGN OT_NORMAL false None]
  [ex_command ($"add") [ex_argument ($"FILE") 1 2 None]
     [ex_option [$"-m"; $"--message="] ($"TEXT") [] OP_ASSIGN OT_NORMAL false None;
      ex_option [$"--"] [] [] OP_NONE OT_LAST_ARGUMENT true None;
      ex_option [$"-s"] [] [] OP_NONE OT_STOP true None] [] false;
   ex_command ($"remote") []
     [ex_option [$"-q"] [] ($"1") OP_ASSIGN OT_NORMAL true None]
     [ex_command ($"list") [ex_argument ($"URL") 0 1 None] [] [] false] false;
   ex_command ($"tag") [ex_argument ($"A") 1 1 None; ex_argument ($"B") 0 1 None; ex_argument ($"C") 0 1 None]
     [ex_option [$"--"] [] [] OP_NONE OT_LAST_OPTION true None] [] false]
  true.
Definition tools_p := mk_data tools
  (mk_settings None None STANDARD false false false false false false 0 64) [] 0 [].
Definition tools_q := completed tools_p.

(** The conditions of the theorems, and the meaning. *)
Definition example (args : list str) (P : SMulti.outcome -> Prop) : Prop :=
  finish_parser tools_p = Val tools_q /\ orderly (d_settings tools_q) (d_command tools_q) /\
  clear (d_settings tools_q) (d_command tools_q) /\ dependable_line (d_settings tools_q) (d_command tools_q) args /\
  exists out, means (d_settings tools_q) false (outermost (d_command tools_q)) [] (Fresh args) out /\ P out.

Ltac solve_example :=
  assert (O : orderly (d_settings tools_q) (d_command tools_q)) by (apply orderly_check_sound; vm_compute; reflexivity);
  assert (C : clear (d_settings tools_q) (d_command tools_q)) by (apply (clear_check_sound 9); vm_compute; reflexivity);
  split; [vm_compute; reflexivity|]; split; [exact O|]; split; [exact C|];
  split; [intros X; vm_compute in X; discriminate X|];
  eexists; split; [apply (mean_line tools_p tools_q ltac:(vm_compute; reflexivity) ltac:(vm_compute; reflexivity) (proj1 O) C 50);
                   vm_compute; reflexivity|].

(** "-Cd add -mt a b remote -q list u add -mt x": when the name of the next sub-command comes
    the current one ends, with its values, but without a result code. *)
Example ex_several :
  example [$"-Cd"; $"add"; $"-mt"; $"a"; $"b"; $"remote"; $"-q"; $"list"; $"u"; $"add"; $"-mt"; $"x"]
    (fun out => exists x z, out = Complete x z [] /\ short x = ($"add", [$"-mt"; $"x"], []) /\
       map short z = [($"tool", [$"-Cd"],
         [Note ($"add") [[$"a"; $"b"]; [$"t"]; []; []] RC_NONE [];
          Note ($"remote") [[$"1"]] RC_NONE [Note ($"list") [[$"u"]] RC_NONE []]])]).
Proof. solve_example. eexists _, _. split; [reflexivity|]. vm_compute. split; reflexivity. Qed.

(** "add -mt a -- remote list": control returns to the tool, the results so far are successful. *)
Example ex_return :
  example [$"add"; $"-mt"; $"a"; $"--"; $"remote"; $"list"]
    (fun out => exists x z, out = Complete x z [] /\ short x = ($"list", [], []) /\
       map short z = [($"remote", [], []); ($"tool", [], [Note ($"add") [[$"a"]; [$"t"]; []; []] RC_SUCCESS []])] /\
       map op_result z = [RC_NONE; RC_SUCCESS]).
Proof. solve_example. eexists _, _. split; [reflexivity|]. vm_compute. repeat split; reflexivity. Qed.

(** "add add": add needs a FILE, so the second add is one. "tag x add f": A has its
    value, but B and C are not known to be without one. *)
Example ex_several_faults :
  example [$"add"; $"add"; $"-mt"] (fun out => exists x z, out = Complete x z [] /\ short x = ($"add", [$"add"; $"-mt"], [])) /\
  example [$"tag"; $"x"; $"add"; $"f"] (fun out => exists x z, out = Surplus x z ($"add") [$"f"] /\ short x = ($"tag", [$"x"], [])) /\
  example [$"tag"; $"x"; $"y"; $"z"; $"u"] (fun out => exists x z, out = Surplus x z ($"u") [] /\ short x = ($"tag", [$"x"; $"y"; $"z"], [])) /\
  example [$"add"; $"f"; $"remote"] (fun out => exists x z, out = Incomplete x z [] /\ short x = ($"remote", [], [])) /\
  example [$"add"; $"f"; $"--"; $"remote"] (fun out => exists x z, out = Incomplete x z [$"remote"] /\ short x = ($"add", [$"f"; $"--"], [])) /\
  example [$"add"; $"f"; $"remote"; $"f"] (fun out => exists x z, out = Faulty x z (AtNoCommand ($"f") []) /\ short x = ($"remote", [], [])) /\
  example [$"add"; $"-s"; $"-x"] (fun out => exists x z o, out = Stopped x z o [$"-x"] /\ short x = ($"add", [$"-s"], [])).
Proof.
  do 6 (split; [solve_example; do 2 eexists; (split; [reflexivity|vm_compute; reflexivity])|]).
  solve_example. do 3 eexists. split; [reflexivity|vm_compute; reflexivity].
Qed.

(* ------------------------------------------------------------------------ *)
(** ** What one would not expect *)

(** A sub-command that is followed by another one need not have its mandatory options,
    and has no result code although parsing succeeds. *)
Theorem C33_siblings_refuted : exists p q args st l o, finish_parser p = Val q /\
  parsed (d_settings q) (d_command q) args st /\ l_result (toplevel st) = RC_SUCCESS /\
  In l (l_subs (toplevel st)) /\ In o (c_options (l_command l)) /\ o_optional o = false /\
  ~ (exists v aid, In (o_value_id o, (v, aid)) (l_values l)) /\ l_result l = RC_NONE.
Proof.
  pose (st := final tools_p [$"add"; $"f"; $"tag"; $"x"; $"y"; $"z"]). pose (l := nth 0 (l_subs (toplevel st)) (new_level tools)).
  exists tools_p, tools_q, [$"add"; $"f"; $"tag"; $"x"; $"y"; $"z"], st, l, (nth 0 (c_options (l_command l)) (ex_option [] [] [] OP_NONE OT_NORMAL true None)).
  split; [vm_compute; reflexivity|]. split; [exists 1000; vm_compute; reflexivity|]. split; [vm_compute; reflexivity|].
  split; [vm_compute; left; reflexivity|]. split; [vm_compute; left; reflexivity|]. split; [vm_compute; reflexivity|].
  split; [|vm_compute; reflexivity]. intros (v & aid & X). vm_compute in X. destruct X as [X|[]]. discriminate X.
Qed.
Print Assumptions C33_siblings_refuted.

(** If a LAST_ARGUMENT option has ended an earlier sub-command then the result code is
    SUCCESS although a STOP option ended the parsing. *)
Theorem C32_stop_refuted : exists p q args st, finish_parser p = Val q /\
  parsed (d_settings q) (d_command q) args st /\
  l_result (ps_cur st) = RC_STOP /\ l_result (toplevel st) = RC_SUCCESS.
Proof.
  pose (args := [$"add"; $"-mt"; $"a"; $"--"; $"add"; $"-s"]). exists tools_p, tools_q, args, (final tools_p args).
  split; [vm_compute; reflexivity|]. split; [exists 1000; vm_compute; reflexivity|]. vm_compute. split; reflexivity.
Qed.
Print Assumptions C32_stop_refuted.

(** A LAST_ARGUMENT option of a sub-command returns control to the command above it, but
    its options are not recognised any more. *)
Theorem C73_return_refuted : exists p q args name flag t rest st o, finish_parser p = Val q /\
  orderly (d_settings q) (d_command q) /\ In o (c_options (d_command q)) /\ In flag (o_flags o) /\
  (exists st', parsed (d_settings q) (d_command q) (args ++ name :: rest) st' /\ l_result (toplevel st') = RC_SUCCESS) /\
  (exists st', parsed (d_settings q) (d_command q) ([flag; t] ++ args ++ name :: rest) st' /\ l_result (toplevel st') = RC_SUCCESS) /\
  parsed (d_settings q) (d_command q) (args ++ flag :: t :: name :: rest) st /\
  In (EvError (d_command q) (MsgUnknownCommand flag)) (ps_events st).
Proof.
  pose (a := [$"add"; $"-mt"; $"a"; $"--"]). pose (st := final tools_p (a ++ [$"-C"; $"d"; $"add"; $"-mt"; $"b"])).
  exists tools_p, tools_q, a, ($"add"), ($"-C"), ($"d"), [$"-mt"; $"b"], st, (nth 0 (c_options (d_command tools_q)) (ex_option [] [] [] OP_NONE OT_NORMAL true None)).
  split; [vm_compute; reflexivity|]. split; [apply orderly_check_sound; vm_compute; reflexivity|].
  split; [vm_compute; left; reflexivity|]. split; [vm_compute; left; reflexivity|].
  split; [exists (final tools_p (a ++ $"add" :: [$"-mt"; $"b"])); split; [exists 1000; vm_compute; reflexivity|vm_compute; reflexivity]|].
  split; [exists (final tools_p ([$"-C"; $"d"] ++ a ++ $"add" :: [$"-mt"; $"b"])); split; [exists 1000; vm_compute; reflexivity|vm_compute; reflexivity]|].
  split; [exists 1000; vm_compute; reflexivity|]. vm_compute. left. reflexivity.
Qed.
Print Assumptions C73_return_refuted.
