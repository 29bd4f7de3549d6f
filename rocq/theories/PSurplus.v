(** C89: command lines in which surplus arguments are ignored. *)
From Verif Require Import Base MStrings MOptIter MData MCounter MValues MParser
  SIndex SDef SValues SCounter SParser SStep SLook SEquiv SApi SLine SIgnore SSurplus SExamples
  ValuesProofs CounterProofs LineProofs LineProofs2 LineProofs3 LineExamples IgnoreProofs SurplusProofs SurplusProofs2 SurplusProofs3 PLine PIgnore.
Open Scope nat_scope.

(** The same definitions are accepted, and completed in the same way. *)
Theorem C89_definitions : forall p q,
  finish_parser p = Val q -> finish_parser (lenient_parser p) = Val (lenient_parser q).
Proof. exact lenient_finish. Qed.
Print Assumptions C89_definitions.

(** A command line without an argument too many is treated as before, whatever the
    definitions, callbacks and the outcome. *)
Theorem C89_unchanged : forall cfg fuel top args,
  match run_parser cfg fuel top args with
  | Ret _ s | Exits _ s | Throws _ s => forall c t, ~ In (EvError c (MsgTooManyArguments t)) (ps_events s)
  | _ => False
  end ->
  run_parser (lenient cfg) fuel top args = run_parser cfg fuel top args.
Proof.
  intros cfg fuel top args X. apply lenient_run.
  assert (U : forall s, (forall c t, ~ In (EvError c (MsgTooManyArguments t)) (ps_events s)) -> uncomplaining s).
  { intros s N. apply Forall_forall. intros e I C. destruct e as [| |c m| |]; try exact C.
    destruct m; try exact C. exact (N _ _ I). }
  destruct (run_parser cfg fuel top args); cbn; auto.
Qed.
Print Assumptions C89_unchanged.

(** No command line has an argument too many any more. *)
Theorem C89_never : forall cfg fuel top args s c t,
  s_ignore_arguments cfg = true ->
  (exists r, run_parser cfg fuel top args = Ret r s) \/
  (exists x, run_parser cfg fuel top args = Exits x s) \/
  (exists x, run_parser cfg fuel top args = Throws x s) ->
  ~ In (EvError c (MsgTooManyArguments t)) (ps_events s).
Proof.
  intros cfg fuel top args s c t Ig X I. pose proof (never_too_many cfg Ig fuel top args) as M.
  assert (U : uncomplaining s) by (destruct X as [(r & E)|[(r & E)|(r & E)]]; rewrite E in M; exact M).
  exact (proj1 (Forall_forall _ _) U _ I Coq.Init.Logic.I).
Qed.
Print Assumptions C89_never.

(** If the command line makes sense and is complete without its surplus arguments then
    parsing succeeds without any message. The values are those that the other words give;
    the surplus arguments are left unprocessed, among the ignored options, in order. *)
Theorem C89_success : forall p q args is subs e left hs,
  finish_parser p = Val q -> regular (d_settings q) (d_command q) ->
  skimming (d_settings q) false (d_command q) (Fresh args) is subs e ->
  all_foreseen (d_settings q) (map words_of ((d_command q, is) :: subs)) ->
  left_of e = Some left ->
  all_acceptable (at_first (d_command q)) (map words_of (map trimmed ((d_command q, is) :: subs))) hs ->
  succeeds_with (lenient (d_settings q)) (d_command q) args hs
    (leftovers (map trimmed ((d_command q, is) :: subs)) left).
Proof.
  intros p q args is subs e left hs H (Sd & Hn & Hi & Ig & One) R F.
  refine (surplus_success p q H Sd Hn Hi Ig One args is subs e R _ left hs).
  apply Forall_map in F. exact F.
Qed.
Print Assumptions C89_success.

(** After filter_parsed_arguments, argv consists of the program name and the arguments
    that the top-level command has ignored (provided that these are elements of argv: the
    rest of a group of flags behind a LAST_OPTION flag is not). *)
Theorem C89_filtered : forall p q prog args is subs hs,
  finish_parser p = Val q -> regular (d_settings q) (d_command q) ->
  skimming (d_settings q) false (d_command q) (Fresh args) is subs AtEnd ->
  all_foreseen (d_settings q) (map words_of ((d_command q, is) :: subs)) ->
  all_acceptable (at_first (d_command q)) (map words_of (map trimmed ((d_command q, is) :: subs))) hs ->
  subsequence (ignored (snd (trimmed (d_command q, is)))) args ->
  exists st, parsed (lenient (d_settings q)) (d_command q) args st /\ l_result (toplevel st) = RC_SUCCESS /\
    filter_parsed_arguments (l_unprocessed (toplevel st)) (prog :: args) =
      prog :: ignored (snd (trimmed (d_command q, is))).
Proof.
  intros p q prog args is subs hs H Rg Sk F Ac Sb.
  destruct (C89_success p q args is subs AtEnd [] hs H Rg Sk F eq_refl Ac) as (st & P & _ & S0).
  exists st. split; [exact P|]. cbn [map leftovers] in S0.
  destruct hs as [|(c, h) hs]; [contradiction|].
  assert (X : l_unprocessed (toplevel st) = ignored (snd (trimmed (d_command q, is))) /\ l_result (toplevel st) = RC_SUCCESS).
  { destruct subs; cbn [map leftovers shows] in S0; destruct S0 as (_ & _ & U & D); rewrite ?app_nil_r in U; (split; [exact U|]);
      destruct hs; apply D. }
  destruct X as (U & R). split; [exact R|]. rewrite U. apply filter_exact_proof. exact Sb.
Qed.
Print Assumptions C89_filtered.

(** A STOP, EXIT or HELP option ends the parsing, also after surplus arguments. *)
Theorem C89_stopped : forall p q args is subs o left,
  finish_parser p = Val q -> regular (d_settings q) (d_command q) ->
  skimming (d_settings q) false (d_command q) (Fresh args) is subs (AtStop o left) ->
  all_foreseen (d_settings q) (map words_of ((d_command q, is) :: subs)) ->
  exists hs, so_far (at_first (d_command q)) (map words_of (map trimmed ((d_command q, is) :: subs))) hs /\
    stops_with (lenient (d_settings q)) (d_command q) args o hs
      (leftovers (map trimmed ((d_command q, is) :: subs)) left).
Proof.
  intros p q args is subs o left H (Sd & Hn & Hi & Ig & One) R F.
  refine (surplus_stop p q H Sd Hn Hi Ig One args is subs _ R _ o left eq_refl).
  apply Forall_map in F. exact F.
Qed.
Print Assumptions C89_stopped.

(** An unknown option, an unknown command and an option without its value are refused all
    the same, with the messages that they have without surplus arguments. *)
Theorem C89_faulty : forall p q args is subs e,
  finish_parser p = Val q -> regular (d_settings q) (d_command q) ->
  skimming (d_settings q) false (d_command q) (Fresh args) is subs e ->
  all_foreseen (d_settings q) (map words_of ((d_command q, is) :: subs)) ->
  (exists f l, e = AtUnknown f l /\ s_ignore_options (d_settings q) = false) \/
  (exists t l, e = AtNoCommand t l) \/ (exists f, e = AtNoValue f) ->
  exists m hs left,
    so_far (at_first (d_command q)) (map words_of (map trimmed ((d_command q, is) :: subs))) hs /\
    complaint args e m left /\
    refuses_with (lenient (d_settings q)) (d_command q) args m hs
      (leftovers (map trimmed ((d_command q, is) :: subs)) left).
Proof.
  intros p q args is subs e H (Sd & Hn & Hi & Ig & One) R F Ee.
  refine (surplus_fault p q H Sd Hn Hi Ig One args is subs e R _ _ _ _).
  - apply Forall_map in F. exact F.
  - intros f l ->. destruct Ee as [(? & ? & _ & X)|[(? & ? & X)|(? & X)]]; [exact X|discriminate X..].
  - destruct Ee as [(? & ? & -> & _)|[(? & ? & ->)|(? & ->)]]; reflexivity.
  - intros o l ->. destruct Ee as [(? & ? & X & _)|[(? & ? & X)|(? & X)]]; discriminate X.
Qed.
Print Assumptions C89_faulty.

(** A command line that is not complete is refused; surplus arguments do not make up for
    anything. *)
Theorem C89_incomplete : forall p q args is subs e left,
  finish_parser p = Val q -> regular (d_settings q) (d_command q) ->
  skimming (d_settings q) false (d_command q) (Fresh args) is subs e ->
  all_foreseen (d_settings q) (map words_of ((d_command q, is) :: subs)) ->
  left_of e = Some left ->
  (forall hs, ~ all_acceptable (at_first (d_command q)) (map words_of (map trimmed ((d_command q, is) :: subs))) hs) ->
  exists front c w h m, map words_of (map trimmed ((d_command q, is) :: subs)) = front ++ [(c, w)] /\
    so_far (at_first (d_command q)) (map words_of (map trimmed ((d_command q, is) :: subs)))
      (passed (at_first (d_command q)) front ++ [(c, h)]) /\
    shortfall c h (N.of_nat (length (positionals w))) m /\
    refuses_with (lenient (d_settings q)) (d_command q) args m
      (passed (at_first (d_command q)) front ++ [(c, h)])
      (leftovers (map trimmed ((d_command q, is) :: subs)) left).
Proof.
  intros p q args is subs e left H (Sd & Hn & Hi & Ig & One) R F El Na.
  assert (F' : Forall (item_fits q) ((d_command q, is) :: subs)) by (apply Forall_map in F; exact F).
  destruct (surplus_judged p q H Sd Hn Hi Ig One args is subs e R F' left El) as [(hs & A)|X];
    [destruct (Na hs A)|exact X].
Qed.
Print Assumptions C89_incomplete.

(** "-ox a --no b c --no2 d -v e": there is room for a, b and c. *)
Example ex_surplus_success :
  let is := [Read (Optional (lax_o 1) ($"x")); Read (Positional ($"a")); Ignored ($"--no"); Read (Positional ($"b"));
             Read (Positional ($"c")); Ignored ($"--no2"); Read (Positional ($"d")); Read (Optional (lax_o 0) []);
             Read (Positional ($"e"))] in
  finish_parser lax_p = Val lax_q /\
  skimmed lax_q [$"-ox"; $"a"; $"--no"; $"b"; $"c"; $"--no2"; $"d"; $"-v"; $"e"] is [] AtEnd /\
  leftovers (map trimmed [(d_command lax_q, is)]) [] = [[$"--no"; $"--no2"; $"d"; $"e"]] /\
  subsequence (ignored (snd (trimmed (d_command lax_q, is))))
    [$"-ox"; $"a"; $"--no"; $"b"; $"c"; $"--no2"; $"d"; $"-v"; $"e"] /\
  exists h, all_acceptable (at_first (d_command lax_q)) (map words_of (map trimmed [(d_command lax_q, is)])) [(d_command lax_q, h)] /\
    map (fun i => map fst (history h i)) [1%N; 2%N; 3%N; 4%N] = [[$"a"]; [$"b"; $"c"]; [$"1"]; [$"x"]].
Proof.
  cbv zeta. split; [vm_compute; reflexivity|]. split; [solve_skimmed lax_p|]. split; [vm_compute; reflexivity|].
  split; [vm_compute; repeat constructor|].
  eexists. split.
  - exists [], (d_command lax_q). eexists. eexists. split; [reflexivity|]. split; [|reflexivity].
    apply (accept_check_sound _ _ _ [1%N; 2%N]). vm_compute. reflexivity.
  - vm_compute. reflexivity.
Qed.

(** "/q add f g h /m hi i": FILE takes two. *)
Example ex_surplus_commands :
  let ia := [Read (Positional ($"f")); Read (Positional ($"g")); Read (Positional ($"h"));
             Read (Optional lg_m ($"hi")); Read (Positional ($"i"))] in
  let segs := [(d_command lg_q, [Ignored ($"/q")]); (lg_add, ia)] in
  finish_parser lg_p = Val lg_q /\
  skimmed lg_q [$"/q"; $"add"; $"f"; $"g"; $"h"; $"/m"; $"hi"; $"i"] [Ignored ($"/q")] [(lg_add, ia)] AtEnd /\
  leftovers (map trimmed segs) [] = [[$"/q"]; [$"h"; $"i"]] /\
  exists hs, all_acceptable (at_first (d_command lg_q)) (map words_of (map trimmed segs)) hs.
Proof.
  cbv zeta. split; [vm_compute; reflexivity|]. split; [solve_skimmed lg_p|]. split; [vm_compute; reflexivity|].
  eexists. eexists [(_, _)], _, _, _. split; [reflexivity|]. split; [|reflexivity].
  apply (accept_check_sound _ _ _ [2%N]). vm_compute. reflexivity.
Qed.

(** A line with an option that has no value keeps its message; one with an argument too
    many loses it. *)
Example ex_surplus_unchanged :
  (exists s, run_parser (d_settings lax_q) 50 (d_command lax_q) [$"a"; $"-o"] = Ret tt s /\
     ps_events s <> [] /\ forall c t, ~ In (EvError c (MsgTooManyArguments t)) (ps_events s)) /\
  (exists s s', run_parser (d_settings lax_q) 50 (d_command lax_q) [$"-ox"; $"a"; $"b"; $"c"; $"d"] = Ret tt s /\
     run_parser (lenient (d_settings lax_q)) 50 (d_command lax_q) [$"-ox"; $"a"; $"b"; $"c"; $"d"] = Ret tt s' /\
     ps_events s <> [] /\ ps_events s' = []).
Proof.
  split.
  - eexists. split; [vm_compute; reflexivity|]. split; [discriminate|].
    intros c t [X|X]; [discriminate X|exact X].
  - eexists _, _. split; [vm_compute; reflexivity|]. split; [vm_compute; reflexivity|]. split; [discriminate|reflexivity].
Qed.

(** "a b c d --no e --stop f", "a b c d -o" and "a b c d -z", where d is too much. *)
Example ex_surplus_stopped :
  skimmed lax_q [$"a"; $"b"; $"c"; $"d"; $"--no"; $"e"; $"--stop"; $"f"]
    [Read (Positional ($"a")); Read (Positional ($"b")); Read (Positional ($"c")); Read (Positional ($"d"));
     Ignored ($"--no"); Read (Positional ($"e")); Read (Optional (lax_o 2) [])] [] (AtStop (lax_o 2) [$"f"]).
Proof. solve_skimmed lax_p. Qed.

Example ex_surplus_faulty :
  skimmed lax_q [$"a"; $"b"; $"c"; $"d"; $"-o"]
    [Read (Positional ($"a")); Read (Positional ($"b")); Read (Positional ($"c")); Read (Positional ($"d"))] [] (AtNoValue ($"-o")) /\
  regular (d_settings copy_q) (d_command copy_q) /\ s_ignore_options (d_settings copy_q) = false /\
  skimming (d_settings copy_q) false (d_command copy_q) (Fresh [$"a"; $"b"; $"c"; $"d"; $"-z"; $"e"])
    [Read (Positional ($"a")); Read (Positional ($"b")); Read (Positional ($"c")); Read (Positional ($"d"))] []
    (AtUnknown ($"-z") [$"e"]).
Proof.
  split; [solve_skimmed lax_p|]. split; [apply regular_check_sound; vm_compute; reflexivity|]. split; [reflexivity|].
  apply (reading_skims copy_q false _ _ [Positional ($"a"); Positional ($"b"); Positional ($"c"); Positional ($"d")] []).
  apply (read_line copy_p _ ltac:(vm_compute; reflexivity) ltac:(vm_compute; reflexivity) 50). vm_compute. reflexivity.
Qed.

(** "a b c d -v": the option --out is mandatory. *)
Example ex_surplus_incomplete :
  let is := [Read (Positional ($"a")); Read (Positional ($"b")); Read (Positional ($"c")); Read (Positional ($"d"));
             Read (Optional (lax_o 0) [])] in
  skimmed lax_q [$"a"; $"b"; $"c"; $"d"; $"-v"] is [] AtEnd /\
  forall hs, ~ all_acceptable (at_first (d_command lax_q)) (map words_of (map trimmed [(d_command lax_q, is)])) hs.
Proof.
  cbv zeta. split; [solve_skimmed lax_p|].
  intros hs ([|x front] & c & w & h & E & A & _); [|destruct front; discriminate].
  injection E as <- <-. destruct A as (_ & _ & (ks & F & ->) & M).
  assert (F' : fair (c_arguments (d_command lax_q)) 3 ks) by exact F. clear F.
  assert (F2 : fair (c_arguments (d_command lax_q)) 3 [1%N; 2%N]).
  { apply fair_check_sound. vm_compute. reflexivity. }
  rewrite (fair_unique_proof _ _ _ _ F' F2) in M.
  refine (M (lax_o 1) _ _ _); [right; left; reflexivity|reflexivity|vm_compute; reflexivity].
Qed.
