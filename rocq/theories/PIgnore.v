(** C88: command lines in which unknown options are ignored. *)
From Verif Require Import Base MStrings MOptIter MData MCounter MValues MParser
  SIndex SDef SValues SCounter SParser SStep SLook SEquiv SApi SLine SIgnore SExamples
  ValuesProofs LineProofs LineProofs2 LineProofs3 LineExamples IgnoreProofs.
Open Scope nat_scope.

(** Every command line can be read this way, and it never ends because of an unknown
    option, except for one among several flags in a single argument. *)
Theorem C88_total : forall p q args,
  finish_parser p = Val q -> s_ignore_options (d_settings q) = true ->
  dependable_line (d_settings q) (d_command q) args ->
  exists is subs e, skimming (d_settings q) false (d_command q) (Fresh args) is subs e /\
    forall f l, e = AtUnknown f l -> flag_in_group args f.
Proof. exact (fun p q args H Io => skims_total p q H Io args). Qed.
Print Assumptions C88_total.

(** If what is not ignored makes sense and is complete then parsing succeeds without any
    message. The values are those that the words give; each command leaves exactly the
    arguments unprocessed that are ignored in it, in order, and then what is left at the
    end. *)
Theorem C88_success : forall p q args is subs e left hs,
  finish_parser p = Val q -> regular (d_settings q) (d_command q) ->
  skimming (d_settings q) false (d_command q) (Fresh args) is subs e ->
  all_foreseen (d_settings q) (map words_of ((d_command q, is) :: subs)) ->
  left_of e = Some left ->
  all_acceptable (at_first (d_command q)) (map words_of ((d_command q, is) :: subs)) hs ->
  succeeds_with (d_settings q) (d_command q) args hs (leftovers ((d_command q, is) :: subs) left).
Proof.
  intros p q args is subs e left hs H (Sd & Hn & Hi & Ig & One) R F.
  refine (skim_success p q H Sd Hn Hi Ig One args is subs e R _ left hs).
  apply Forall_map in F. exact F.
Qed.
Print Assumptions C88_success.

(** This is what happens without the ignored arguments: the other ones, in their order,
    are read as the same words, and the values are the same. *)
Theorem C88_without : forall cfg top args is subs e,
  skimming cfg false top (Fresh args) is subs e ->
  exists others, woven others (all_ignored ((top, is) :: subs)) args /\
    reading cfg false top (Fresh others) (words is) (map words_of subs) e.
Proof.
  intros cfg top args is subs e Sk. destruct (skim_without cfg _ _ _ _ _ _ Sk) as (r & R & Wv & _). eauto.
Qed.
Print Assumptions C88_without.

Theorem C88_same_values : forall p q args is subs e left hs,
  finish_parser p = Val q -> regular (d_settings q) (d_command q) ->
  skimming (d_settings q) false (d_command q) (Fresh args) is subs e ->
  all_foreseen (d_settings q) (map words_of ((d_command q, is) :: subs)) ->
  left_of e = Some left ->
  all_acceptable (at_first (d_command q)) (map words_of ((d_command q, is) :: subs)) hs ->
  exists others, woven others (all_ignored ((d_command q, is) :: subs)) args /\
    succeeds (d_settings q) (d_command q) others hs left /\
    succeeds_with (d_settings q) (d_command q) args hs (leftovers ((d_command q, is) :: subs) left).
Proof.
  intros p q args is subs e left hs H Rg Sk F El Ac. destruct (C88_without _ _ _ _ _ _ Sk) as (others & Wv & R).
  exists others. split; [exact Wv|]. split; [|exact (C88_success p q args is subs e left hs H Rg Sk F El Ac)].
  destruct Rg as (Sd & Hn & Hi & Ig & One).
  exact (line_success p q H Sd Hn Hi Ig One others (words is) (map words_of subs) e R F left hs El Ac).
Qed.
Print Assumptions C88_same_values.

(** After filter_parsed_arguments, argv consists of the program name and the arguments
    that the top-level command has ignored. *)
Theorem C88_filtered : forall p q prog args is subs hs,
  finish_parser p = Val q -> regular (d_settings q) (d_command q) ->
  skimming (d_settings q) false (d_command q) (Fresh args) is subs AtEnd ->
  all_foreseen (d_settings q) (map words_of ((d_command q, is) :: subs)) ->
  all_acceptable (at_first (d_command q)) (map words_of ((d_command q, is) :: subs)) hs ->
  exists st, parsed (d_settings q) (d_command q) args st /\ l_result (toplevel st) = RC_SUCCESS /\
    filter_parsed_arguments (l_unprocessed (toplevel st)) (prog :: args) = prog :: ignored is.
Proof.
  intros p q prog args is subs hs H Rg Sk F Ac.
  destruct (C88_success p q args is subs AtEnd [] hs H Rg Sk F eq_refl Ac) as (st & P & _ & S0).
  exists st. split; [exact P|]. cbn [leftovers] in S0.
  destruct hs as [|(c, h) hs]; [contradiction|].
  assert (X : l_unprocessed (toplevel st) = ignored is /\ l_result (toplevel st) = RC_SUCCESS).
  { destruct subs; cbn [shows] in S0; destruct S0 as (_ & _ & U & D); rewrite ?app_nil_r in U; (split; [exact U|]);
      destruct hs; apply D. }
  destruct X as (U & R). split; [exact R|]. rewrite U. apply filter_exact_proof. eapply skim_ignored. exact Sk.
Qed.
Print Assumptions C88_filtered.

(** The first argument too many is refused; what has been ignored before it remains
    unprocessed, together with all that is behind it. *)
Theorem C88_surplus : forall p q args is subs e front c before t after,
  finish_parser p = Val q -> regular (d_settings q) (d_command q) ->
  skimming (d_settings q) false (d_command q) (Fresh args) is subs e ->
  all_foreseen (d_settings q) (map words_of ((d_command q, is) :: subs)) ->
  (d_command q, is) :: subs = front ++ [(c, before ++ Read (Positional t) :: after)] ->
  N.of_nat (length (positionals (words before))) = maxima (c_arguments c) ->
  exists hs pl, so_far (at_first (d_command q)) (map words_of (front ++ [(c, before)])) hs /\
    (exists passed, args = passed ++ left_at pl) /\
    (exists only, skimming (d_settings q) only c pl after [] e) /\
    refuses_with (d_settings q) (d_command q) args (MsgTooManyArguments t) hs
      (leftovers (front ++ [(c, before)]) (left_at pl)).
Proof.
  intros p q args is subs e front c before t after H (Sd & Hn & Hi & Ig & One) R F.
  refine (skim_surplus p q H Sd Hn Hi Ig One args is subs e R _ front c before t after).
  apply Forall_map in F. exact F.
Qed.
Print Assumptions C88_surplus.

(** A STOP, EXIT or HELP option ends the parsing, whatever is missing or ignored so far. *)
Theorem C88_stopped : forall p q args is subs o left,
  finish_parser p = Val q -> regular (d_settings q) (d_command q) ->
  skimming (d_settings q) false (d_command q) (Fresh args) is subs (AtStop o left) ->
  all_foreseen (d_settings q) (map words_of ((d_command q, is) :: subs)) ->
  room (map words_of ((d_command q, is) :: subs)) ->
  exists hs, so_far (at_first (d_command q)) (map words_of ((d_command q, is) :: subs)) hs /\
    stops_with (d_settings q) (d_command q) args o hs (leftovers ((d_command q, is) :: subs) left).
Proof.
  intros p q args is subs o left H (Sd & Hn & Hi & Ig & One) R F.
  refine (skim_stop p q H Sd Hn Hi Ig One args is subs _ R _ o left eq_refl).
  apply Forall_map in F. exact F.
Qed.
Print Assumptions C88_stopped.

(** An unknown command and an option without its value are refused all the same. *)
Theorem C88_faulty : forall p q args is subs e,
  finish_parser p = Val q -> regular (d_settings q) (d_command q) ->
  skimming (d_settings q) false (d_command q) (Fresh args) is subs e ->
  all_foreseen (d_settings q) (map words_of ((d_command q, is) :: subs)) ->
  room (map words_of ((d_command q, is) :: subs)) ->
  (exists t l, e = AtNoCommand t l) \/ (exists f, e = AtNoValue f) ->
  exists m hs left, so_far (at_first (d_command q)) (map words_of ((d_command q, is) :: subs)) hs /\
    complaint args e m left /\
    refuses_with (d_settings q) (d_command q) args m hs (leftovers ((d_command q, is) :: subs) left).
Proof.
  intros p q args is subs e H (Sd & Hn & Hi & Ig & One) R F Rm Ee.
  refine (skim_fault p q H Sd Hn Hi Ig One args is subs e R _ _ Rm _ _).
  - apply Forall_map in F. exact F.
  - intros f l ->. destruct Ee as [(? & ? & X)|(? & X)]; discriminate X.
  - destruct Ee as [(? & ? & ->)|(? & ->)]; reflexivity.
  - intros o l ->. destruct Ee as [(? & ? & X)|(? & X)]; discriminate X.
Qed.
Print Assumptions C88_faulty.

(** A command line that is not complete is refused, with the same message as without the
    ignored arguments. *)
Theorem C88_incomplete : forall p q args is subs e left,
  finish_parser p = Val q -> regular (d_settings q) (d_command q) ->
  skimming (d_settings q) false (d_command q) (Fresh args) is subs e ->
  all_foreseen (d_settings q) (map words_of ((d_command q, is) :: subs)) ->
  room (map words_of ((d_command q, is) :: subs)) -> left_of e = Some left ->
  (forall hs, ~ all_acceptable (at_first (d_command q)) (map words_of ((d_command q, is) :: subs)) hs) ->
  exists front c w h m, map words_of ((d_command q, is) :: subs) = front ++ [(c, w)] /\
    so_far (at_first (d_command q)) (map words_of ((d_command q, is) :: subs))
      (passed (at_first (d_command q)) front ++ [(c, h)]) /\
    shortfall c h (N.of_nat (length (positionals w))) m /\
    refuses_with (d_settings q) (d_command q) args m
      (passed (at_first (d_command q)) front ++ [(c, h)]) (leftovers ((d_command q, is) :: subs) left).
Proof.
  intros p q args is subs e left H (Sd & Hn & Hi & Ig & One) R F Rm El Na.
  assert (F' : Forall (item_fits q) ((d_command q, is) :: subs)) by (apply Forall_map in F; exact F).
  destruct (skim_judged p q H Sd Hn Hi Ig One args is subs e R F' left El Rm) as [(hs & A)|X];
    [destruct (Na hs A)|exact X].
Qed.
Print Assumptions C88_incomplete.

(** A program that ignores unknown options. *)
Definition lax_p := mk_data ex_copy
  (mk_settings None None STANDARD false false true false false false 0 64) [] 0 [].
Definition lax_q := completed lax_p.

(** Not so for groups of flags: an argument is left unprocessed once for every unknown
    flag in it that is the same as the first one. *)
Theorem C88_once_refuted : exists p q args st,
  finish_parser p = Val q /\ regular (d_settings q) (d_command q) /\
  s_ignore_options (d_settings q) = true /\
  parsed (d_settings q) (d_command q) args st /\ l_result (toplevel st) = RC_SUCCESS /\
  args = [$"-ox"; $"a"; $"-zzz"] /\ l_unprocessed (toplevel st) = [$"-zzz"; $"-zzz"; $"-zzz"].
Proof.
  exists lax_p, lax_q, [$"-ox"; $"a"; $"-zzz"].
  eexists. split; [vm_compute; reflexivity|]. split; [apply regular_check_sound; vm_compute; reflexivity|].
  split; [reflexivity|]. split; [exists 100; vm_compute; reflexivity|].
  split; [reflexivity|]. split; [reflexivity|]. vm_compute. reflexivity.
Qed.
Print Assumptions C88_once_refuted.

(* ------------------------------------------------------------------------ *)
(** ** Examples *)

Definition skimmed (q : parser_data) (args : list str) (is : list item)
  (subs : list (cmd_data * list item)) (e : ending) : Prop :=
  regular (d_settings q) (d_command q) /\ s_ignore_options (d_settings q) = true /\
  dependable_line (d_settings q) (d_command q) args /\
  skimming (d_settings q) false (d_command q) (Fresh args) is subs e /\
  all_foreseen (d_settings q) (map words_of ((d_command q, is) :: subs)).

Ltac solve_skimmed p :=
  split; [apply regular_check_sound; vm_compute; reflexivity|];
  split; [vm_compute; reflexivity|];
  split; [intros X; vm_compute in X; discriminate X|];
  split; [apply (skim_line p _ ltac:(vm_compute; reflexivity) ltac:(vm_compute; reflexivity) 50); vm_compute; reflexivity|];
  apply all_foreseen_check; vm_compute; reflexivity.

Definition lax_o (i : nat) := nth i (c_options (d_command lax_q)) (ex_option [] [] [] OP_NONE OT_NORMAL true None).

(** "--nope -v --deep=1 a -z --out=x b": the values are those of "-v a --out=x b". *)
Example ex_ignore_success :
  let is := [Ignored ($"--nope"); Read (Optional (lax_o 0) []); Ignored ($"--deep=1"); Read (Positional ($"a"));
             Ignored ($"-z"); Read (Optional (lax_o 1) ($"x")); Read (Positional ($"b"))] in
  finish_parser lax_p = Val lax_q /\
  skimmed lax_q [$"--nope"; $"-v"; $"--deep=1"; $"a"; $"-z"; $"--out=x"; $"b"] is [] AtEnd /\
  leftovers [(d_command lax_q, is)] [] = [[$"--nope"; $"--deep=1"; $"-z"]] /\
  exists h, all_acceptable (at_first (d_command lax_q)) (map words_of [(d_command lax_q, is)]) [(d_command lax_q, h)] /\
    map (fun i => map fst (history h i)) [1%N; 2%N; 3%N; 4%N] = [[$"a"]; [$"b"]; [$"1"]; [$"x"]].
Proof.
  cbv zeta. split; [vm_compute; reflexivity|]. split; [solve_skimmed lax_p|]. split; [reflexivity|].
  eexists. split.
  - exists [], (d_command lax_q). eexists. eexists. split; [reflexivity|]. split; [|reflexivity].
    apply (accept_check_sound _ _ _ [1%N; 1%N]). vm_compute. reflexivity.
  - vm_compute. reflexivity.
Qed.

(** "-ox a --no b c --no2 d -v": the argument d is too much. *)
Example ex_ignore_surplus :
  let before := [Read (Optional (lax_o 1) ($"x")); Read (Positional ($"a")); Ignored ($"--no"); Read (Positional ($"b"));
                 Read (Positional ($"c")); Ignored ($"--no2")] in
  skimmed lax_q [$"-ox"; $"a"; $"--no"; $"b"; $"c"; $"--no2"; $"d"; $"-v"]
    (before ++ Read (Positional ($"d")) :: [Read (Optional (lax_o 0) [])]) [] AtEnd /\
  N.of_nat (length (positionals (words before))) = maxima (c_arguments (d_command lax_q)).
Proof. cbv zeta. split; [solve_skimmed lax_p|reflexivity]. Qed.

(** "-v --no --stop a". *)
Example ex_ignore_stopped :
  let is := [Read (Optional (lax_o 0) []); Ignored ($"--no"); Read (Optional (lax_o 2) [])] in
  skimmed lax_q [$"-v"; $"--no"; $"--stop"; $"a"] is [] (AtStop (lax_o 2) [$"a"]) /\
  room (map words_of [(d_command lax_q, is)]).
Proof.
  cbv zeta. split; [solve_skimmed lax_p|]. intros [|x front] c w E; [|destruct front; discriminate].
  injection E as <- <-. vm_compute. discriminate.
Qed.

(** A program with sub-commands, in the style of Windows. *)
Definition lax_git : cmd_data := ex_command ($"git") []
  [ex_option [$"/C"] ($"DIR") [] OP_ASSIGN OT_NORMAL true None]
  [ex_command ($"add") [ex_argument ($"FILE") 1 2 None]
     [ex_option [$"/m"; $"/message="] ($"TEXT") [] OP_ASSIGN OT_NORMAL true None] [] false]
  false.
Definition lg_p := mk_data lax_git
  (mk_settings None None SLASH false false true false false false 0 64) [] 0 [].
Definition lg_q := completed lg_p.
Definition lg_none := ex_option [] [] [] OP_NONE OT_NORMAL true None.
Definition lg_add := nth 0 (c_commands (d_command lg_q)) lax_git.
Definition lg_C := nth 0 (c_options (d_command lg_q)) lg_none.
Definition lg_m := nth 0 (c_options lg_add) lg_none.

(** "/q /C dir add /r f /message=hi": what is ignored belongs to the command where it is
    found. *)
Example ex_ignore_commands :
  let is := [Ignored ($"/q"); Read (Optional lg_C ($"dir"))] in
  let ia := [Ignored ($"/r=1"); Read (Positional ($"f")); Read (Optional lg_m ($"hi"))] in
  finish_parser lg_p = Val lg_q /\
  skimmed lg_q [$"/q"; $"/C"; $"dir"; $"add"; $"/r=1"; $"f"; $"/message=hi"] is [(lg_add, ia)] AtEnd /\
  leftovers [(d_command lg_q, is); (lg_add, ia)] [] = [[$"/q"]; [$"/r=1"]] /\
  exists hs, all_acceptable (at_first (d_command lg_q)) (map words_of [(d_command lg_q, is); (lg_add, ia)]) hs.
Proof.
  cbv zeta. split; [vm_compute; reflexivity|]. split; [solve_skimmed lg_p|]. split; [reflexivity|].
  eexists. eexists [(_, _)], _, _, _. split; [reflexivity|]. split; [|reflexivity].
  apply (accept_check_sound _ _ _ [1%N]). vm_compute. reflexivity.
Qed.

(** "/q sub" and "a --no -o": an unknown command and an option without its value. *)
Example ex_ignore_faulty :
  skimmed lg_q [$"/q"; $"sub"; $"x"] [Ignored ($"/q")] [] (AtNoCommand ($"sub") [$"x"]) /\
  skimmed lax_q [$"a"; $"--no"; $"-o"] [Read (Positional ($"a")); Ignored ($"--no")] [] (AtNoValue ($"-o")) /\
  room (map words_of [(d_command lg_q, [Ignored ($"/q")])]) /\
  room (map words_of [(d_command lax_q, [Read (Positional ($"a")); Ignored ($"--no")])]).
Proof.
  split; [solve_skimmed lg_p|]. split; [solve_skimmed lax_p|].
  split; (intros [|x front] c w E; [injection E as <- <-; vm_compute; discriminate|destruct front; discriminate]).
Qed.

(** "add /q": there is no FILE. *)
Example ex_ignore_incomplete :
  let segs := [(d_command lg_q, []); (lg_add, [Ignored ($"/q")])] in
  skimmed lg_q [$"add"; $"/q"] [] [(lg_add, [Ignored ($"/q")])] AtEnd /\
  room (map words_of segs) /\ forall hs, ~ all_acceptable (at_first (d_command lg_q)) (map words_of segs) hs.
Proof.
  cbv zeta. split; [solve_skimmed lg_p|]. split.
  - intros [|x [|y front]] c w E; [discriminate| |destruct front; discriminate].
    injection E as _ <- <-. vm_compute. discriminate.
  - intros hs ([|x [|y front]] & c & w & h & E & A & _); [discriminate| |destruct front; discriminate].
    injection E as _ <- <-. destruct A as (_ & _ & (ks & F & _) & _). apply fair_between in F.
    destruct F as (F & _). vm_compute in F. apply F. reflexivity.
Qed.
