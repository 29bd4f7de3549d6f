(** C71: the meaning of a whole command line. C72: command lines put together. C06: what
    follows a LAST_OPTION option. *)
From Verif Require Import Base MStrings MOptIter MData MCounter MValues MParser
  SIndex SDef SValues SCounter SParser SStep SLook SEquiv SApi SLine SExamples
  LineProofs LineProofs2 LineProofs3 LineExamples.
Open Scope nat_scope.

(** Every command line can be read, and in one way only. *)
Theorem C71_total : forall p q args,
  finish_parser p = Val q -> dependable_line (d_settings q) (d_command q) args ->
  exists ws subs e, reading (d_settings q) false (d_command q) (Fresh args) ws subs e.
Proof. exact (fun p q args H => line_total p q H args). Qed.
Print Assumptions C71_total.

Theorem C71_unique : forall p q args ws subs e ws' subs' e',
  finish_parser p = Val q ->
  reading (d_settings q) false (d_command q) (Fresh args) ws subs e ->
  reading (d_settings q) false (d_command q) (Fresh args) ws' subs' e' ->
  ws = ws' /\ subs = subs' /\ e = e'.
Proof.
  exact (fun p q args ws subs e ws' subs' e' H R R' =>
    reading_one p q H false _ _ ws subs e R (within_top _) ws' subs' e' R').
Qed.
Print Assumptions C71_unique.

(** If the command line makes sense and is complete then parsing succeeds without any
    message. The values of each command are exactly those that the words give, in the
    order of the command line; every command has the following one as its only
    sub-command, and what comes after a LAST_ARGUMENT option is left for the caller. *)
Theorem C71_success : forall p q args ws subs e left hs,
  finish_parser p = Val q -> regular (d_settings q) (d_command q) ->
  reading (d_settings q) false (d_command q) (Fresh args) ws subs e ->
  all_foreseen (d_settings q) ((d_command q, ws) :: subs) ->
  left_of e = Some left ->
  all_acceptable (at_first (d_command q)) ((d_command q, ws) :: subs) hs ->
  succeeds (d_settings q) (d_command q) args hs left.
Proof.
  intros p q args ws subs e left hs H (Sd & Hn & Hi & Ig & One) R F.
  exact (line_success p q H Sd Hn Hi Ig One args ws subs e R F left hs).
Qed.
Print Assumptions C71_success.

(** It also succeeds in no other case. *)
Theorem C71_only : forall p q args ws subs e,
  finish_parser p = Val q -> regular (d_settings q) (d_command q) ->
  s_ignore_options (d_settings q) = false ->
  reading (d_settings q) false (d_command q) (Fresh args) ws subs e ->
  all_foreseen (d_settings q) ((d_command q, ws) :: subs) ->
  ((exists st, parsed (d_settings q) (d_command q) args st /\ l_result (toplevel st) = RC_SUCCESS) <->
   exists left hs, left_of e = Some left /\
     all_acceptable (at_first (d_command q)) ((d_command q, ws) :: subs) hs).
Proof.
  intros p q args ws subs e H (Sd & Hn & Hi & Ig & One) Io R F.
  exact (line_accepted p q H Sd Hn Hi Ig One args ws subs e R F Io).
Qed.
Print Assumptions C71_only.

(** The first argument too many is refused, and nothing behind it has any effect: it is
    left unprocessed. *)
Theorem C71_surplus : forall p q args ws subs e front c before t after,
  finish_parser p = Val q -> regular (d_settings q) (d_command q) ->
  reading (d_settings q) false (d_command q) (Fresh args) ws subs e ->
  all_foreseen (d_settings q) ((d_command q, ws) :: subs) ->
  (d_command q, ws) :: subs = front ++ [(c, before ++ Positional t :: after)] ->
  N.of_nat (length (positionals before)) = maxima (c_arguments c) ->
  exists hs pl, so_far (at_first (d_command q)) (front ++ [(c, before)]) hs /\
    (exists passed, args = passed ++ left_at pl) /\
    (exists only, reading (d_settings q) only c pl after [] e) /\
    refuses (d_settings q) (d_command q) args (MsgTooManyArguments t) hs (left_at pl).
Proof.
  intros p q args ws subs e front c before t after H (Sd & Hn & Hi & Ig & One) R F.
  exact (line_surplus p q H Sd Hn Hi Ig One args ws subs e R F front c before t after).
Qed.
Print Assumptions C71_surplus.

(** A STOP, EXIT or HELP option ends the parsing, whatever is missing so far. *)
Theorem C71_stopped : forall p q args ws subs o left,
  finish_parser p = Val q -> regular (d_settings q) (d_command q) ->
  reading (d_settings q) false (d_command q) (Fresh args) ws subs (AtStop o left) ->
  all_foreseen (d_settings q) ((d_command q, ws) :: subs) ->
  room ((d_command q, ws) :: subs) ->
  exists hs, so_far (at_first (d_command q)) ((d_command q, ws) :: subs) hs /\
    stops (d_settings q) (d_command q) args o hs left.
Proof.
  intros p q args ws subs o left H (Sd & Hn & Hi & Ig & One) R F.
  exact (line_stop p q H Sd Hn Hi Ig One args ws subs _ R F o left eq_refl).
Qed.
Print Assumptions C71_stopped.

(** An unknown option, an unknown command and an option without its value are refused
    with the corresponding message; the values are those of the words before it. *)
Theorem C71_faulty : forall p q args ws subs e,
  finish_parser p = Val q -> regular (d_settings q) (d_command q) ->
  s_ignore_options (d_settings q) = false ->
  reading (d_settings q) false (d_command q) (Fresh args) ws subs e ->
  all_foreseen (d_settings q) ((d_command q, ws) :: subs) ->
  room ((d_command q, ws) :: subs) ->
  left_of e = None -> (forall o left, e <> AtStop o left) ->
  exists m hs left, so_far (at_first (d_command q)) ((d_command q, ws) :: subs) hs /\
    complaint args e m left /\ refuses (d_settings q) (d_command q) args m hs left.
Proof.
  intros p q args ws subs e H (Sd & Hn & Hi & Ig & One) Io R F.
  exact (line_fault p q H Sd Hn Hi Ig One args ws subs e R F Io).
Qed.
Print Assumptions C71_faulty.

(** A command line that makes sense but is not complete is refused: because of the first
    option that must be given and is not, or of a required sub-command, or of the number
    of arguments, in this order. *)
Theorem C71_incomplete : forall p q args ws subs e left,
  finish_parser p = Val q -> regular (d_settings q) (d_command q) ->
  reading (d_settings q) false (d_command q) (Fresh args) ws subs e ->
  all_foreseen (d_settings q) ((d_command q, ws) :: subs) ->
  room ((d_command q, ws) :: subs) -> left_of e = Some left ->
  (forall hs, ~ all_acceptable (at_first (d_command q)) ((d_command q, ws) :: subs) hs) ->
  exists front c w h m, (d_command q, ws) :: subs = front ++ [(c, w)] /\
    so_far (at_first (d_command q)) ((d_command q, ws) :: subs)
      (passed (at_first (d_command q)) front ++ [(c, h)]) /\
    shortfall c h (N.of_nat (length (positionals w))) m /\
    refuses (d_settings q) (d_command q) args m
      (passed (at_first (d_command q)) front ++ [(c, h)]) left.
Proof.
  intros p q args ws subs e left H (Sd & Hn & Hi & Ig & One) R F Rm El Na.
  destruct (line_judged p q H Sd Hn Hi Ig One args ws subs e R F left El Rm) as [(hs & A)|X];
    [destruct (Na hs A)|exact X].
Qed.
Print Assumptions C71_incomplete.

(* ------------------------------------------------------------------------ *)
(** ** Examples *)

(** A line that makes sense: all conditions of the theorems, and what is left. *)
Definition sensible (q : parser_data) (args : list str) (ws : list word)
  (subs : list (cmd_data * list word)) (e : ending) : Prop :=
  regular (d_settings q) (d_command q) /\ s_ignore_options (d_settings q) = false /\
  dependable_line (d_settings q) (d_command q) args /\
  reading (d_settings q) false (d_command q) (Fresh args) ws subs e /\
  all_foreseen (d_settings q) ((d_command q, ws) :: subs).

Ltac solve_sensible p :=
  split; [apply regular_check_sound; vm_compute; reflexivity|];
  split; [vm_compute; reflexivity|];
  split; [intros X; vm_compute in X; discriminate X|];
  split; [apply (read_line p _ ltac:(vm_compute; reflexivity) ltac:(vm_compute; reflexivity) 50); vm_compute; reflexivity|];
  apply all_foreseen_check; vm_compute; reflexivity.

Definition copy_p := ex_data false false ex_copy.
Definition copy_q := completed copy_p.
Definition copy_o (i : nat) := nth i (c_options (d_command copy_q)) (ex_option [] [] [] OP_NONE OT_NORMAL true None).

(** "-v a --out=x b": the values of SRC, DST, -v and --out are a, b, 1 and x. *)
Example ex_line_success :
  let ws := [Optional (copy_o 0) []; Positional ($"a"); Optional (copy_o 1) ($"x"); Positional ($"b")] in
  finish_parser copy_p = Val copy_q /\
  sensible copy_q [$"-v"; $"a"; $"--out=x"; $"b"] ws [] AtEnd /\
  exists h, all_acceptable (at_first (d_command copy_q)) [(d_command copy_q, ws)] [(d_command copy_q, h)] /\
    map (fun i => map fst (history h i)) [1%N; 2%N; 3%N; 4%N; 5%N; 6%N; 7%N; 8%N] =
      [[$"a"]; [$"b"]; [$"1"]; [$"x"]; []; []; []; []].
Proof.
  cbv zeta. split; [vm_compute; reflexivity|]. split; [solve_sensible copy_p|].
  eexists. split.
  - exists [], (d_command copy_q). eexists. eexists. split; [reflexivity|]. split; [|reflexivity].
    apply (accept_check_sound _ _ _ [1%N; 1%N]). vm_compute. reflexivity.
  - vm_compute. reflexivity.
Qed.

(** A program with sub-commands, in the style of Windows. *)
Definition git_cmd : cmd_data := ex_command ($"git") []
  [ex_option [$"/C"] ($"DIR") [] OP_ASSIGN OT_NORMAL false None]
  [ex_command ($"add") [ex_argument ($"FILE") 1 2 None]
     [ex_option [$"/m"; $"/message="] ($"TEXT") [] OP_ASSIGN OT_NORMAL false None;
      ex_option [$"/end"] [] [] OP_NONE OT_LAST_ARGUMENT true None;
      ex_option [$"/s"] [] [] OP_NONE OT_STOP true None] [] false]
  false.
Definition git_p := mk_data git_cmd
  (mk_settings None None SLASH false false false false false true 0 64) [] 0 [].
Definition git_q := completed git_p.
Definition no_option := ex_option [] [] [] OP_NONE OT_NORMAL true None.
Definition git_add := nth 0 (c_commands (d_command git_q)) git_cmd.
Definition git_C := nth 0 (c_options (d_command git_q)) no_option.
Definition git_o (i : nat) := nth i (c_options git_add) no_option.

(** "/C dir add f /message=hi /end rest": the words belong to two commands. *)
Example ex_line_command :
  let ws := [Optional git_C ($"dir")] in
  let wa := [Positional ($"f"); Optional (git_o 0) ($"hi"); Optional (git_o 1) []] in
  finish_parser git_p = Val git_q /\
  sensible git_q [$"/C"; $"dir"; $"add"; $"f"; $"/message=hi"; $"/end"; $"rest"] ws [(git_add, wa)]
    (AtLast (git_o 1) [$"rest"]) /\
  exists h h', all_acceptable (at_first (d_command git_q)) [(d_command git_q, ws); (git_add, wa)]
      [(d_command git_q, h); (git_add, h')] /\
    map fst (history h (o_value_id git_C)) = [$"dir"] /\
    map fst (history h' (o_value_id (git_o 0))) = [$"hi"].
Proof.
  cbv zeta. split; [vm_compute; reflexivity|]. split; [solve_sensible git_p|].
  eexists. eexists. split.
  - eexists [(_, _)], _, _, _. split; [reflexivity|]. split; [|reflexivity].
    apply (accept_check_sound _ _ _ [1%N]). vm_compute. reflexivity.
  - split; vm_compute; reflexivity.
Qed.

(** "-ox a b c d": the argument d is too much. *)
Example ex_line_surplus :
  let before := [Optional (copy_o 1) ($"x"); Positional ($"a"); Positional ($"b"); Positional ($"c")] in
  sensible copy_q [$"-ox"; $"a"; $"b"; $"c"; $"d"; $"-v"] (before ++ Positional ($"d") :: [Optional (copy_o 0) []]) [] AtEnd /\
  N.of_nat (length (positionals before)) = maxima (c_arguments (d_command copy_q)).
Proof. cbv zeta. split; [solve_sensible copy_p|reflexivity]. Qed.

(** "-v --stop a": nothing is missing for a STOP option. *)
Example ex_line_stopped :
  let ws := [Optional (copy_o 0) []; Optional (copy_o 2) []] in
  sensible copy_q [$"-v"; $"--stop"; $"a"] ws [] (AtStop (copy_o 2) [$"a"]) /\ room [(d_command copy_q, ws)].
Proof.
  cbv zeta. split; [solve_sensible copy_p|]. intros [|x front] c w E; [|destruct front; discriminate].
  injection E as <- <-. vm_compute. discriminate.
Qed.

(** "a -vx b", "a -v -o" and "/C dir sub x": an unknown option, an option without its
    value and an unknown command. *)
Example ex_line_faulty :
  sensible copy_q [$"a"; $"-vx"; $"b"] [Positional ($"a"); Optional (copy_o 0) []] [] (AtUnknown ($"-x") [$"b"]) /\
  sensible copy_q [$"a"; $"-vo"] [Positional ($"a"); Optional (copy_o 0) []] [] (AtNoValue ($"-o")) /\
  sensible git_q [$"/C"; $"dir"; $"sub"; $"x"] [Optional git_C ($"dir")] [] (AtNoCommand ($"sub") [$"x"]) /\
  room [(d_command copy_q, [Positional ($"a"); Optional (copy_o 0) []])] /\
  room [(d_command git_q, [Optional git_C ($"dir")])].
Proof.
  split; [solve_sensible copy_p|]. split; [solve_sensible copy_p|]. split; [solve_sensible git_p|].
  split; (intros [|x front] c w E; [injection E as <- <-; vm_compute; discriminate|destruct front; discriminate]).
Qed.

(** "/C dir add /m hi": there is no FILE. *)
Example ex_line_incomplete :
  let segs := [(d_command git_q, [Optional git_C ($"dir")]); (git_add, [Optional (git_o 0) ($"hi")])] in
  sensible git_q [$"/C"; $"dir"; $"add"; $"/m"; $"hi"] [Optional git_C ($"dir")]
    [(git_add, [Optional (git_o 0) ($"hi")])] AtEnd /\
  room segs /\ forall hs, ~ all_acceptable (at_first (d_command git_q)) segs hs.
Proof.
  cbv zeta. split; [solve_sensible git_p|]. split.
  - intros [|x [|y front]] c w E; [discriminate| |destruct front; discriminate].
    injection E as _ <- <-. vm_compute. discriminate.
  - intros hs ([|x [|y front]] & c & w & h & E & A & _); [discriminate| |destruct front; discriminate].
    injection E as _ <- <-. destruct A as (_ & _ & (ks & F & _) & _). apply fair_between in F.
    destruct F as (F & _). vm_compute in F. apply F. reflexivity.
Qed.

(* ------------------------------------------------------------------------ *)
(** ** C72 *)

(** A command line that has been read to its end can be continued: the arguments behind
    it are read as arguments of the last command, and what has been read before remains
    the same. *)
Theorem C72_reading : forall cfg top args ws subs front c wl more ws' subs' e',
  reading cfg false top (Fresh args) ws subs AtEnd -> no_last_option ((top, ws) :: subs) ->
  (top, ws) :: subs = front ++ [(c, wl)] -> reading cfg false c (Fresh more) ws' subs' e' ->
  exists ws2 subs2, reading cfg false top (Fresh (args ++ more)) ws2 subs2 e' /\
    (top, ws2) :: subs2 = front ++ (c, wl ++ ws') :: subs'.
Proof. exact line_app. Qed.
Print Assumptions C72_reading.

(** So if the words of both parts are acceptable together then parsing succeeds, with the
    values of both. *)
Theorem C72_success : forall p q args ws subs front c wl more ws' subs' e' left hs,
  let cfg := d_settings q in let top := d_command q in
  finish_parser p = Val q -> regular cfg top ->
  reading cfg false top (Fresh args) ws subs AtEnd -> no_last_option ((top, ws) :: subs) ->
  (top, ws) :: subs = front ++ [(c, wl)] -> reading cfg false c (Fresh more) ws' subs' e' ->
  all_foreseen cfg (front ++ (c, wl ++ ws') :: subs') -> left_of e' = Some left ->
  all_acceptable (at_first top) (front ++ (c, wl ++ ws') :: subs') hs ->
  succeeds cfg top (args ++ more) hs left.
Proof.
  exact (fun p q args ws subs front c wl more ws' subs' e' left hs H Rg =>
    together p q H Rg args ws subs front c wl more ws' subs' e' left hs).
Qed.
Print Assumptions C72_success.

(** "-v a" and "-ox b" are acceptable together, although the first part alone is not. *)
Example ex_line_together :
  let ws := [Optional (copy_o 0) []; Positional ($"a")] in
  let ws' := [Optional (copy_o 1) ($"x"); Positional ($"b")] in
  sensible copy_q [$"-v"; $"a"] ws [] AtEnd /\ sensible copy_q [$"-ox"; $"b"] ws' [] AtEnd /\
  no_last_option [(d_command copy_q, ws)] /\ all_foreseen (d_settings copy_q) [(d_command copy_q, ws ++ ws')] /\
  exists hs, all_acceptable (at_first (d_command copy_q)) [(d_command copy_q, ws ++ ws')] hs.
Proof.
  cbv zeta. split; [solve_sensible copy_p|]. split; [solve_sensible copy_p|]. split; [|split].
  - intros c ws o v [E|[]] I. injection E as <- <-. destruct I as [I|[I|[]]]; [|discriminate].
    injection I as <- <-. vm_compute. discriminate.
  - apply all_foreseen_check. vm_compute. reflexivity.
  - eexists. exists [], (d_command copy_q). eexists _, _. split; [reflexivity|]. split; [|reflexivity].
    apply (accept_check_sound _ _ _ [1%N; 1%N]). vm_compute. reflexivity.
Qed.

(* ------------------------------------------------------------------------ *)
(** ** C06 *)

(** In standard style, everything behind the flag [f] of a LAST_OPTION option is a
    positional argument, unchanged and in order, whatever it looks like. *)
Theorem C06_line : forall p q args ws subs front c wl f o rest,
  let cfg := d_settings q in let top := d_command q in
  let segs := front ++ [(c, wl ++ Optional o [] :: map Positional rest)] in
  finish_parser p = Val q -> regular cfg top -> s_style cfg = STANDARD ->
  reading cfg false top (Fresh args) ws subs AtEnd -> no_last_option ((top, ws) :: subs) ->
  (top, ws) :: subs = front ++ [(c, wl)] -> c_commands c = [] ->
  flag cfg c (After [f]) f o (After []) -> o_type o = OT_LAST_OPTION -> ~ takes_value o ->
  (exists ws2 subs2, reading cfg false top (Fresh (args ++ f :: rest)) ws2 subs2 AtEnd /\
     (top, ws2) :: subs2 = segs) /\
  (all_foreseen cfg segs -> forall hs, all_acceptable (at_first top) segs hs ->
     succeeds cfg top (args ++ f :: rest) hs []).
Proof.
  intros p q args ws subs front c wl f o rest cfg top segs H Rg St R N E C Fl Ty Nv. split.
  - pose proof (last_option_reading cfg c f o rest C Fl Ty Nv) as L. rewrite St in L.
    exact (line_app _ _ _ _ _ _ _ _ _ _ _ _ R N E L).
  - intros F hs A. pose proof (verbatim_line p q H Rg args ws subs front c wl f o rest hs R N E C Fl Ty Nv) as V.
    fold cfg in V. rewrite St in V. exact (V F A).
Qed.
Print Assumptions C06_line.

(** With the styles SLASH and DASH there is an empty argument after each of them. *)
Theorem C06_line_others : forall p q args ws subs front c wl f o rest,
  let cfg := d_settings q in let top := d_command q in
  let segs := front ++ [(c, wl ++ Optional o [] :: map Positional (flat_map (fun a => [a; []]) rest))] in
  finish_parser p = Val q -> regular cfg top -> s_style cfg <> STANDARD ->
  reading cfg false top (Fresh args) ws subs AtEnd -> no_last_option ((top, ws) :: subs) ->
  (top, ws) :: subs = front ++ [(c, wl)] -> c_commands c = [] ->
  flag cfg c (After [f]) f o (After []) -> o_type o = OT_LAST_OPTION -> ~ takes_value o ->
  (exists ws2 subs2, reading cfg false top (Fresh (args ++ f :: rest)) ws2 subs2 AtEnd /\
     (top, ws2) :: subs2 = segs) /\
  (all_foreseen cfg segs -> forall hs, all_acceptable (at_first top) segs hs ->
     succeeds cfg top (args ++ f :: rest) hs []).
Proof.
  intros p q args ws subs front c wl f o rest cfg top segs H Rg St R N E C Fl Ty Nv.
  assert (Ev : verbatim (s_style cfg) rest = flat_map (fun a => [a; []]) rest) by (destruct (s_style cfg); [contradiction|reflexivity|reflexivity]).
  split.
  - pose proof (last_option_reading cfg c f o rest C Fl Ty Nv) as L. rewrite Ev in L.
    exact (line_app _ _ _ _ _ _ _ _ _ _ _ _ R N E L).
  - intros F hs A. pose proof (verbatim_line p q H Rg args ws subs front c wl f o rest hs R N E C Fl Ty Nv) as V.
    fold cfg in V. rewrite Ev in V. exact (V F A).
Qed.
Print Assumptions C06_line_others.

(** "-ox -- -v --out=y": the values of SRC and DST are -v and --out=y. *)
Example ex_line_verbatim :
  let ws := [Optional (copy_o 1) ($"x")] in
  sensible copy_q [$"-ox"] ws [] AtEnd /\ s_style (d_settings copy_q) = STANDARD /\
  no_last_option [(d_command copy_q, ws)] /\ c_commands (d_command copy_q) = [] /\
  flag (d_settings copy_q) (d_command copy_q) (After [$"--"]) ($"--") (copy_o 4) (After []) /\
  o_type (copy_o 4) = OT_LAST_OPTION /\ ~ takes_value (copy_o 4) /\
  let segs := [(d_command copy_q, ws ++ Optional (copy_o 4) [] :: map Positional [$"-v"; $"--out=y"])] in
  all_foreseen (d_settings copy_q) segs /\
  exists h, all_acceptable (at_first (d_command copy_q)) segs [(d_command copy_q, h)] /\
    map (fun i => map fst (history h i)) [1%N; 2%N; 4%N] = [[$"-v"]; [$"--out=y"]; [$"x"]].
Proof.
  cbv zeta. split; [solve_sensible copy_p|]. split; [reflexivity|]. split.
  { intros c ws o v [E|[]] I. injection E as <- <-. destruct I as [I|[]]. injection I as <- <-. vm_compute. discriminate. }
  split; [vm_compute; reflexivity|]. split.
  { split; [apply next_token_sound; vm_compute; reflexivity|]. split; [do 2 eexists; reflexivity|].
    split; [split; intros X; vm_compute in X; discriminate X|].
    eapply IndexProofs.lookup_proof; [intros X; vm_compute in X; discriminate X|intros X; vm_compute in X; discriminate X| |].
    - apply (FinishProofs.finished_index_proof copy_p); [vm_compute; reflexivity|constructor].
    - vm_compute. reflexivity. }
  split; [vm_compute; reflexivity|]. split.
  { intros ([X|X] & _); vm_compute in X; discriminate X. }
  split; [apply all_foreseen_check; vm_compute; reflexivity|].
  eexists. split.
  - exists [], (d_command copy_q). eexists _, _. split; [reflexivity|]. split; [|reflexivity].
    apply (accept_check_sound _ _ _ [1%N; 1%N]). vm_compute. reflexivity.
  - vm_compute. reflexivity.
Qed.

(** "a /last /s": /s is a positional argument, and an empty one follows. *)
Definition svn_p := mk_data (ex_command ($"svn") [ex_argument ($"FILE") 1 4 None]
    [ex_option [$"/last"] [] [] OP_NONE OT_LAST_OPTION true None;
     ex_option [$"/s"] [] [] OP_NONE OT_STOP true None] [] false)
  (mk_settings None None SLASH false false false false false true 0 64) [] 0 [].
Definition svn_q := completed svn_p.
Definition svn_last := nth 0 (c_options (d_command svn_q)) no_option.
Example ex_line_others :
  sensible svn_q [$"a"] [Positional ($"a")] [] AtEnd /\ s_style (d_settings svn_q) <> STANDARD /\
  flag (d_settings svn_q) (d_command svn_q) (After [$"/last"]) ($"/last") svn_last (After []) /\
  o_type svn_last = OT_LAST_OPTION /\ ~ takes_value svn_last /\
  let segs := [(d_command svn_q, [Positional ($"a")] ++ Optional svn_last [] ::
                 map Positional (flat_map (fun a => [a; []]) [$"/s"]))] in
  all_foreseen (d_settings svn_q) segs /\
  exists h, all_acceptable (at_first (d_command svn_q)) segs [(d_command svn_q, h)] /\
    map fst (history h 1%N) = [$"a"; $"/s"; []].
Proof.
  cbv zeta. split; [solve_sensible svn_p|]. split; [discriminate|]. split.
  { split; [apply next_token_sound; vm_compute; reflexivity|]. split; [do 2 eexists; reflexivity|].
    split; [split; intros X; vm_compute in X; discriminate X|].
    eapply IndexProofs.lookup_proof; [intros X; vm_compute in X; discriminate X|intros X; vm_compute in X; discriminate X| |].
    - apply (FinishProofs.finished_index_proof svn_p); [vm_compute; reflexivity|constructor].
    - vm_compute. reflexivity. }
  split; [vm_compute; reflexivity|]. split.
  { intros ([X|X] & _); vm_compute in X; discriminate X. }
  split; [apply all_foreseen_check; vm_compute; reflexivity|].
  eexists. split.
  - exists [], (d_command svn_q). eexists _, _. split; [reflexivity|]. split; [|reflexivity].
    apply (accept_check_sound _ _ _ [3%N]). vm_compute. reflexivity.
  - vm_compute. reflexivity.
Qed.

(** If the command has sub-commands then the option has no effect beyond the name of the
    sub-command: in "-- add -s", -s is taken for an option. *)
Definition hg_p := ex_data false false (ex_command ($"hg") []
    [ex_option [$"--"] [] [] OP_NONE OT_LAST_OPTION true None]
    [ex_command ($"add") [ex_argument ($"FILE") 1 2 None]
       [ex_option [$"-s"] [] [] OP_NONE OT_STOP true None] [] false] false).
Theorem C06_command_refuted : exists p q f o name d t st l o',
  finish_parser p = Val q /\ In o (c_options (d_command q)) /\ In f (o_flags o) /\
  o_type o = OT_LAST_OPTION /\ In d (c_commands (d_command q)) /\ c_name d = name /\
  parsed (d_settings q) (d_command q) [f; name; t] st /\
  In l (l_subs (toplevel st)) /\ l_command l = d /\ l_stop l = Some o' /\ In t (o_flags o').
Proof.
  pose (q := completed hg_p). pose (st := final hg_p [$"--"; $"add"; $"-s"]).
  pose (d := nth 0 (c_commands (d_command q)) git_cmd). pose (l := nth 0 (l_subs (toplevel st)) (new_level d)).
  exists hg_p, q, ($"--"), (nth 0 (c_options (d_command q)) no_option), ($"add"), d, ($"-s"), st, l, (nth 0 (c_options d) no_option).
  split; [vm_compute; reflexivity|]. split; [vm_compute; left; reflexivity|]. split; [vm_compute; left; reflexivity|].
  split; [vm_compute; reflexivity|]. split; [vm_compute; left; reflexivity|]. split; [vm_compute; reflexivity|].
  split; [exists 100; vm_compute; reflexivity|]. split; [vm_compute; left; reflexivity|].
  split; [vm_compute; reflexivity|]. split; [vm_compute; reflexivity|]. vm_compute. left. reflexivity.
Qed.
Print Assumptions C06_command_refuted.
