(** C04, C05: different ways to write the same thing. *)
From Verif Require Import Base MStrings MOptIter MData MCounter MValues MParser
  SIndex SDef SValues SCounter SParser SStep SEquiv SExamples ExProofs EquivProofs.
Open Scope nat_scope.

(* ------------------------------------------------------------------------ *)
(** ** C04: ways to give a value *)

(** In every state in which options are recognised, each way to give the value [v] to
    the option [o] returns the option with this value and stores this value under the
    value id of the option (in place of, or after, the earlier values); no other value
    changes. The parser then reads the arguments after the value. *)
Theorem C04_stored : forall p q args s n o v sp post r s',
  let cfg := d_settings q in let top := d_command q in
  finish_parser p = Val q -> reached cfg top args s n ->
  ps_mode s = ARGUMENTS_AND_OPTIONS -> takes_value o ->
  o_type o = OT_NORMAL \/ o_type o = OT_LAST_OPTION ->
  spelling cfg (ps_command s) o v sp -> before_args (ps_iter s) (sp ++ post) ->
  next cfg s = Ret r s' ->
  r = mk_ir IC_OPTION (ItOption o) v /\
  ps_mode s' = (match o_type o with OT_LAST_OPTION => ARGUMENTS_ONLY | _ => ARGUMENTS_AND_OPTIONS end) /\
  ps_command s' = ps_command s /\ ps_parents s' = ps_parents s /\
  (no_interference cfg top -> forall id, get_values (l_values (ps_cur s')) id =
     if N.eqb (o_value_id o) id
     then (match o_operation o with OP_APPEND => get_values (l_values (ps_cur s)) id | _ => [] end) ++
          [(v, o_argument_id o)]
     else get_values (l_values (ps_cur s)) id) /\
  (no_insertions cfg top -> before_args (ps_iter s') post /\ ps_counter s' = ps_counter s).
Proof. exact (fun p q args s n o v sp post r s' H => spelling_stored_proof p q H args s n o v sp post r s'). Qed.
Print Assumptions C04_stored.

(** Two parsers that only differ in the way the value is written do the same: they
    return the same item, have the same effects and continue in the same way, now and
    until parse() returns, exits or throws. (With slash and dash style options, LAST_OPTION
    and LAST_ARGUMENT are excluded, see C06_slash_refuted.) *)
Theorem C04_states : forall p q args1 args2 s t n1 n2 o v sp1 sp2 post,
  let cfg := d_settings q in let top := d_command q in
  finish_parser p = Val q ->
  reached cfg top args1 s n1 -> reached cfg top args2 t n2 -> same_state ev_same s t ->
  ps_mode s = ARGUMENTS_AND_OPTIONS -> takes_value o ->
  spelling cfg (ps_command s) o v sp1 -> spelling cfg (ps_command s) o v sp2 ->
  (s_style cfg <> STANDARD -> o_type o <> OT_LAST_OPTION /\ o_type o <> OT_LAST_ARGUMENT) ->
  before_args (ps_iter s) (sp1 ++ post) -> before_args (ps_iter t) (sp2 ++ post) ->
  same_outcome ev_same eq same_reading (next cfg s) (next cfg t) /\
  forall fuel, same_outcome ev_same eq any_states (parse_loop cfg fuel s) (parse_loop cfg fuel t).
Proof.
  exact (fun p q args1 args2 s t n1 n2 o v sp1 sp2 post H =>
    same_spelling_proof p q H args1 args2 s t n1 n2 o v sp1 sp2 post).
Qed.
Print Assumptions C04_states.

(** The same for whole command lines that start with the option: also the number of
    arguments found by looking ahead is the same. *)
Theorem C04_lines : forall p q o v sp1 sp2 post fuel,
  let cfg := d_settings q in let top := d_command q in
  finish_parser p = Val q -> takes_value o ->
  spelling cfg top o v sp1 -> spelling cfg top o v sp2 ->
  (s_style cfg <> STANDARD -> o_type o <> OT_LAST_OPTION /\ o_type o <> OT_LAST_ARGUMENT) ->
  same_outcome ev_same eq any_states
    (run_parser cfg fuel top (sp1 ++ post)) (run_parser cfg fuel top (sp2 ++ post)).
Proof. exact (fun p q o v sp1 sp2 post fuel H => same_line_proof p q H o v sp1 sp2 post fuel). Qed.
Print Assumptions C04_lines.

(** With slash style options an empty value in an argument of its own is read a second
    time, as a positional argument: "/o" "" is not the same as "/o=". *)
Definition ex_slash_settings : settings :=
  mk_settings None None SLASH false false false false false true 0 64.
Definition ex_slash : parser_data := mk_data
  (ex_command ($"p") [ex_argument ($"A") 0 3 None]
     [ex_option [$"/o"; $"/o="] ($"V") [] OP_ASSIGN OT_NORMAL true None] [] false) ex_slash_settings [] 0 [].

Theorem C04_empty_refuted : exists p q o fuel,
  let cfg := d_settings q in let top := d_command q in
  finish_parser p = Val q /\ s_style cfg = SLASH /\ takes_value o /\ o_type o = OT_NORMAL /\
  chooses cfg top ($"/o=") o /\ chooses cfg top ($"/o") o /\
  ~ same_outcome ev_alike eq any_states
      (run_parser cfg fuel top [$"/o="; $"x"]) (run_parser cfg fuel top [$"/o"; []; $"x"]).
Proof.
  exists ex_slash, (completed ex_slash), (hd (ex_option [] [] [] OP_NONE OT_NORMAL true None)
    (c_options (d_command (completed ex_slash)))), 100.
  cbv zeta. split; [vm_compute; reflexivity|]. split; [reflexivity|].
  split; [split; [left|]; reflexivity|]. split; [reflexivity|].
  split; [apply (search_chooses ex_slash (completed ex_slash)); vm_compute; reflexivity|].
  split; [apply (search_chooses ex_slash (completed ex_slash)); vm_compute; reflexivity|].
  vm_compute. intros (_ & S & _). apply ss_cur in S. discriminate S.
Qed.
Print Assumptions C04_empty_refuted.

(** All spellings of "-o" in the middle of a command line, with a value that looks like
    an option. *)
Definition ex_c04 : parser_data := ex_data false false (ex_command ($"p") [ex_argument ($"A") 0 3 None]
  [ex_option [$"-v"] [] ($"1") OP_APPEND OT_NORMAL true None;
   ex_option [$"-o"; $"--out"] ($"FILE") [] OP_ASSIGN OT_NORMAL true None;
   ex_option [$"-s"; $"--stop"] [] [] OP_NONE OT_STOP true None] [] false).
Definition ex_c04_out : opt_data :=
  nth 1 (c_options (d_command (completed ex_c04))) (ex_option [] [] [] OP_NONE OT_NORMAL true None).

Example C04_example :
  finish_parser ex_c04 = Val (completed ex_c04) /\
  takes_value ex_c04_out /\ o_type ex_c04_out = OT_NORMAL /\
  no_insertions (d_settings (completed ex_c04)) (d_command (completed ex_c04)) /\
  no_interference (d_settings (completed ex_c04)) (d_command (completed ex_c04)) /\
  (forall sp, In sp [[$"--out=-v"]; [$"--out"; $"-v"]; [$"-o-v"]; [$"-o"; $"-v"]] ->
    let s := after ex_c04 ([$"-v"; $"a"] ++ sp ++ [$"b"; $"--stop"; $"c"]) 2 in
    spelling (d_settings (completed ex_c04)) (ps_command s) ex_c04_out ($"-v") sp /\
    (exists n, reached (d_settings (completed ex_c04)) (d_command (completed ex_c04))
       ([$"-v"; $"a"] ++ sp ++ [$"b"; $"--stop"; $"c"]) s n) /\
    same_state ev_same (after ex_c04 [$"-v"; $"a"; $"-o"; $"-v"; $"b"; $"--stop"; $"c"] 2) s /\
    ps_mode s = ARGUMENTS_AND_OPTIONS /\
    before_args (ps_iter s) (sp ++ [$"b"; $"--stop"; $"c"]) /\
    exists r s', next (d_settings (completed ex_c04)) s = Ret r s' /\ ir_value r = $"-v") /\
  same_outcome ev_same eq any_states
    (run_parser (d_settings (completed ex_c04)) 100 (d_command (completed ex_c04)) [$"--out=x=y"; $"b"; $"-s"])
    (run_parser (d_settings (completed ex_c04)) 100 (d_command (completed ex_c04)) [$"-ox=y"; $"b"; $"-s"]).
Proof.
  split; [vm_compute; reflexivity|]. split; [split; [left|]; vm_compute; reflexivity|].
  split; [vm_compute; reflexivity|].
  split; [|split].
  { intros f C. exfalso. revert f C. apply no_callbacks_sound with (n := 5); vm_compute; reflexivity. }
  { intros f C. exfalso. revert f C. apply no_callbacks_sound with (n := 5); vm_compute; reflexivity. }
  assert (Ch : forall f, find_option (d_command (completed ex_c04)) f false false = Some ex_c04_out ->
     chooses (d_settings (completed ex_c04)) (d_command (completed ex_c04)) f ex_c04_out).
  { intros f F. apply (search_chooses ex_c04 (completed ex_c04)); [vm_compute; reflexivity|vm_compute; reflexivity|].
    replace (s_abbreviations (d_settings (completed ex_c04))) with false by (vm_compute; reflexivity). exact F. }
  split.
  - intros sp I. simpl in I. destruct I as [<-|[<-|[<-|[<-|[]]]]]; cbv zeta.
    all: match goal with |- context [spelling _ (ps_command ?s)] =>
           replace (ps_command s) with (d_command (completed ex_c04)) by (vm_compute; reflexivity) end.
    all: split; [|split; [solve_reached|split; [constructor; vm_compute; first [reflexivity | apply Forall2_nil]|
      split; [vm_compute; reflexivity|split; [vm_compute; reflexivity|eexists; eexists; split; [vm_compute; reflexivity|reflexivity]]]]]].
    + apply (sp_long_eq _ _ _ _ ($"out")); [reflexivity|simpl; intuition discriminate|].
      apply Ch. vm_compute. reflexivity.
    + apply (sp_long _ _ _ _ ($"out")); [reflexivity|simpl; intuition discriminate|].
      apply Ch. vm_compute. reflexivity.
    + apply (sp_short _ _ _ _ "o"%char); [reflexivity|discriminate|discriminate|].
      apply Ch. vm_compute. reflexivity.
    + apply (sp_short_next _ _ _ _ "o"%char); [reflexivity|discriminate|].
      apply Ch. vm_compute. reflexivity.
  - apply (C04_lines ex_c04 (completed ex_c04) ex_c04_out ($"x=y") [$"--out=x=y"] [$"-ox=y"] [$"b"; $"-s"] 100).
    + vm_compute. reflexivity.
    + split; [left|]; vm_compute; reflexivity.
    + apply (sp_long_eq _ _ _ _ ($"out")); [reflexivity|simpl; intuition discriminate|].
      apply Ch. vm_compute. reflexivity.
    + apply (sp_short _ _ _ _ "o"%char); [reflexivity|discriminate|discriminate|].
      apply Ch. vm_compute. reflexivity.
    + intros X. contradiction X. reflexivity.
Qed.

(* ------------------------------------------------------------------------ *)
(** ** C05: groups of flags *)

(** In every state in which options are recognised, "-xg" does what "-x" "-g" does, where
    [g] is one or more flags: both return the same item, have the same effects and go on
    to do so until parse() returns, exits or throws. The only difference is the argument shown in a
    message about an unknown option. "-x" may be any option without a value (or no option at
    all) except for LAST_OPTION and LAST_ARGUMENT. *)
Theorem C05_states : forall p q args1 args2 s t n1 n2 x g post,
  let cfg := d_settings q in let top := d_command q in
  finish_parser p = Val q -> s_ignore_options cfg = false -> s_style cfg = STANDARD ->
  reached cfg top args1 s n1 -> reached cfg top args2 t n2 -> same_state ev_alike s t ->
  ps_mode s = ARGUMENTS_AND_OPTIONS ->
  before_args (ps_iter s) (("-"%char :: x :: g) :: post) ->
  before_args (ps_iter t) (["-"%char; x] :: ("-"%char :: g) :: post) ->
  g <> [] -> x <> "-"%char -> hd_error g <> Some "-"%char ->
  dependable cfg (ps_command s) ["-"%char; x] ->
  (forall o, selects (s_case_insensitive cfg) (s_abbreviations cfg) (c_options (ps_command s)) ["-"%char; x] o ->
     ~ takes_value o /\ o_type o <> OT_LAST_OPTION /\ o_type o <> OT_LAST_ARGUMENT) ->
  same_outcome ev_alike ir_alike any_states (next cfg s) (next cfg t) /\
  forall fuel, same_outcome ev_alike eq any_states (parse_loop cfg fuel s) (parse_loop cfg fuel t).
Proof.
  exact (fun p q args1 args2 s t n1 n2 x g post H I St R1 R2 S0 M B1 B2 Ng Nx Nh D Ho =>
    conj (forget_states _ _ _ _ _ _ (proj1 (same_group_proof p q H args1 args2 s t n1 n2 x g post I St R1 R2 S0 M B1 B2 Ng Nx Nh D Ho)))
         (proj2 (same_group_proof p q H args1 args2 s t n1 n2 x g post I St R1 R2 S0 M B1 B2 Ng Nx Nh D Ho))).
Qed.
Print Assumptions C05_states.

(** The same for whole command lines that start with the group. *)
Theorem C05_lines : forall p q x g post fuel,
  let cfg := d_settings q in let top := d_command q in
  finish_parser p = Val q -> s_ignore_options cfg = false -> s_style cfg = STANDARD ->
  g <> [] -> x <> "-"%char -> hd_error g <> Some "-"%char -> dependable cfg top ["-"%char; x] ->
  (forall o, selects (s_case_insensitive cfg) (s_abbreviations cfg) (c_options top) ["-"%char; x] o ->
     ~ takes_value o /\ o_type o <> OT_LAST_OPTION /\ o_type o <> OT_LAST_ARGUMENT) ->
  same_outcome ev_alike eq any_states (run_parser cfg fuel top (("-"%char :: x :: g) :: post))
    (run_parser cfg fuel top (["-"%char; x] :: ("-"%char :: g) :: post)).
Proof. exact (fun p q x g post fuel H => same_group_line_proof p q H x g post fuel). Qed.
Print Assumptions C05_lines.

(** With LAST_OPTION: "-ab" gives the argument "b", "-a" "-b" gives the argument "-b". *)
Definition ex_last : parser_data := ex_data false false
  (ex_command ($"p") [ex_argument ($"A") 0 3 None]
     [ex_option [$"-a"] [] [] OP_NONE OT_LAST_OPTION true None;
      ex_option [$"-b"] [] ($"1") OP_ASSIGN OT_NORMAL true None] [] false).

Theorem C05_last_option_refuted : exists p q fuel o,
  let cfg := d_settings q in let top := d_command q in
  finish_parser p = Val q /\ s_ignore_options cfg = false /\ s_style cfg = STANDARD /\
  chooses cfg top ($"-a") o /\ ~ takes_value o /\ o_type o = OT_LAST_OPTION /\
  ~ same_outcome ev_alike eq any_states
      (run_parser cfg fuel top [$"-ab"]) (run_parser cfg fuel top [$"-a"; $"-b"]).
Proof.
  exists ex_last, (completed ex_last), 100,
    (hd (ex_option [] [] [] OP_NONE OT_NORMAL true None) (c_options (d_command (completed ex_last)))).
  cbv zeta. split; [vm_compute; reflexivity|]. split; [reflexivity|]. split; [reflexivity|].
  split; [apply (search_chooses ex_last (completed ex_last)); vm_compute; reflexivity|].
  split; [vm_compute; intros ([X|X] & _); discriminate X|]. split; [reflexivity|].
  vm_compute. intros (_ & S & _). apply ss_cur in S. discriminate S.
Qed.
Print Assumptions C05_last_option_refuted.

(** When undefined options are ignored: "-vx" is an error, "-v" "-x" is not. *)
Theorem C05_ignoring_refuted : exists p q fuel o,
  let cfg := d_settings q in let top := d_command q in
  finish_parser p = Val q /\ s_ignore_options cfg = true /\ s_style cfg = STANDARD /\
  chooses cfg top ($"-v") o /\ ~ takes_value o /\ o_type o = OT_NORMAL /\
  ~ same_outcome ev_alike eq any_states
      (run_parser cfg fuel top [$"-vx"; $"-oo"; $"a"]) (run_parser cfg fuel top [$"-v"; $"-x"; $"-oo"; $"a"]).
Proof.
  exists (ex_data false true ex_copy), (completed (ex_data false true ex_copy)), 100,
    (hd (ex_option [] [] [] OP_NONE OT_NORMAL true None) (c_options (d_command (completed (ex_data false true ex_copy))))).
  cbv zeta. split; [vm_compute; reflexivity|]. split; [reflexivity|]. split; [reflexivity|].
  split; [apply (search_chooses (ex_data false true ex_copy) (completed (ex_data false true ex_copy))); vm_compute; reflexivity|].
  split; [vm_compute; intros (_ & X); discriminate X|]. split; [reflexivity|].
  vm_compute. intros (_ & S & _). apply ss_cur in S. discriminate S.
Qed.
Print Assumptions C05_ignoring_refuted.

(** "-vvofile" in the middle of a command line. *)
Example C05_example :
  let d := ex_data false false ex_copy in
  let line1 := [$"a"; $"-vvofile"; $"b"; $"-s"] in let line2 := [$"a"; $"-v"; $"-vofile"; $"b"; $"-s"] in
  finish_parser d = Val (completed d) /\ s_ignore_options (d_settings (completed d)) = false /\
  s_style (d_settings (completed d)) = STANDARD /\
  (exists n, reached (d_settings (completed d)) (d_command (completed d)) line1 (after d line1 1) n) /\
  (exists n, reached (d_settings (completed d)) (d_command (completed d)) line2 (after d line2 1) n) /\
  same_state ev_alike (after d line1 1) (after d line2 1) /\
  ps_mode (after d line1 1) = ARGUMENTS_AND_OPTIONS /\
  before_args (ps_iter (after d line1 1)) [$"-vvofile"; $"b"; $"-s"] /\
  before_args (ps_iter (after d line2 1)) [$"-v"; $"-vofile"; $"b"; $"-s"] /\
  dependable (d_settings (completed d)) (ps_command (after d line1 1)) ($"-v") /\
  (forall o, selects false false (c_options (ps_command (after d line1 1))) ($"-v") o ->
     ~ takes_value o /\ o_type o <> OT_LAST_OPTION /\ o_type o <> OT_LAST_ARGUMENT) /\
  (exists st, run_parser (d_settings (completed d)) 100 (d_command (completed d)) line1 = Ret tt st).
Proof.
  cbv zeta. split; [vm_compute; reflexivity|]. split; [reflexivity|]. split; [reflexivity|].
  split; [solve_reached|]. split; [solve_reached|].
  split; [constructor; vm_compute; first [reflexivity | apply Forall2_nil]|]. split; [vm_compute; reflexivity|].
  split; [vm_compute; reflexivity|]. split; [vm_compute; reflexivity|].
  split; [split; discriminate|]. split.
  - intros o Se. assert (F : find_option (d_command (completed (ex_data false false ex_copy))) ($"-v") false false = Some o).
    { apply (top_lookups (ex_data false false ex_copy) (completed (ex_data false false ex_copy))); [vm_compute; reflexivity|].
      split; [split; discriminate|]. exact Se. }
    vm_compute in F. injection F as <-. split; [intros (_ & X); discriminate X|]. split; discriminate.
  - eexists. vm_compute. reflexivity.
Qed.
