(** Cases that meet the hypotheses of C79. *)
From Verif Require Import Base BaseProofs MStrings MOptIter MData MCounter MValues MParser MText MHelp MApi SStrings SDef SText SFormat SWrap
  SHelp SHelpWrap StrProofs SplitProofs TextApi LayoutProofs2 WrapProofs2 HelpExamples HelpApi HelpWrap3 WrapExamples.
Open Scope nat_scope.

Definition spaced_b (s : str) : bool :=
  forallb (fun c => (nat_of_ascii c <=? 127) && negb (existsb (Ascii.eqb c) [c_tab; c_lf; c_cr])) s &&
  negb (match last_char s with Some c => Ascii.eqb c c_space | None => false end).

Lemma spaced_b_ok : forall s, spaced_b s = true -> spaced s.
Proof.
  intros s H. apply andb_true_iff in H. destruct H as (H1 & H2). rewrite forallb_forall in H1.
  split; [|split].
  - exists (length s). apply ascii_utf8. apply forallb_forall. intros c Hc. specialize (H1 c Hc). apply andb_true_iff in H1. tauto.
  - intros c Hc. specialize (H1 c Hc). apply andb_true_iff in H1. destruct H1 as (_ & H1). apply negb_true_iff in H1.
    cbn [existsb] in H1. rewrite !orb_false_iff in H1. destruct H1 as (A & B & C & _).
    repeat split; intros ->; [rewrite Ascii.eqb_refl in A|rewrite Ascii.eqb_refl in B|rewrite Ascii.eqb_refl in C]; discriminate.
  - intros E. rewrite E, Ascii.eqb_refl in H2. discriminate.
Qed.

Fixpoint strip (s : str) : str :=
  match s with [] => [] | c :: t => if Ascii.eqb c c_space then strip t else s end.

Lemma marker_no_space : forall m, is_marker m -> m <> [] /\ ~ In c_space m.
Proof.
  intros m H. destruct (marker_good m H) as (N0 & W & _). split; [exact N0|]. intros X. specialize (W _ X). discriminate W.
Qed.

Lemma strip_blanks : forall n m, is_marker m -> strip (blanks n ++ m) = m.
Proof.
  intros n m H. destruct (marker_no_space m H) as (N0 & W). induction n as [|n IH]; [|exact IH].
  destruct m as [|c m]; [congruence|]. cbn [blanks repeat app strip]. destruct (Ascii.eqb_spec c c_space) as [->|]; [|reflexivity].
  exfalso. apply W. left. reflexivity.
Qed.

Definition simple_line_b (l : str) : bool := is_empty l || spaced_b l && negb (is_list_marker (strip l)).

Lemma simple_line_b_ok : forall l, simple_line_b l = true -> simple_line l.
Proof.
  intros l H. apply orb_true_iff in H. destruct H as [H|H]; [left; destruct l; [reflexivity|discriminate]|].
  apply andb_true_iff in H. destruct H as (H1 & H2). right. split; [apply spaced_b_ok, H1|]. intros n m M ->.
  rewrite strip_blanks in H2 by exact M. rewrite (marker_conv m M) in H2. discriminate.
Qed.

Definition good_text_b (s : str) : bool := forallb simple_line_b (lines_of (unix s)).
Lemma simple_text_b_ok : forall s, good_text_b s = true -> simple_text s.
Proof.
  intros s H l Hl. unfold good_text_b in H. rewrite forallb_forall in H. apply simple_line_b_ok, H, Hl.
Qed.
Lemma good_text_b_ok : forall s, good_text_b s = true -> good_text s.
Proof. intros s H. apply C79_text_proof, simple_text_b_ok, H. Qed.

Definition good_side_b (s : str) : bool :=
  match lines_of (unix s) with
  | first :: rest => negb (is_empty first) && spaced_b first && negb (Ascii.eqb (hd c_space first) c_space) && forallb simple_line_b rest
  | [] => false
  end.
Lemma simple_side_b_ok : forall s, good_side_b s = true -> simple_side s.
Proof.
  intros s H first rest E. unfold good_side_b in H. rewrite E, !andb_true_iff in H.
  destruct H as (((H1 & H2) & H3) & H4). rewrite forallb_forall in H4.
  split; [destruct first; [discriminate|congruence]|]. split; [apply spaced_b_ok, H2|].
  split; [intros X; rewrite X, Ascii.eqb_refl in H3; discriminate|]. intros l Hl. apply simple_line_b_ok, H4, Hl.
Qed.
Lemma good_side_b_ok : forall s, good_side_b s = true -> good_side s.
Proof. intros s H. apply C79_side_proof, simple_side_b_ok, H. Qed.

Fixpoint first_word (s : str) : str :=
  match s with [] => [] | c :: t => if Ascii.eqb c c_space then [] else c :: first_word t end.

Lemma first_word_app : forall m r, ~ In c_space m -> (r = [] \/ exists x, r = c_space :: x) -> first_word (m ++ r) = m.
Proof.
  induction m as [|c m IH]; intros r N0 Hr.
  - destruct Hr as [->|(x & ->)]; reflexivity.
  - cbn [app first_word]. destruct (Ascii.eqb_spec c c_space) as [->|]; [exfalso; apply N0; left; reflexivity|].
    rewrite IH; [reflexivity| |exact Hr]. intros X. apply N0. right. exact X.
Qed.

Definition good_name_b (s : str) : bool :=
  negb (is_empty s) && spaced_b s && negb (Ascii.eqb (hd c_space s) c_space) && negb (is_list_marker (first_word s)).
Lemma simple_name_b_ok : forall s, good_name_b s = true -> simple_name s.
Proof.
  intros s H. unfold good_name_b in H. rewrite !andb_true_iff in H. destruct H as (((H1 & H2) & H3) & H4).
  split; [destruct s; [discriminate|congruence]|]. split; [apply spaced_b_ok, H2|].
  split; [intros X; rewrite X, Ascii.eqb_refl in H3; discriminate|]. intros m r M. destruct (marker_no_space m M) as (_ & W).
  assert (A : first_word s <> m). { intros E. rewrite E, (marker_conv m M) in H4. discriminate. }
  split; intros E; apply A; rewrite E.
  - rewrite <- (app_nil_r m) at 1. apply first_word_app; [exact W|left; reflexivity].
  - apply first_word_app; [exact W|right; eauto].
Qed.
Lemma good_name_b_ok : forall s, good_name_b s = true -> good_name s.
Proof. intros s H. apply C79_name_proof, simple_name_b_ok, H. Qed.

Definition good_label_b (s : str) : bool :=
  negb (is_empty s) && forallb (fun c => (nat_of_ascii c <=? 127) && negb (existsb (Ascii.eqb c) [c_lf; c_cr])) s.
Lemma good_label_b_ok : forall s, good_label_b s = true -> good_label s.
Proof.
  intros s H. apply andb_true_iff in H. destruct H as (H0 & H1). rewrite forallb_forall in H1.
  split; [destruct s; [discriminate|congruence]|]. split.
  - intros c Hc. specialize (H1 c Hc). apply andb_true_iff in H1. destruct H1 as (_ & H1). apply negb_true_iff in H1.
    cbn [existsb] in H1. rewrite !orb_false_iff in H1. destruct H1 as (A & B & _).
    split; intros ->; [rewrite Ascii.eqb_refl in A|rewrite Ascii.eqb_refl in B]; discriminate.
  - exists (length s). apply ascii_utf8. apply forallb_forall. intros c Hc. specialize (H1 c Hc). apply andb_true_iff in H1. tauto.
Qed.

Definition text_ok_b (c : cmd_data) (id : text_id) : bool :=
  match find_text (c_texts c) id with Some s => is_empty s || good_text_b s | None => true end.
Lemma text_ok_b_ok : forall c l, forallb (text_ok_b c) l = true ->
  forall id s, In id l -> find_text (c_texts c) id = Some s -> s <> [] -> good_text s.
Proof.
  intros c l H id s Hi E N0. rewrite forallb_forall in H. specialize (H id Hi). unfold text_ok_b in H. rewrite E in H.
  apply orb_true_iff in H. destruct H as [H|H]; [destruct s; [congruence|discriminate]|apply good_text_b_ok, H].
Qed.

Definition readable_usage_b (c : cmd_data) : bool :=
  good_name_b (c_full_name c) && forallb (text_ok_b c) [TX_USAGE_TITLE; TX_USAGE; TX_ERROR_USAGE] &&
  forallb (fun o => negb (vis_usage (o_visibility o)) || good_label_b (usage_label o)) (c_options c) &&
  forallb (fun a => negb (vis_usage (a_visibility a)) || good_label_b (argument_label a)) (c_arguments c) &&
  forallb (fun d => negb (vis_usage (c_visibility d)) || good_wordb (c_name d)) (c_commands c).

Lemma readable_usage_b_ok : forall c, readable_usage_b c = true -> readable_usage c.
Proof.
  intros c H. unfold readable_usage_b in H. rewrite !andb_true_iff in H. destruct H as ((((H1 & H2) & H3) & H4) & H5).
  split; [apply good_name_b_ok, H1|]. split; [apply text_ok_b_ok, H2|]. rewrite forallb_forall in H3, H4, H5.
  split; [|split]; intros x Hx V; [specialize (H3 x Hx); rewrite V in H3|specialize (H4 x Hx); rewrite V in H4|specialize (H5 x Hx); rewrite V in H5].
  - apply good_label_b_ok, H3.
  - apply good_label_b_ok, H4.
  - apply good_wordb_ok, H5.
Qed.

Definition readable_help_b (width : nat) (c : cmd_data) : bool :=
  readable_usage_b c && forallb (text_ok_b c) [TX_INITIAL_TEXT; TX_ABOUT; TX_HELP; TX_FINAL_TEXT] &&
  forallb (fun e => good_text_b (en_title e) && good_name_b (en_label e) &&
    (is_empty (en_text e) || if side_by_side width (entries c) then good_side_b (en_text e) else good_text_b (en_text e))) (entries c).

Lemma readable_help_b_ok : forall width c, readable_help_b width c = true -> readable_help width c.
Proof.
  intros width c H. unfold readable_help_b in H. rewrite !andb_true_iff in H. destruct H as ((H1 & H2) & H3).
  split; [apply readable_usage_b_ok, H1|]. split; [apply text_ok_b_ok, H2|]. rewrite forallb_forall in H3. intros e He. specialize (H3 e He).
  rewrite !andb_true_iff in H3. destruct H3 as ((X1 & X2) & X3). split; [apply good_text_b_ok, X1|]. split; [apply good_name_b_ok, X2|].
  intros N0. apply orb_true_iff in X3. destruct X3 as [X3|X3]; [destruct (en_text e); [congruence|discriminate]|].
  destruct (side_by_side width (entries c)); [apply good_side_b_ok, X3|apply good_text_b_ok, X3].
Qed.

(** ** A definition *)

Definition ex_list_text : str :=
  $"Choose what to do:" ++ [c_lf] ++ $" - with files that exist already" ++ [c_lf] ++ $" - with links".
Definition ex_long_text : str :=
  $"Copy files to a place that has not been used before." ++ [c_lf; c_lf] ++ $"Take care.".
Definition ex_wrap_copy : cmd_data :=
  mk_cmd ex_help_args (ex_help_opts ++ [opt_with [O_help ex_list_text] (new_option [$"-m"])]) [] [] ($"copy") []
    [(TX_HELP, ex_long_text)] vis_normal None false [] 0 [].
Definition ex_wrap : parser_data :=
  mk_data (mk_cmd [] [] [ex_wrap_copy; new_command ($"list"); new_command ($"remove")] [] ($"prog") []
    [(TX_FINAL_TEXT, $"The end.")] vis_normal None false [] 0 []) default_settings [] 30 [$"exi sting"].
Definition ex_wrap_done : parser_data := match finish_parser (make_copy ex_wrap) with Val q => q | Exn _ => ex_wrap end.
Definition ex_wrap_copy_done : cmd_data := hd ex_copy (c_commands (d_command ex_wrap_done)).

Lemma ex_wrap_finish : finish_parser (make_copy ex_wrap) = Val ex_wrap_done.
Proof. vm_compute. reflexivity. Qed.
Lemma ex_wrap_path : find_path (s_case_insensitive (d_settings ex_wrap_done)) (d_command ex_wrap_done) [$"copy"] = Val ex_wrap_copy_done.
Proof. vm_compute. reflexivity. Qed.
Lemma ex_wrap_counts : counts_ok (d_command ex_wrap).
Proof. apply (counts_b_ok 3). vm_compute. reflexivity. Qed.
Lemma ex_wrap_ok : help_ok 80 ex_wrap /\ 8 < help_width 80 ex_wrap /\ trimmed_rules (d_word_rules ex_wrap).
Proof.
  split; [|split; [vm_compute; lia|intros r [<-|[]]; discriminate]]. split; [lia|]. split; [vm_compute; lia|]. split.
  - intros r [<-|[]]. exists 9. apply (ascii_utf8 ($"exi sting")). reflexivity.
  - eapply (accepted_rules 80). vm_compute. reflexivity.
Qed.
Lemma ex_wrap_readable : readable_help (help_width 80 ex_wrap) ex_wrap_copy_done /\ readable_help (help_width 80 ex_wrap) (d_command ex_wrap_done).
Proof. split; apply readable_help_b_ok; vm_compute; reflexivity. Qed.

Lemma ex_wrap_text : exists out, write_subcommand_help_text 80 (Some ex_wrap) [$"copy"] = HText out /\ lines_of out =
  [$"USAGE";
   $"  prog copy --help";
   $"  prog copy [-o <FILE>] [-v]";
   $"            [-m] <input>";
   $"            [<more>]...";
   [];
   $"Copy files to a place that has";
   $"not been used before.";
   [];
   $"Take care.";
   [];
   $"ARGUMENTS";
   $"  <input>";
   $"        The input.";
   $"  [<more>]...";
   [];
   $"OPTIONS";
   $"  -o <FILE>, --output <FILE>";
   $"        Write to FILE.";
   $"  -m";
   $"        Choose what to do:";
   $"         - with files that";
   $"           exist already";
   $"         - with links";
   $"  -h, --help";
   $"        Display this help";
   $"        text.";
   [];
   $"MORE OPTIONS";
   $"  -v, --verbose";
   $"        Say more.";
   []].
Proof. eexists. split; vm_compute; reflexivity. Qed.

Lemma C79_error_example_proof :
  finish_parser (make_copy ex_wrap) = Val ex_wrap_done /\ within (d_command ex_wrap_done) ex_wrap_copy_done /\
  help_ok 80 ex_wrap_done /\ trimmed_rules (d_word_rules ex_wrap_done) /\ readable_usage ex_wrap_copy_done /\
  good_name (c_full_name ex_wrap_copy_done ++ $":") /\ good_side ($"There is no file with this name.") /\
  exists f, write_error_message 80 ex_wrap_done ex_wrap_copy_done ($"There is no file with this name.") = TOk f /\
    lines_of (w_out (f_writer f)) =
    [$"prog copy: There is no file";
     $"with this name.";
     $"USAGE";
     $"  prog copy --help";
     $"  prog copy [-o <FILE>] [-v]";
     $"            [-m] <input>";
     $"            [<more>]...";
     []].
Proof.
  split; [exact ex_wrap_finish|]. split; [eapply path_within; exact ex_wrap_path|].
  destruct ex_wrap_ok as (H1 & _ & H3). split; [exact H1|]. split; [exact H3|].
  split; [apply readable_usage_b_ok; vm_compute; reflexivity|]. split; [apply good_name_b_ok; vm_compute; reflexivity|].
  split; [apply good_side_b_ok; vm_compute; reflexivity|]. eexists. split; vm_compute; reflexivity.
Qed.

Lemma C79_texts_example_proof :
  simple_text ex_list_text /\ simple_side ex_long_text /\ simple_name ($"-o <FILE>, --output <FILE>").
Proof.
  split; [apply simple_text_b_ok; vm_compute; reflexivity|].
  split; [apply simple_side_b_ok; vm_compute; reflexivity|apply simple_name_b_ok; vm_compute; reflexivity].
Qed.
