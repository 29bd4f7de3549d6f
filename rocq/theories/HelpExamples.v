(** Examples for PHelp.v, and checks of the conditions of its theorems. *)
From Verif Require Import Base BaseProofs MStrings MOptIter MData MCounter MValues MParser MText MHelp MApi SStrings SDef SText SFormat SHelp
  HelpExact HelpApi LayoutProofs.
Open Scope nat_scope.

(** ** Checks *)

Definition marker_b (m : str) : bool :=
  str_eqb m [c_dash] || str_eqb m ["*"%char] ||
  (match last_char m with Some c => Ascii.eqb c "."%char | None => false end && (2 <=? length m) &&
   forallb (fun c => (46 <=? nat_of_ascii c) && (nat_of_ascii c <=? 57)) m).

Lemma marker_b_ok : forall m, is_marker m -> marker_b m = true.
Proof.
  intros m [->|[->|(d & -> & N0 & D)]]; [reflexivity|reflexivity|]. unfold marker_b. rewrite last_char_app.
  assert (X : (2 <=? length (d ++ ["."%char])) = true) by (rewrite app_length; destruct d; [congruence|apply Nat.leb_le; cbn; lia]).
  rewrite X. assert (Y : forallb (fun c => (46 <=? nat_of_ascii c) && (nat_of_ascii c <=? 57)) (d ++ ["."%char]) = true).
  { apply forallb_forall. intros c Hc. apply in_app_or in Hc. destruct Hc as [Hc|[<-|[]]]; [|reflexivity].
    apply D in Hc. apply andb_true_iff. rewrite !Nat.leb_le. lia. }
  rewrite Y. cbn. rewrite orb_true_r. reflexivity.
Qed.

Definition has_marker_b (s : str) : bool :=
  existsb (fun i => match last_char (firstn i s) with None => true | Some c => is_white c end &&
    existsb (fun j => marker_b (firstn j (skipn i s)) &&
                      match skipn j (skipn i s) with [] => true | c :: _ => is_white c end) (seq 0 (S (length s))))
    (seq 0 (S (length s))).

Lemma has_marker_b_ok : forall s, has_marker_b s = false -> ~ has_marker s.
Proof.
  intros s H (a & x & b & E & Hm & Ba & Bb). apply marker_b_ok in Hm.
  assert (T : has_marker_b s = true); [|congruence]. unfold has_marker_b. apply existsb_exists. exists (length a).
  assert (L : length s = length a + length x + length b) by (rewrite E, !app_length; lia).
  split; [apply in_seq; lia|]. apply andb_true_iff.
  assert (E1 : skipn (length a) s = x ++ b) by (rewrite E, skipn_app, skipn_all, Nat.sub_diag, skipn_O; reflexivity).
  assert (E2 : firstn (length a) s = a) by (rewrite E, firstn_app, firstn_all, Nat.sub_diag, firstn_O, app_nil_r; reflexivity).
  split.
  - rewrite E2. destruct Ba as [->|(a' & c & -> & W)]; [reflexivity|]. rewrite last_char_app. exact W.
  - apply existsb_exists. exists (length x). split; [apply in_seq; lia|]. rewrite E1. apply andb_true_iff. split.
    + rewrite firstn_app, firstn_all, Nat.sub_diag, firstn_O, app_nil_r. exact Hm.
    + rewrite skipn_app, skipn_all, Nat.sub_diag, skipn_O. cbn [app]. destruct Bb as [->|(c & b' & -> & W)]; [reflexivity|exact W].
Qed.

Definition plain_b (s : str) : bool :=
  negb (is_empty s) && forallb (fun c => (32 <=? nat_of_ascii c) && (nat_of_ascii c <=? 126)) s &&
  negb (Ascii.eqb (hd c_space s) c_space) && negb (match last_char s with Some c => Ascii.eqb c c_space | None => false end) &&
  negb (has_marker_b s).

Lemma plain_b_ok : forall s, plain_b s = true -> plain s.
Proof.
  intros s H. unfold plain_b in H. rewrite !andb_true_iff, !negb_true_iff in H. destruct H as ((((H1 & H2) & H3) & H4) & H5).
  split; [intros ->; discriminate|]. split; [|split; [|split]].
  - intros c Hc. rewrite forallb_forall in H2. specialize (H2 c Hc). apply andb_true_iff in H2. rewrite !Nat.leb_le in H2. exact H2.
  - intros E. rewrite E in H3. rewrite Ascii.eqb_refl in H3. discriminate.
  - intros E. rewrite E, Ascii.eqb_refl in H4. discriminate.
  - apply has_marker_b_ok, H5.
Qed.

Definition text_b (c : cmd_data) (id : text_id) : bool :=
  match find_text (c_texts c) id with Some s => is_empty s || plain_b s | None => true end.
Definition plain_usage_b (c : cmd_data) : bool :=
  plain_b (c_full_name c) && forallb (text_b c) [TX_USAGE_TITLE; TX_USAGE; TX_ERROR_USAGE] &&
  forallb (fun o => negb (vis_usage (o_visibility o)) || plain_b (usage_label o)) (c_options c) &&
  forallb (fun a => negb (vis_usage (a_visibility a)) || plain_b (argument_label a)) (c_arguments c) &&
  forallb (fun d => negb (vis_usage (c_visibility d)) || plain_b (c_name d)) (c_commands c).
Definition plain_help_b (c : cmd_data) : bool :=
  plain_usage_b c && forallb (text_b c) [TX_INITIAL_TEXT; TX_ABOUT; TX_HELP; TX_FINAL_TEXT] &&
  forallb (fun e => plain_b (en_title e) && plain_b (en_label e) && (is_empty (en_text e) || plain_b (en_text e))) (entries c).

Lemma text_b_ok : forall c l, forallb (text_b c) l = true -> forall id s, In id l -> find_text (c_texts c) id = Some s -> s <> [] -> plain s.
Proof.
  intros c l H id s Hi E N0. rewrite forallb_forall in H. specialize (H id Hi). unfold text_b in H. rewrite E in H.
  apply orb_true_iff in H. destruct H as [H|H]; [destruct s; [congruence|discriminate]|apply plain_b_ok, H].
Qed.

Lemma plain_usage_b_ok : forall c, plain_usage_b c = true -> plain_usage c.
Proof.
  intros c H. unfold plain_usage_b in H. rewrite !andb_true_iff in H. destruct H as ((((H1 & H2) & H3) & H4) & H5).
  split; [apply plain_b_ok, H1|]. split; [apply text_b_ok, H2|]. rewrite forallb_forall in H3, H4, H5.
  split; [|split]; intros x Hx V; [specialize (H3 x Hx); rewrite V in H3|specialize (H4 x Hx); rewrite V in H4|specialize (H5 x Hx); rewrite V in H5];
    apply plain_b_ok; assumption.
Qed.

Lemma plain_help_b_ok : forall c, plain_help_b c = true -> plain_help c.
Proof.
  intros c H. unfold plain_help_b in H. rewrite !andb_true_iff in H. destruct H as ((H1 & H2) & H3).
  split; [apply plain_usage_b_ok, H1|]. split; [apply text_b_ok, H2|]. rewrite forallb_forall in H3. intros e He. specialize (H3 e He).
  rewrite !andb_true_iff in H3. destruct H3 as ((X1 & X2) & X3). split; [apply plain_b_ok, X1|]. split; [apply plain_b_ok, X2|].
  intros N0. apply orb_true_iff in X3. destruct X3 as [X3|X3]; [destruct (en_text e); [congruence|discriminate]|apply plain_b_ok, X3].
Qed.

Lemma fits_b_ok : forall w l, forallb (fun x => length x <=? w) l = true -> fits w l.
Proof. intros w l H x Hx. rewrite forallb_forall in H. apply Nat.leb_le, H, Hx. Qed.

(** Counts, to a depth of [n]. *)
Fixpoint counts_b (n : nat) (c : cmd_data) : bool :=
  forallb (fun a => (a_min a <=? a_max a)%N) (c_arguments c) &&
  match n with O => is_empty (c_commands c) | S m => forallb (counts_b m) (c_commands c) end.

Lemma counts_b_ok : forall n c, counts_b n c = true -> counts_ok c.
Proof.
  intros n c H. assert (G : forall d, within c d -> exists m, counts_b m d = true).
  { intros d Hd. induction Hd as [|d e Hd (m & Em) Hin]; [eauto|]. destruct m as [|m]; cbn [counts_b] in Em; apply andb_true_iff in Em; destruct Em as (_ & Em).
    - destruct (c_commands d); [destruct Hin|discriminate].
    - rewrite forallb_forall in Em. exists m. apply Em, Hin. }
  intros d a Hd Ha. destruct (G d Hd) as (m & Em). destruct m; cbn [counts_b] in Em; apply andb_true_iff in Em; destruct Em as (Em & _);
    rewrite forallb_forall in Em; apply N.leb_le, Em, Ha.
Qed.

(** ** Definitions *)

Fixpoint opt_with (cs : list opt_call) (o : opt_data) : opt_data :=
  match cs with [] => o | c :: r => opt_with r (opt_update c o) end.

Definition ex_help_opts : list opt_data :=
  [opt_with [O_argument ($"FILE"); O_help ($"Write to FILE.")] (new_option [$"-o"; $"--output"]);
   opt_with [O_visibility vis_hidden; O_help ($"Not shown.")] (new_option [$"--secret"]);
   opt_with [O_section ($"MORE OPTIONS"); O_help ($"Say more.")] (new_option [$"-v"; $"--verbose"])].
Definition ex_help_args : list arg_data :=
  [arg_update (A_help ($"The input.")) (new_argument ($"input")); arg_update (A_counts 0 2) (new_argument ($"more"))].
Definition ex_copy : cmd_data := mk_cmd ex_help_args ex_help_opts [] [] ($"copy") [] [(TX_HELP, $"Copy files.")] vis_normal None false [] 0 [].
Definition ex_help_parser : parser_data :=
  mk_data (mk_cmd [] [] [ex_copy; new_command ($"list")] [] ($"prog") [] [(TX_FINAL_TEXT, $"The end.")] vis_normal None false [] 0 [])
    default_settings [] 0 [].

Lemma ex_help_ok : help_ok 80 ex_help_parser.
Proof. split; [lia|]. split; [cbv; lia|]. split; [intros r []|intros r []]. Qed.

Definition ex_width (n : N) : parser_data := mk_data (d_command ex_help_parser) default_settings [] n [].
Definition ex_cr : parser_data :=
  mk_data (mk_cmd [new_argument ($"<x>" ++ [c_cr])] [] [] [] ($"prog") [] [] vis_normal None false [] 0 []) default_settings [] 0 [].
Definition ex_hidden_cmd : parser_data :=
  mk_data (mk_cmd [] [] [cmd_update (C_visibility vis_hidden) (new_command ($"foo"))] [] ($"prog") [] [] vis_normal (Some false) false [] 0 [])
    default_settings [] 0 [].

(** The finished definition and its command "copy". *)
Definition ex_done : parser_data := match finish_parser (make_copy ex_help_parser) with Val q => q | Exn _ => ex_help_parser end.
Definition ex_copy_done : cmd_data := hd ex_copy (c_commands (d_command ex_done)).

Lemma ex_finish : finish_parser (make_copy ex_help_parser) = Val ex_done.
Proof. vm_compute. reflexivity. Qed.
Lemma ex_path : find_path (s_case_insensitive (d_settings ex_done)) (d_command ex_done) [$"copy"] = Val ex_copy_done.
Proof. vm_compute. reflexivity. Qed.
Lemma ex_counts : counts_ok (d_command ex_help_parser).
Proof. apply (counts_b_ok 3). vm_compute. reflexivity. Qed.
Lemma ex_plain : plain_help ex_copy_done.
Proof. apply plain_help_b_ok. vm_compute. reflexivity. Qed.
Lemma ex_labels : labels_ok ex_copy_done.
Proof.
  destruct ex_plain as ((_ & _ & H1 & H2 & _) & _). split.
  - intros o Ho V E. specialize (H1 o Ho V). destruct H1 as (_ & H1 & _). apply last_in in E. apply H1 in E. cbv in E. lia.
  - intros o Ho V E. specialize (H2 o Ho V). destruct H2 as (_ & H2 & _). apply last_in in E. apply H2 in E. cbv in E. lia.
Qed.

Definition ascii_b (s : str) : bool := forallb (fun c => nat_of_ascii c <=? 127) s.
Definition ascii_command_b (c : cmd_data) : bool :=
  ascii_b (c_full_name c) && forallb (fun t => ascii_b (snd t)) (c_texts c) &&
  forallb (fun o => ascii_b (o_argument o) && ascii_b (o_help o) && ascii_b (o_section o) && forallb ascii_b (o_flags o)) (c_options c) &&
  forallb (fun a => ascii_b (a_name a) && ascii_b (a_help a) && ascii_b (a_section a)) (c_arguments c) &&
  forallb (fun d => ascii_b (c_name d) && ascii_b (c_section d) && forallb (fun t => ascii_b (snd t)) (c_texts d)) (c_commands c).

Lemma ascii_texts : forall ts, forallb (fun t : text_id * str => ascii_b (snd t)) ts = true -> forall id s, find_text ts id = Some s -> utf8 s.
Proof.
  intros ts H id s E. rewrite forallb_forall in H. unfold find_text in E.
  destruct (find _ ts) as [t|] eqn:F; [|discriminate]. apply find_some in F. destruct F as (F & _).
  injection E as <-. apply utf8_ascii, H, F.
Qed.
Lemma ascii_command_ok : forall c, ascii_command_b c = true -> utf8_command c.
Proof.
  intros c H. unfold ascii_command_b in H. rewrite !andb_true_iff in H. destruct H as ((((H1 & H2) & H3) & H4) & H5).
  rewrite forallb_forall in H3, H4, H5.
  split; [apply utf8_ascii, H1|]. split; [apply ascii_texts, H2|]. split; [|split].
  - intros o Ho. specialize (H3 o Ho). rewrite !andb_true_iff in H3. destruct H3 as (((A & B) & C) & D).
    repeat split; try (apply utf8_ascii; assumption). intros f Hf. rewrite forallb_forall in D. apply utf8_ascii, D, Hf.
  - intros a Ha. specialize (H4 a Ha). rewrite !andb_true_iff in H4. destruct H4 as ((A & B) & C).
    repeat split; apply utf8_ascii; assumption.
  - intros d Hd. specialize (H5 d Hd). rewrite !andb_true_iff in H5. destruct H5 as ((A & B) & C).
    repeat split; try (apply utf8_ascii; assumption). apply ascii_texts, C.
Qed.
Lemma ex_utf8 : utf8_command ex_copy_done.
Proof. apply ascii_command_ok. vm_compute. reflexivity. Qed.

(** The command "copy" without its hidden option. *)
Lemma ex_not_same : without_hidden ex_copy_done <> ex_copy_done.
Proof. intros E. apply (f_equal (fun c => length (c_options c))) in E. vm_compute in E. discriminate. Qed.
