(** The properties of help texts and error messages in the form of PHelp.v. *)
From Verif Require Import Base BaseProofs MStrings MOptIter MData MCounter MValues MParser MText MHelp MApi SStrings SDef SText SFormat SHelp
  HelpExact HelpApi HelpExamples.
Open Scope nat_scope.

Lemma C53_layout_proof : forall console d q path c, help_ok console d -> counts_ok (d_command d) ->
  finish_parser (make_copy d) = Val q ->
  find_path (s_case_insensitive (d_settings q)) (d_command q) path = Val c -> labels_ok c ->
  let doc := help_doc (help_width console d) c in
  exists out p, write_subcommand_help_text console (Some d) path = HText out /\ complete out /\
    layout (doc_marker doc) (doc_items doc) out p.
Proof.
  intros console d q path c Ho Hc E1 E2 Hl. destruct (api_help console d q path c E1 E2 Hc Ho) as (S0 & Oq & Wq & E).
  destruct (help_layout console q c Oq Hl S0) as (f & p & Ef & _ & Cf & L). rewrite Wq in L. rewrite Ef in E.
  exists (w_out (f_writer f)), p. auto.
Qed.

Lemma C53_characters_proof : forall console d q path c, help_ok console d -> counts_ok (d_command d) ->
  finish_parser (make_copy d) = Val q ->
  find_path (s_case_insensitive (d_settings q)) (d_command q) path = Val c -> labels_ok c ->
  exists out, write_subcommand_help_text console (Some d) path = HText out /\
    reflowed (visible (doc_text (help_doc (help_width console d) c))) out.
Proof.
  intros console d q path c Ho Hc E1 E2 Hl. destruct (C53_layout_proof console d q path c Ho Hc E1 E2 Hl) as (out & p & E & _ & L).
  exists out. split; [exact E|apply (layout_text _ _ _ _ L)].
Qed.

Lemma C53_narrow_proof : forall console d q path c, 2 < console -> (0 < d_line_width d <= 2)%N ->
  finish_parser (make_copy d) = Val q ->
  find_path (s_case_insensitive (d_settings q)) (d_command q) path = Val c ->
  write_subcommand_help_text console (Some d) path = HFormat (TThrows TLineWidth).
Proof.
  intros console d q path c Hc Hw E Ep. unfold write_subcommand_help_text. rewrite E, Ep.
  destruct (finish_parser_rest _ _ E) as (X1 & X2).
  assert (H : help_formatter console q = TThrows TLineWidth).
  { unfold help_formatter, new_formatter. rewrite X1. change (d_line_width (make_copy d)) with (d_line_width d).
    assert (A : (console <=? 2) = false) by (apply Nat.leb_gt; lia). rewrite A. cbn [tbind].
    assert (B : (d_line_width d =? 0)%N = false) by (apply N.eqb_neq; lia). rewrite B. unfold set_line_width.
    assert (C : (N.to_nat (d_line_width d) <=? 2) = true) by (apply Nat.leb_le; lia). rewrite C. reflexivity. }
  unfold write_help_text. rewrite H. reflexivity.
Qed.

Lemma C53_cr_proof : exists d, help_ok 80 d /\ counts_ok (d_command d) /\
  write_subcommand_help_text 80 (Some d) [] = HFormat (TThrows TOutOfRange).
Proof.
  exists ex_cr. split; [split; [lia|]; split; [cbv; lia|]; split; [intros r []|intros r []]|].
  split; [apply (counts_b_ok 1); vm_compute; reflexivity|vm_compute; reflexivity].
Qed.

Lemma C54_exact_proof : forall console d q path c, help_ok console d -> 7 < help_width console d ->
  counts_ok (d_command d) -> finish_parser (make_copy d) = Val q ->
  find_path (s_case_insensitive (d_settings q)) (d_command q) path = Val c ->
  plain_help c -> length (c_full_name c) + 3 < help_width console d ->
  fits (help_width console d) (help_lines (help_width console d) c) ->
  write_subcommand_help_text console (Some d) path = HText (text_of_lines (help_lines (help_width console d) c)).
Proof.
  intros console d q path c Ho HW Hc E1 E2 Hp Hn Hf. destruct (api_help console d q path c E1 E2 Hc Ho) as (S0 & Oq & Wq & E).
  rewrite <- Wq in *. destruct (help_exact console q c Oq HW S0 Hp Hn Hf) as (f & Ef & _ & Eo). rewrite Ef in E. rewrite E, Eo. reflexivity.
Qed.

Lemma C55_all_hidden_proof : exists d c f g,
  write_help_text 80 d c = TOk f /\ write_help_text 80 d (without_hidden c) = TOk g /\
  w_out (f_writer f) <> w_out (f_writer g).
Proof.
  exists ex_hidden_cmd, (d_command ex_hidden_cmd). do 2 eexists. split; [vm_compute; reflexivity|]. split; [vm_compute; reflexivity|].
  cbn. discriminate.
Qed.

Lemma C55_subcommands_proof : exists d e out a b, In e (c_commands (d_command d)) /\
  c_visibility e = vis_hidden /\ write_subcommand_help_text 80 (Some d) [] = HText out /\ out = a ++ c_name e ++ b.
Proof.
  exists ex_hidden_cmd, (cmd_update (C_visibility vis_hidden) (new_command ($"foo"))).
  remember (write_subcommand_help_text 80 (Some ex_hidden_cmd) []) as r eqn:E. vm_compute in E.
  match type of E with _ = HText ?o => exists o, (firstn 28 o), (skipn 31 o) end.
  split; [left; reflexivity|]. split; [reflexivity|]. split; [exact E|vm_compute; reflexivity].
Qed.

Lemma C56_layout_proof : forall console p q c msg, finish_parser p = Val q -> counts_ok (d_command p) ->
  within (d_command q) c -> help_ok console q -> labels_ok c ->
  let doc := error_doc (help_width console q) c msg in
  exists f pl, write_error_message console q c msg = TOk f /\ w_line (f_writer f) = [] /\ complete (w_out (f_writer f)) /\
    layout (doc_marker doc) (doc_items doc) (w_out (f_writer f)) pl /\
    reflowed (visible (doc_text doc)) (w_out (f_writer f)).
Proof.
  intros console p q c msg E Hc Hw Ho Hl. cbv zeta.
  destruct (error_layout console q c msg Ho Hl (finished_shapes _ _ _ E Hc Hw)) as (f & pl & Ef & E1 & E2 & L).
  exists f, pl. split; [exact Ef|]. split; [exact E1|]. split; [exact E2|]. split; [exact L|apply (layout_text _ _ _ _ L)].
Qed.

Lemma C56_exact_proof : forall console p q c msg, finish_parser p = Val q -> counts_ok (d_command p) ->
  within (d_command q) c -> help_ok console q -> 7 < help_width console q -> plain_usage c -> plain msg ->
  length (c_full_name c) + 3 < help_width console q ->
  fits (help_width console q) (error_lines (help_width console q) c msg) ->
  exists f, write_error_message console q c msg = TOk f /\ w_line (f_writer f) = [] /\
    w_out (f_writer f) = text_of_lines (error_lines (help_width console q) c msg).
Proof. intros console p q c msg E Hc Hw Ho HW Hp Hm Hn Hf. apply error_exact; try assumption. apply (finished_shapes _ _ _ E Hc Hw). Qed.

Lemma C56_example_proof :
  within (d_command ex_done) ex_copy_done /\ help_ok 80 ex_done /\ labels_ok ex_copy_done /\
  plain_usage ex_copy_done /\ plain ($"no such file") /\
  item_name ex_copy_done (o_argument_id (hd (new_option []) (c_options ex_copy_done))) = $"-o, --output" /\
  error_lines 80 ex_copy_done ($"no such file") =
  [$"prog copy: no such file"; $"USAGE"; $"  prog copy --help"; $"  prog copy [-o <FILE>] [-v] <input> [<more>]..."] /\
  fits 80 (error_lines 80 ex_copy_done ($"no such file")).
Proof.
  split; [eapply path_within, ex_path|]. split; [apply (api_help 80 ex_help_parser ex_done [$"copy"] ex_copy_done ex_finish ex_path ex_counts ex_help_ok)|].
  split; [exact ex_labels|]. split; [apply ex_plain|]. split; [apply plain_b_ok; vm_compute; reflexivity|].
  split; [vm_compute; reflexivity|]. split; [vm_compute; reflexivity|apply fits_b_ok; vm_compute; reflexivity].
Qed.

Lemma C57_help_proof : forall console d q path c out line, help_ok console d -> counts_ok (d_command d) ->
  finish_parser (make_copy d) = Val q ->
  find_path (s_case_insensitive (d_settings q)) (d_command q) path = Val c -> labels_ok c -> utf8_command c ->
  write_subcommand_help_text console (Some d) path = HText out -> In line (lines_of out) ->
  narrow (help_width console d) line \/ squeezed (help_width console d) line.
Proof.
  intros console d q path c out line Ho Hc E1 E2 Hl Hu Eo Hin. destruct (api_help console d q path c E1 E2 Hc Ho) as (S0 & Oq & Wq & E).
  rewrite Eo in E. destruct (write_help_text console q c) as [f| | |] eqn:Ef; [|discriminate|discriminate|discriminate].
  injection E as ->. rewrite <- Wq. apply (help_width_lines console q c f line); assumption.
Qed.

Lemma C57_error_proof : forall console p q c msg f line, finish_parser p = Val q -> counts_ok (d_command p) ->
  within (d_command q) c -> help_ok console q -> labels_ok c -> utf8_command c -> utf8 msg ->
  write_error_message console q c msg = TOk f -> In line (lines_of (w_out (f_writer f))) ->
  narrow (help_width console q) line \/ squeezed (help_width console q) line.
Proof.
  intros console p q c msg f line E Hc Hw Ho Hl Hu Hm Ef Hin.
  apply (error_width_lines console q c msg f line); try assumption. apply (finished_shapes _ _ _ E Hc Hw).
Qed.
