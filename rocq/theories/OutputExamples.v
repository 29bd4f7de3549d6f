(** Examples for POutput.v, and a check of the conditions of its theorems. *)
From Verif Require Import Base BaseProofs MStrings MOptIter MData MCounter MValues MParser MText MHelp MApi MOutput
  SStrings SDef SText SFormat SHelp SParser SOutput SExamples HelpExamples.
Open Scope nat_scope.

(** Labels, to a depth of [n]. *)
Definition no_cr (s : str) : bool := match last_char s with Some c => negb (Ascii.eqb c c_cr) | None => true end.
Fixpoint labels_b (n : nat) (c : cmd_data) : bool :=
  forallb (fun o => no_cr (usage_label o)) (c_options c) && forallb (fun a => no_cr (argument_label a)) (c_arguments c) &&
  match n with O => is_empty (c_commands c) | S m => forallb (labels_b m) (c_commands c) end.

Lemma no_cr_ok : forall s, no_cr s = true -> last_char s <> Some c_cr.
Proof. intros s H E. unfold no_cr in H. rewrite E in H. discriminate. Qed.

Lemma labels_b_ok : forall n c, labels_b n c = true -> forall d, within c d -> labels_ok d.
Proof.
  intros n c H. assert (G : forall d, within c d -> exists m, labels_b m d = true).
  { intros d Hd. induction Hd as [|d e Hd (m & Em) Hin]; [eauto|].
    destruct m as [|m]; cbn [labels_b] in Em; apply andb_true_iff in Em; destruct Em as (_ & Em).
    - destruct (c_commands d); [destruct Hin|discriminate].
    - rewrite forallb_forall in Em. exists m. apply Em, Hin. }
  intros d Hd. destruct (G d Hd) as (m & Em).
  assert (E : forallb (fun o => no_cr (usage_label o)) (c_options d) && forallb (fun a => no_cr (argument_label a)) (c_arguments d) = true).
  { destruct m; cbn [labels_b] in Em; apply andb_true_iff in Em; apply Em. }
  apply andb_true_iff in E. rewrite !forallb_forall in E. destruct E as (E1 & E2).
  split; intros x Hx _; apply no_cr_ok; [apply E1|apply E2]; exact Hx.
Qed.

Definition writable_b (console : nat) (q : parser_data) : bool :=
  (2 <? console) && (2 <? help_width console q) && is_empty (d_word_rules q) && labels_b 5 (d_command q).

Lemma writable_b_ok : forall console q, writable_b console q = true -> writable console q.
Proof.
  intros console q H. unfold writable_b in H. rewrite !andb_true_iff in H. destruct H as (((H1 & H2) & H3) & H4).
  apply Nat.ltb_lt in H1, H2. destruct (d_word_rules q) as [|r rs] eqn:Er; [|discriminate].
  split; [|apply (labels_b_ok 5); exact H4]. split; [exact H1|]. split; [exact H2|].
  rewrite Er. split; [intros r []|intros r []].
Qed.

(** A program with a sub-command and an option that says something. *)
Definition ex_speaker (auto_exit : bool) : parser_data := ex_data auto_exit false
  (ex_command ($"prog") []
     [ex_option [$"-p"] ($"WORD") [] OP_ASSIGN OT_NORMAL true (Some (cb_print ($"said")))]
     [ex_command ($"copy") [ex_argument ($"FILE") 1 1 None]
        [ex_option [$"-p"] ($"WORD") [] OP_ASSIGN OT_NORMAL true (Some (cb_print ($"word")));
         ex_option [$"-x"] [] [] OP_NONE OT_EXIT true (Some (cb_print ($"exit")));
         ex_option [$"-f"] ($"WORD") [] OP_ASSIGN OT_NORMAL true
           (Some (fun n v vs => mk_eff [$"oh"] [VError v] false []))] [] false] false).

(** What the streams hold in the end. *)
Definition outputs (custom : bool) (d : parser_data) (args : list str) : option (str * str * str) :=
  match parse_and_write 80 custom 1000 d args with
  | WReturn _ out | WExit _ _ out | WThrow _ out => Some (in_stream Stdout out, in_stream Stderr out, in_stream Custom out)
  | _ => None
  end.
