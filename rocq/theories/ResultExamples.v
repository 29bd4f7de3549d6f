(** Examples for PResults.v. *)
From Verif Require Import Base MStrings MOptIter MParseInt MData MCounter MValues MParser MText MHelp MApi MResults
  SIndex SDef SValues SText SFormat SHelp SStep SParser SApi SExamples SResults ExProofs HelpExamples ResultProofs.
Open Scope nat_scope.

Definition opt (flags : list str) (cs : list opt_call) : opt_data :=
  match call_options cs (Some (new_option flags)) with Some o => o | None => new_option flags end.

Definition res_calls : list parser_call :=
  [P_add_option (Some (opt [$"-n"; $"--num"] [O_argument ($"N"); O_operation OP_APPEND]));
   P_add_option (Some (opt [$"-q"] [O_operation OP_NONE]));
   P_add_option (Some (opt [$"-m"] [O_argument ($"N"); O_alias ($"--num"); O_operation OP_APPEND]));
   P_add_option (Some (opt [$"-x"] [O_argument ($"X")]));
   P_add_option (Some (opt [$"-y"] [O_argument ($"Y"); O_alias ($"-x")]));
   P_add_option (Some (opt [$"-r"; $"--reset"] [O_operation OP_NONE]));
   P_setting (S_auto_exit false);
   P_add_command (Some (set_c_items (new_command ($"add"))
                          [arg_counts 1 2 (new_argument ($"FILE"))] [] []))].

Definition res_parser : parser_data :=
  match snd (call_parsers 10 res_calls (Some (new_parser ($"prog") false))) with
  | Some d => d | None => new_parser [] false end.
Definition res_args : list str := [$"-n1"; $"-m"; $"two"; $"-q"; $"-x"; $"0x"; $"--num=3"; $"add"; $"a b"; $"c"].

Lemma opt_made : forall flags cs, call_options cs (Some (new_option flags)) <> None -> made_option (opt flags cs).
Proof. intros flags cs H. exists flags, cs. unfold opt. destruct (call_options cs _); [reflexivity|congruence]. Qed.

Lemma res_made : made_parser res_parser.
Proof.
  exists 10, ($"prog"), false, res_calls. eexists. split; [vm_compute; reflexivity|].
  unfold res_calls. repeat (apply Forall_cons; [try (apply opt_made; vm_compute; discriminate); try exact Logic.I|]); [|constructor].
  apply (made_add_argument (arg_counts 1 2 (new_argument ($"FILE"))) (new_command ($"add")) (Done tt) None); [|constructor|reflexivity].
  exists ($"FILE"), [A_counts 1 2]. reflexivity.
Qed.

Definition res_state : pstate := after res_parser res_args 20.
Definition res_done : parser_data := completed res_parser.
Notation res_top := (toplevel res_state).

Lemma res_finish : finish_parser res_parser = Val res_done.
Proof. vm_compute. reflexivity. Qed.

Lemma res_reached : exists n, reached (d_settings res_done) (d_command res_done) res_args res_state n.
Proof. solve_reached. Qed.

Lemma res_no_callback : forall f, ~ callback_of (d_settings res_done) (d_command res_done) f.
Proof. apply (no_callbacks_sound 5); vm_compute; reflexivity. Qed.
Lemma res_no_insertions : no_insertions (d_settings res_done) (d_command res_done).
Proof. intros f Hf. destruct (res_no_callback f Hf). Qed.
Lemma res_no_interference : no_interference (d_settings res_done) (d_command res_done).
Proof. intros f Hf. destruct (res_no_callback f Hf). Qed.
Lemma res_counts : counts_ok (d_command res_parser).
Proof. apply (counts_b_ok 3). vm_compute. reflexivity. Qed.
Lemma res_help_ok : help_ok 80 res_done.
Proof.
  assert (E : d_word_rules res_done = []) by (vm_compute; reflexivity).
  split; [lia|]. split; [vm_compute; lia|]. unfold utf8_rules. rewrite E. split; [intros r []|intros r []].
Qed.
Definition no_cr_b (s : str) : bool := match last_char s with Some c => negb (Ascii.eqb c c_cr) | None => true end.
Lemma no_cr_ok : forall s, no_cr_b s = true -> last_char s <> Some c_cr.
Proof. intros s H E. unfold no_cr_b in H. rewrite E, Ascii.eqb_refl in H. discriminate. Qed.

Lemma labels_b_ok : forall c, forallb (fun o => no_cr_b (usage_label o)) (c_options c) = true ->
  forallb (fun a => no_cr_b (argument_label a)) (c_arguments c) = true -> labels_ok c.
Proof.
  intros c H1 H2. rewrite forallb_forall in H1, H2. split; [intros o Ho _|intros a Ha _]; apply no_cr_ok; [apply H1, Ho|apply H2, Ha].
Qed.
Lemma res_labels : labels_ok (l_command res_top).
Proof. apply labels_b_ok; vm_compute; reflexivity. Qed.


(** The value of a name. *)
Definition res_value (name : str) : arg_value :=
  match value_by_name res_top name with VGot v => v | _ => no_argument_value end.
Definition res_values (name : str) : arg_values :=
  match values_by_name res_top name with VGot v => v | _ => mk_avs [] res_top 0 end.
Definition res_sub : level := hd res_top (l_subs res_top).
Definition res_item (k : nat) : iview := nth k (listed (l_command res_top)) (ArgumentView (new_argument [])).

Lemma res_in : in_result res_top res_top.
Proof. exact (in_result_self res_top). Qed.
Lemma hd_in : forall {A} (x : A) l, is_empty l = false -> In (hd x l) l.
Proof. intros A x [|y l] H; [discriminate|left; reflexivity]. Qed.
Lemma res_sub_in : in_result res_top res_sub.
Proof. apply (in_result_sub res_top res_sub); [|exact (in_result_self res_sub)]. apply (hd_in res_top (l_subs res_top)). vm_compute. reflexivity. Qed.

(** The conditions of the theorems of C67 hold. *)
Lemma res_conditions : exists n,
  finish_parser res_parser = Val res_done /\ no_insertions (d_settings res_done) (d_command res_done) /\
  no_interference (d_settings res_done) (d_command res_done) /\
  reached (d_settings res_done) (d_command res_done) res_args res_state n /\
  in_result res_top res_top /\ counts_ok (d_command res_parser) /\
  help_ok 80 res_done /\ labels_ok (l_command res_top).
Proof.
  destruct res_reached as (n & Hn). exists n. split; [exact res_finish|]. split; [exact res_no_insertions|].
  split; [exact res_no_interference|]. split; [exact Hn|]. split; [exact res_in|]. split; [exact res_counts|].
  split; [exact res_help_ok|exact res_labels].
Qed.

Definition int10 (s : str) : option Z := parse_int s 10.
