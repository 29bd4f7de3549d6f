(** Proofs for C62 and C63: the ways to start parsing. *)
From Verif Require Import Base BaseProofs MStrings MOptIter MData MCounter MValues MParser MText MHelp MApi
  SIndex SDef SValues SCounter SParser SStep SHelp SApi ApiProofs.
Open Scope nat_scope.

Lemma C62_overloads_proof : forall fuel p argv0 args,
  call_parser fuel (P_parse_argv []) p = call_parser fuel (P_parse []) p /\
  call_parser fuel (P_parse_argv_const []) p = call_parser fuel (P_parse_const []) p /\
  call_parser fuel (P_iterator_argv (argv0 :: args)) p = call_parser fuel (P_iterator args) p /\
  call_parser fuel (P_iterator_argv_const (argv0 :: args)) p = call_parser fuel (P_iterator_const args) p /\
  call_parser fuel (P_iterator_argv []) p = (R_iterator (Raised ENoArgv), p) /\
  call_parser fuel (P_iterator_argv_const []) p = (R_iterator (Raised ENoArgv), p).
Proof. intros fuel p argv0 args. repeat split; destruct p; reflexivity. Qed.

Lemma C63_throw_proof : forall fuel d args e, parse_arguments fuel d args = PThrow e <->
  make_argument_iterator d args = Raised e \/
  exists cfg st0 st, make_argument_iterator d args = Done (cfg, st0) /\ iterate cfg fuel st0 = Throws e st.
Proof.
  intros fuel d args e. unfold parse_arguments, make_argument_iterator. destruct (finish_parser d) as [q|e0].
  2:{ split; [intros E; injection E as ->; left; reflexivity|]. intros [E|(cfg & st0 & st & E & _)]; [injection E as ->; reflexivity|discriminate]. }
  unfold run_parser. unfold bind at 1. destruct (start_counter _ _) as [u st1|c s|e1 s| |].
  2,4,5: split; [discriminate|]; intros [E|(cfg & st0 & st & E & _)]; discriminate.
  2:{ split; [intros E; injection E as ->; left; reflexivity|]. intros [E|(cfg & st0 & st & E & _)]; [injection E as ->; reflexivity|discriminate]. }
  rewrite iterate_parse. split.
  - intros E. right. exists (d_settings q), st1. destruct (iterate (d_settings q) fuel st1) as [l st2| |e2 st2| |]; try discriminate.
    injection E as ->. exists st2. split; reflexivity.
  - intros [E|(cfg & st0 & st & E & Ei)]; [discriminate|]. injection E as <- <-. rewrite Ei. reflexivity.
Qed.
