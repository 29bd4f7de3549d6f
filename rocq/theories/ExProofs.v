(** Lemmas used by the examples beside the theorems. *)
From Verif Require Import Base MStrings MOptIter MData MCounter MValues MParser
  SIndex SDef SParser SExamples.

Lemma no_option_named : forall opts t o,
  (forall f, In f (all_flags opts) -> f <> t) ->
  (forall s, t = s ++ ["="%char] -> forall f, In f (all_flags opts) -> f <> s) ->
  ~ selects false false opts t o.
Proof.
  intros opts t o N1 N2.
  assert (G : forall s, (forall f, In f (all_flags opts) -> f <> s) -> forall o, ~ names false false opts s o).
  { intros s N o' [(f & (I & If) & E)|(E & _)]; [|discriminate]. apply (N f); [|exact E].
    apply in_flat_map. exists o'. auto. }
  intros [S|(_ & s & E & _ & S & _)]; [exact (G t N1 o S)|exact (G s (N2 s E) o S)].
Qed.

Lemma nexts_reached : forall cfg top args n st k, reached cfg top args st k ->
  exists m, reached cfg top args (nexts cfg n st) m.
Proof.
  intros cfg top args. induction n as [|n IH]; intros st k R; simpl; [eauto|].
  destruct (next _ st) as [r s|? ?|? ?| |] eqn:E; [|eauto..].
  eapply IH. eapply reached_next; eassumption.
Qed.

Lemma after_reached : forall d args n st,
  start_counter (d_settings (completed d))
    (initial_state (d_settings (completed d)) (d_command (completed d)) args) = Ret tt st ->
  exists m, reached (d_settings (completed d)) (d_command (completed d)) args (after d args n) m.
Proof.
  intros d args n st E. unfold after. rewrite E. eapply nexts_reached. constructor. exact E.
Qed.

(** Proves that the state after some calls is reached. *)
Ltac solve_reached := eapply after_reached; vm_compute; reflexivity.

(** A check that a definition has no callbacks. *)
Fixpoint no_callbacks (fuel : nat) (c : cmd_data) : bool :=
  match fuel with
  | O => false
  | S n => forallb (fun o => match o_callback o with None => true | _ => false end) (c_options c) &&
           forallb (fun a => match a_callback a with None => true | _ => false end) (c_arguments c) &&
           forallb (no_callbacks n) (c_commands c)
  end.

Lemma no_callbacks_within : forall top c, within top c -> forall n, no_callbacks n top = true ->
  exists m, no_callbacks m c = true.
Proof.
  intros top c W. induction W as [|c d W IH I]; intros n E; [eauto|].
  destruct (IH n E) as ([|m] & Em); [discriminate|]. simpl in Em.
  apply andb_prop in Em. destruct Em as (_ & Em). rewrite forallb_forall in Em. eauto.
Qed.

Lemma no_callbacks_sound : forall n cfg top, no_callbacks n top = true ->
  s_option_callback cfg = None -> s_argument_callback cfg = None ->
  forall f, ~ callback_of cfg top f.
Proof.
  intros n cfg top E E1 E2 f Cf. destruct Cf as [c o f W I X|c a f W I X|c o f W I X|c a f W I X];
    [unfold option_cb in X; rewrite E1 in X; discriminate
    |unfold argument_cb in X; rewrite E2 in X; discriminate| |].
  all: destruct (no_callbacks_within _ _ W n E) as ([|m] & Em); [discriminate|]; simpl in Em;
    apply andb_prop in Em; destruct Em as (Em & _); apply andb_prop in Em; destruct Em as (Eo & Ea);
    rewrite forallb_forall in Eo, Ea.
  - specialize (Eo _ I). rewrite X in Eo. discriminate.
  - specialize (Ea _ I). rewrite X in Ea. discriminate.
Qed.
