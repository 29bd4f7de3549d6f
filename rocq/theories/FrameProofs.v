(** What the parts of the parser may change, and how they may end. *)
From Verif Require Import Base BaseProofs MStrings MOptIter MData MCounter MValues MParser
  STok SValues SCounter TokProofs ValuesProofs CounterProofs CounterInv MonadProofs.

Definition is_error (e : event) : bool := match e with EvError _ _ => true | _ => false end.
Definition is_help (e : event) : bool := match e with EvHelp _ => true | _ => false end.

(** Neither error message nor help text has been written. *)
Definition no_trouble (evs : list event) : Prop :=
  forall e, In e evs -> is_error e = false /\ is_help e = false.

(** The last thing that happened is an error message, and it is the only one. *)
Definition error_last (st : pstate) : Prop :=
  exists evs m, ps_events st = evs ++ [EvError (l_command (ps_cur st)) m] /\ no_trouble evs.

(** Ways in which callbacks may end the program or throw. *)
Definition cb_exit (cfg : settings) (c : Z) (st : pstate) : Prop :=
  s_auto_exit cfg = true /\ c = s_error_exit cfg /\ error_last st.
Definition cb_throw (cfg : settings) (e : exn) (st : pstate) : Prop :=
  (e = EParseError /\ s_auto_exit cfg = false /\ error_last st) \/
  ((e = ECallback \/ exists name, e = EUnknownValue name) /\ no_trouble (ps_events st)).

(** Only the values change, by a sequence of changes. *)
Definition only_values (st st' : pstate) : Prop :=
  exists cs, st' = set_values st (fold_left apply_change cs (l_values (ps_cur st))).

Lemma set_values_set : forall st vs vs', set_values (set_values st vs) vs' = set_values st vs'.
Proof. intros [? [] ? ? ? ? ? ?] ? ?. reflexivity. Qed.

Lemma set_values_same : forall st, set_values st (l_values (ps_cur st)) = st.
Proof. intros [? [] ? ? ? ? ? ?]. reflexivity. Qed.

Lemma only_values_refl : forall st, only_values st st.
Proof. intros st. exists []. simpl. rewrite set_values_same. reflexivity. Qed.

Lemma only_values_one : forall st c,
  only_values st (set_values st (apply_change (l_values (ps_cur st)) c)).
Proof. intros st c. exists [c]. reflexivity. Qed.

Lemma only_values_trans : forall a b c, only_values a b -> only_values b c -> only_values a c.
Proof.
  intros a b c (cs & ->) (ds & ->). exists (cs ++ ds). rewrite fold_left_app, set_values_set.
  reflexivity.
Qed.

Section Cfg.
Variable cfg : settings.

Lemma resolve_key_cases : forall k st,
  (exists vid aid, resolve_key k st = Ret (vid, aid) st) \/
  (exists name, resolve_key k st = Throws (EUnknownValue name) st).
Proof.
  intros [name|vid aid] st; simpl; [|left; eauto].
  unfold get_value_id. destruct (nth_error _ _) as [[[n v] a]|]; [|right; eauto].
  destruct (str_eqb n name); [left|right]; eauto.
Qed.

(** The failures a callback may end with, if nothing failed before it. *)
Definition from (st : pstate) {A} (P : A -> pstate -> Prop) : A -> pstate -> Prop :=
  fun a s => no_trouble (ps_events st) -> P a s.

Lemma user_error_post : forall msg st,
  post (fun _ st' => only_values st st') (from st (cb_exit cfg)) (from st (cb_throw cfg)) False False
    (user_error cfg msg st).
Proof.
  unfold from. intros msg st. unfold user_error.
  rewrite bind_gets, bind_emit. destruct (s_auto_exit cfg) eqn:A; simpl; intros T.
  - split; [exact A|]. split; [reflexivity|]. do 2 eexists. split; [reflexivity|exact T].
  - left. split; [reflexivity|]. split; [exact A|]. do 2 eexists. split; [reflexivity|exact T].
Qed.

Lemma run_value_op_post : forall op st,
  post (fun _ st' => only_values st st') (from st (cb_exit cfg)) (from st (cb_throw cfg)) False False
    (run_value_op cfg op st).
Proof.
  unfold from. intros [k v|k v|k|msg|msg aid] st; cbn [run_value_op].
  - unfold bind. destruct (resolve_key_cases k st) as [(vid & aid & ->)|(name & ->)]; simpl.
    + apply (only_values_one st (Assigned vid v aid)).
    + intros T. right. split; [right; eauto|exact T].
  - unfold bind. destruct (resolve_key_cases k st) as [(vid & aid & ->)|(name & ->)]; simpl.
    + apply (only_values_one st (Appended vid v aid)).
    + intros T. right. split; [right; eauto|exact T].
  - unfold bind. destruct (resolve_key_cases k st) as [(vid & aid & ->)|(name & ->)]; simpl.
    + apply (only_values_one st (Cleared vid)).
    + intros T. right. split; [right; eauto|exact T].
  - apply user_error_post.
  - rewrite bind_gets. apply user_error_post.
Qed.

Lemma run_value_ops_post : forall ops st,
  post (fun _ st' => only_values st st' /\ (ops = [] -> st' = st)) (from st (cb_exit cfg))
    (from st (cb_throw cfg)) False False (run_value_ops cfg ops st).
Proof.
  induction ops as [|op ops IH]; intros st; simpl.
  - split; [apply only_values_refl|reflexivity].
  - eapply post_seq; [apply run_value_op_post| |auto|auto|auto|auto].
    simpl. intros _ s H. eapply post_mono; [apply IH| | | |auto|auto].
    + intros _ s' (H' & _). split; [eapply only_values_trans; eassumption|discriminate].
    + intros c s' G T. apply G. destruct H as (cs & ->). exact T.
    + intros e s' G T. apply G. destruct H as (cs & ->). exact T.
Qed.

Lemma emit_texts_eq : forall ts st,
  emit_texts ts st = Ret tt (fold_left add_event (map EvText ts) st).
Proof.
  induction ts as [|t ts IH]; intros st; [reflexivity|]. simpl emit_texts.
  rewrite bind_emit, IH. reflexivity.
Qed.

Lemma fold_events : forall es st, fold_left add_event es st =
  mk_ps (ps_command st) (ps_cur st) (ps_parents st) (ps_iter st) (ps_counter st) (ps_mode st)
    (ps_calls st) (ps_events st ++ es).
Proof.
  induction es as [|e es IH]; intros st; simpl.
  - rewrite app_nil_r. destruct st; reflexivity.
  - rewrite IH. simpl. rewrite <- app_assoc. reflexivity.
Qed.

(** What callbacks may change. *)
Record cb_frame (st st' : pstate) : Prop := {
  cf_command : ps_command st' = ps_command st;
  cf_parents : ps_parents st' = ps_parents st;
  cf_mode : ps_mode st' = ps_mode st;
  cf_cur : exists cs, ps_cur st' = set_l_values (ps_cur st)
                                     (fold_left apply_change cs (l_values (ps_cur st)));
  cf_wf : wf_iter (ps_iter st) -> wf_iter (ps_iter st');
  cf_kind : it_kind (ps_iter st') = it_kind (ps_iter st);
  cf_args : it_args (ps_iter st) <> [] -> it_args (ps_iter st') <> [];
  cf_from : counter_from (c_arguments (ps_command st)) (ps_counter st) ->
    counter_from (c_arguments (ps_command st)) (ps_counter st');
  cf_counter : proper (c_arguments (ps_command st)) ->
    (maxima (c_arguments (ps_command st)) < 2 ^ 64)%N ->
    forall k, counter_ok (c_arguments (ps_command st)) (ps_counter st) k ->
      counter_ok (c_arguments (ps_command st)) (ps_counter st') k;
  cf_events : exists evs, ps_events st' = ps_events st ++ evs /\
    forall e, In e evs -> is_error e = false /\ is_help e = false
}.

Lemma level_same : forall l, set_l_values l (l_values l) = l.
Proof. intros []. reflexivity. Qed.

Lemma cb_frame_refl : forall st, cb_frame st st.
Proof.
  intros st. constructor; try reflexivity; auto.
  - exists []. simpl. rewrite level_same. reflexivity.
  - exists []. rewrite app_nil_r. split; [reflexivity|]. intros e [].
Qed.

Lemma cb_frame_trans : forall a b c, cb_frame a b -> cb_frame b c -> cb_frame a c.
Proof.
  intros a b c [A1 A2 A3 (A4 & A4') A5 A6 A7 Af A8 (A9 & A9' & A9'')]
               [B1 B2 B3 (B4 & B4') B5 B6 B7 Bf B8 (B9 & B9' & B9'')].
  constructor; try congruence; auto.
  - exists (A4 ++ B4). rewrite B4', A4'. destruct (ps_cur a). simpl. rewrite fold_left_app.
    reflexivity.
  - rewrite A1 in Bf. auto.
  - rewrite A1 in B8. intros P Mx k H. apply B8; auto.
  - exists (A9 ++ B9). split; [rewrite B9', A9', app_assoc; reflexivity|].
    intros e H. apply in_app_or in H. destruct H; auto.
Qed.

Lemma only_values_frame : forall st st', only_values st st' -> cb_frame st st'.
Proof.
  intros st st' (cs & ->). constructor; try reflexivity; auto.
  - exists cs. reflexivity.
  - exists []. simpl. rewrite app_nil_r. split; [reflexivity|]. intros e [].
Qed.

(** Two states with the same iterator, counter, mode, levels. *)
Lemma update_arguments_post : forall new st, wf_iter (ps_iter st) ->
  post (fun _ st' => cb_frame st st' /\ ps_cur st' = ps_cur st /\ ps_calls st' = ps_calls st /\
                     ps_events st' = ps_events st /\ (new = [] -> st' = st))
    (fun _ _ => False) (fun _ _ => False) False False
    (update_arguments cfg new st).
Proof.
  intros new st W. unfold update_arguments. destruct new as [|n0 new]; simpl is_empty; cbv iota.
  - simpl. split; [apply cb_frame_refl|]. auto.
  - destruct (insert_wf (ps_iter st) (n0 :: new) W) as (it & E & W' & K').
    unfold bind at 1. cbn [is_empty]. cbv beta iota. rewrite E. cbv beta iota.
    assert (Ne : it_args it <> []).
    { clear - E. destruct (ps_iter st) as [k args p]. unfold it_insert in E. cbn [it_kind] in E.
      assert (G : forall it0 it, insert_tail it0 (n0 :: new) = Ok it -> it_args it <> []).
      { intros it0 it1. unfold insert_tail. destruct (pos_nonzero (it_pos it0)).
        - destruct (it_args it0); [discriminate|]. injection 1 as <-. cbn. discriminate.
        - injection 1 as <-. cbn. discriminate. }
      destruct k; [|eapply G; exact E]. unfold std_insert in E.
      destruct (split_concatenated_flags _); [|discriminate]. eapply G; exact E. }
    assert (Fr : forall ac,
      (counter_from (c_arguments (ps_command st)) (ps_counter st) ->
       counter_from (c_arguments (ps_command st)) ac) ->
      (proper (c_arguments (ps_command st)) ->
       (maxima (c_arguments (ps_command st)) < 2 ^ 64)%N ->
       forall k, counter_ok (c_arguments (ps_command st)) (ps_counter st) k ->
         counter_ok (c_arguments (ps_command st)) ac k) ->
      cb_frame st (set_counter (set_iter st it) ac)).
    { intros ac Hf H. constructor; try reflexivity; auto.
      - exists []. simpl. rewrite level_same. reflexivity.
      - exists []. simpl. rewrite app_nil_r. split; [reflexivity|]. intros e []. }
    rewrite bind_gets. cbn [ps_command set_iter].
    destruct (requires_argument_count (c_arguments (ps_command st))) eqn:R; cbn [negb]; cbv beta iota.
    + rewrite bind_gets. unfold bind at 1.
      destruct (count_arguments_total cfg (set_iter st it) W') as (n & ->). simpl.
      split; [|split; [reflexivity|split; [reflexivity|split; [reflexivity|discriminate]]]].
      apply (Fr (counted_counter (c_arguments (ps_command st)) (ac_counter (ps_counter st) + n)
                   (ac_counter (ps_counter st)))); [intros _; apply counter_from_counted|].
      intros P Mx k H. pose proof (proj1 H) as Ek. rewrite Ek.
      eapply counter_ok_recount; eassumption.
    + simpl. split; [|split; [reflexivity|split; [reflexivity|split; [reflexivity|discriminate]]]].
      specialize (Fr (ps_counter st)). destruct st; apply Fr; auto.
Qed.

(** Inserts nothing; changes no value. *)
Definition cb_quiet (f : option callback) (n : nat) : Prop :=
  forall g v vs, f = Some g -> eff_new (g n v vs) = [].
Definition cb_passive (f : option callback) (n : nat) : Prop :=
  forall g v vs, f = Some g -> eff_ops (g n v vs) = [].

(** The invocation of a callback. *)
Definition cb_event (e : event) : bool :=
  match e with EvOptionCallback _ _ _ | EvArgumentCallback _ _ _ => true | _ => false end.

Lemma run_callback_any : forall cb ev value st, wf_iter (ps_iter st) -> cb_event ev = true ->
  post (fun _ st' => cb_frame st st' /\
          (cb_quiet cb (ps_calls st) -> ps_iter st' = ps_iter st /\ ps_counter st' = ps_counter st) /\
          (cb_passive cb (ps_calls st) -> ps_cur st' = ps_cur st) /\
          match cb with
          | None => st' = st
          | Some f => ps_calls st' = S (ps_calls st) /\
              ps_events st' = ps_events st ++ ev ::
                map EvText (eff_out (f (ps_calls st) value (l_values (ps_cur st))))
          end)
    (from st (cb_exit cfg)) (from st (cb_throw cfg)) False False
    (run_callback cfg cb ev value st).
Proof.
  intros [f|] ev value st W Hev; unfold run_callback.
  2:{ simpl. split; [apply cb_frame_refl|]. split; [auto|]. split; auto. }
  rewrite bind_emit, bind_gets, bind_modify. unfold bind at 1. rewrite emit_texts_eq.
  rewrite fold_events.
  set (eff := f (ps_calls (add_event st ev)) value (l_values (ps_cur (add_event st ev)))).
  change (f (ps_calls st) value (l_values (ps_cur st))) with eff.
  remember (mk_ps _ _ _ _ _ _ _ _) as st1 eqn:E1.
  assert (F1 : cb_frame st st1).
  { subst st1. constructor; try reflexivity; auto.
    - exists []. simpl. rewrite level_same. reflexivity.
    - simpl. rewrite <- app_assoc. eexists. split; [reflexivity|].
      intros e [<-|H]; [destruct ev; try discriminate Hev; auto|].
      apply in_map_iff in H. destruct H as (t & <- & _). auto. }
  assert (T1 : no_trouble (ps_events st) -> no_trouble (ps_events st1)).
  { intros T. destruct (cf_events _ _ F1) as (es & -> & He). intros e H. apply in_app_or in H. destruct H as [H|H]; [apply T|apply He]; exact H. }
  eapply post_seq; [apply run_value_ops_post| |intros c s G T; apply G, T1, T|intros e s G T; apply G, T1, T|auto|auto]. simpl. intros _ s (V & V0).
  apply only_values_frame in V as F2. destruct (eff_throws eff) eqn:Et.
  { rewrite bind_throw. simpl. intros T. right. split; [left; reflexivity|]. destruct V as (cs & ->). exact (T1 T). }
  rewrite bind_ret.
  assert (W1 : wf_iter (ps_iter s)) by (apply (cf_wf _ _ F2), (cf_wf _ _ F1), W).
  eapply post_mono; [apply update_arguments_post; exact W1| |simpl; tauto|simpl; tauto|auto|auto].
  simpl. intros _ s' (F3 & C3 & K3 & V3 & N3).
  destruct V as (cs & V).
  split; [eapply cb_frame_trans; [exact F1|eapply cb_frame_trans; eassumption]|].
  split; [|split].
  - intros Q. rewrite N3 by (apply (Q f); reflexivity). subst s st1. split; reflexivity.
  - intros Q. rewrite C3. rewrite V0 by (apply (Q f); reflexivity). subst st1. reflexivity.
  - rewrite K3, V3, V. subst st1. simpl. rewrite <- app_assoc. split; reflexivity.
Qed.

Lemma run_callback_post : forall cb ev value st, wf_iter (ps_iter st) -> cb_event ev = true ->
  no_trouble (ps_events st) ->
  post (fun _ st' => cb_frame st st' /\
          (cb_quiet cb (ps_calls st) -> ps_iter st' = ps_iter st /\ ps_counter st' = ps_counter st) /\
          (cb_passive cb (ps_calls st) -> ps_cur st' = ps_cur st) /\
          match cb with
          | None => st' = st
          | Some f => ps_calls st' = S (ps_calls st) /\
              ps_events st' = ps_events st ++ ev ::
                map EvText (eff_out (f (ps_calls st) value (l_values (ps_cur st))))
          end)
    (cb_exit cfg) (cb_throw cfg) False False
    (run_callback cfg cb ev value st).
Proof.
  intros cb ev value st W Hev T.
  eapply post_mono; [apply run_callback_any; assumption|auto| | |auto|auto]; intros x s G; exact (G T).
Qed.
End Cfg.
