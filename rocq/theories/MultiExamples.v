(** A reader for command lines with several sub-commands, for the examples of C73. *)
From Verif Require Import Base BaseProofs MStrings MOptIter MData MCounter MValues MParser
  SStrings SIndex SDef SValues SCounter SParser SStep SLook SEquiv SApi SLine SMulti SExamples
  IndexProofs DefProofs FinishProofs ValuesProofs CounterProofs CounterInv InvProofs NextProofs ParseProofs ExProofs StepProofs StepProofs2
  LookProofs AcceptProofs LineProofs LineProofs2 MultiProofs MultiProofs2 MultiProofs3 LineExamples.
Open Scope nat_scope.

(* ------------------------------------------------------------------------ *)
(** ** The conditions on the definition *)

Definition orderly_check (cfg : settings) (top : cmd_data) : bool :=
  sound_check 9 top && no_callbacks 9 top && negb (s_ignore_arguments cfg) && negb (s_ignore_options cfg) &&
  match s_option_callback cfg, s_argument_callback cfg with None, None => true | _, _ => false end.
Lemma orderly_check_sound : forall cfg top, orderly_check cfg top = true -> orderly cfg top.
Proof.
  intros cfg top E. unfold orderly_check in E.
  do 4 (apply andb_prop in E; let X := fresh "X" in destruct E as (E & X)).
  assert (N : forall f, ~ callback_of cfg top f).
  { destruct (s_option_callback cfg) eqn:E1; [discriminate|]. destruct (s_argument_callback cfg) eqn:E2; [discriminate|].
    eapply no_callbacks_sound; eassumption. }
  split; [eapply sound_check_sound; eassumption|]. split; [intros f C; destruct (N f C)|].
  split; [intros f C; destruct (N f C)|].
  split; [destruct (s_ignore_arguments cfg); [discriminate|reflexivity]|destruct (s_ignore_options cfg); [discriminate|reflexivity]].
Qed.

Fixpoint clear_check (fuel : nat) (c : cmd_data) : bool :=
  match fuel with
  | O => false
  | S n => forallb (fun o => is_empty (o_argument o) || needs_value o) (c_options c) && forallb (clear_check n) (c_commands c)
  end.
Lemma clear_check_within : forall top c, within top c -> forall n, clear_check n top = true ->
  exists m, clear_check m c = true.
Proof.
  intros top c W. induction W as [|c d W IH I]; intros n E; [eauto|].
  destruct (IH n E) as ([|m] & Em); [discriminate|]. simpl in Em.
  apply andb_prop in Em. destruct Em as (_ & Em). rewrite forallb_forall in Em. eauto.
Qed.
Lemma clear_check_sound : forall n cfg top, s_abbreviations cfg = false -> clear_check n top = true -> clear cfg top.
Proof.
  intros n cfg top Ab E c W. destruct (clear_check_within top c W n E) as ([|m] & Em); [discriminate|]. simpl in Em.
  apply andb_prop in Em. destruct Em as (Em & _). rewrite forallb_forall in Em. split; [intros t; left; exact Ab|].
  intros o Io Na. apply Em in Io. apply orb_prop in Io. destruct Io as [X|X]; [destruct (o_argument o); [contradiction|discriminate]|].
  pose proof (needs_value_spec o) as Y. rewrite X in Y. exact Y.
Qed.

(* ------------------------------------------------------------------------ *)
(** ** The reader *)

Definition counts (x : open) : list N := map fst (make_counters_n (c_arguments (op_command x)) (given x)).
Definition settle (x : open) : list change :=
  op_init x ++ meant (order (combine (counts x) (c_arguments (op_command x)))) (op_words x).
Definition within_limits (x : open) : bool :=
  (minima (c_arguments (op_command x)) <=? given x)%N && (given x <=? maxima (c_arguments (op_command x)))%N.
Definition used_b (x : open) : bool :=
  negb (requires_argument_count (c_arguments (op_command x))) || (within_limits x && negb (last (counts x) 0 =? 0)%N).
Definition faultless_b (x : open) : bool :=
  match c_require (op_command x) with Some true => negb (is_empty (op_subs x)) | _ => true end &&
  used_b x && within_limits x &&
  forallb (fun o => o_optional o || negb (is_empty (history (settle x) (o_value_id o)))) (c_options (op_command x)).

Section Checks.
Variable x : open.
Hypothesis P : proper (c_arguments (op_command x)).
Hypothesis M : (maxima (c_arguments (op_command x)) < 2 ^ 64)%N.

Lemma within_limits_spec : within_limits x = true <->
  (minima (c_arguments (op_command x)) <= given x <= maxima (c_arguments (op_command x)))%N.
Proof. unfold within_limits. rewrite andb_true_iff, !N.leb_le. reflexivity. Qed.

Lemma settle_spec : within_limits x = true -> settled x (settle x).
Proof. intros L. apply within_limits_spec in L. eexists. split; [exact (counted_exact _ _ P M L)|reflexivity]. Qed.

Lemma used_spec : if used_b x then last_used (c_arguments (op_command x)) (given x)
                  else ~ last_used (c_arguments (op_command x)) (given x).
Proof.
  unfold used_b. destruct (requires_argument_count (c_arguments (op_command x))) eqn:R; cbn [negb orb].
  2:{ left. apply requires_count_false. exact R. }
  assert (Np : ~ predictable (c_arguments (op_command x))) by (intros X; apply requires_count_false in X; congruence).
  destruct (within_limits x) eqn:W; cbn [andb].
  2:{ intros [X|(ks & F & _)]; [contradiction|]. apply fair_between in F. apply within_limits_spec in F. congruence. }
  apply within_limits_spec in W. pose proof (counted_exact _ _ P M W) as F. fold (counts x) in F.
  destruct (last (counts x) 0 =? 0)%N eqn:E; cbn [negb].
  - apply N.eqb_eq in E. intros [X|(ks & F' & L)]; [contradiction|]. rewrite (fair_unique_proof _ _ _ _ F' F) in L. contradiction.
  - apply N.eqb_neq in E. right. eauto.
Qed.

Lemma faultless_spec : if faultless_b x then exists h, faultless x h else forall h, ~ faultless x h.
Proof.
  destruct (faultless_b x) eqn:E.
  - unfold faultless_b in E. do 3 (apply andb_prop in E; let X := fresh "X" in destruct E as (E & X)).
    exists (settle x). split; [|split; [|split]].
    + intros R. rewrite R in E. destruct (op_subs x); [discriminate|discriminate].
    + pose proof used_spec as U. rewrite X1 in U. exact U.
    + exact (settle_spec X0).
    + intros o Io Op Z. rewrite forallb_forall in X. apply X in Io. rewrite Op, Z in Io. discriminate.
  - intros h (R & U & St & O). unfold faultless_b in E.
    assert (W : within_limits x = true) by (apply within_limits_spec; destruct St as (ks & F & _); exact (fair_between _ _ _ F)).
    rewrite (settled_unique _ _ _ St (settle_spec W)) in O. rewrite W, andb_true_r in E.
    pose proof used_spec as X. destruct (used_b x); [|contradiction]. rewrite andb_true_r in E.
    apply andb_false_iff in E. destruct E as [E|E].
    + destruct (c_require (op_command x)) as [[]|]; try discriminate. destruct (op_subs x); [exact (R eq_refl eq_refl)|discriminate].
    + enough (forallb (fun o => o_optional o || negb (is_empty (history (settle x) (o_value_id o)))) (c_options (op_command x)) = true) by congruence.
      apply forallb_forall. intros o Io. destruct (o_optional o) eqn:Op; [reflexivity|]. specialize (O o Io Op).
      destruct (history (settle x) (o_value_id o)); [contradiction|reflexivity].
Qed.
End Checks.

Fixpoint resumable_b (z : list open) : option cmd_data :=
  match z with
  | [] => None
  | p :: r => if c_multi (op_command p) then Some (op_command p) else resumable_b r
  end.
Lemma resumable_spec : forall z, match resumable_b z with Some m => resumable z m | None => forall m, ~ resumable z m end.
Proof.
  induction z as [|y z IH]; cbn [resumable_b]; [intros m X; inversion X|].
  destruct (c_multi (op_command y)) eqn:E; [apply rs_here; exact E|].
  destruct (resumable_b z); [apply rs_further; assumption|]. intros m X. inversion X; subst; [congruence|]. eapply IH. eassumption.
Qed.

Fixpoint leave (x : open) (z : list open) : option (open * list open) :=
  match z with
  | [] => None
  | p :: r => if within_limits x
              then if c_multi (op_command p) then Some (with_sub p (ended_as x (settle x)), r)
                   else leave (with_sub p (ended_as x (settle x))) r
              else None
  end.

Definition another_b (cfg : settings) (x : open) (z : list open) (t : str) : option cmd_data :=
  if (minima (c_arguments (op_command x)) <=? given x)%N
  then match resumable_b z with Some m => find_command m t (s_case_insensitive cfg) | None => None end
  else None.

Fixpoint mean (fuel : nat) (cfg : settings) (only : bool) (x : open) (z : list open) (pl : place) : option SMulti.outcome :=
  match fuel with
  | O => None
  | S n =>
      match next_plain cfg only pl with
      | Some (t, pl') =>
          match c_commands (op_command x) with
          | [] =>
              match another_b cfg x z t with
              | Some d => if used_b x then match leave x z with
                                           | Some (m, z') => mean n cfg false (opened d) (m :: z') pl'
                                           | None => None
                                           end
                          else Some (Surplus x z t (left_at pl'))
              | None => if (given x <? maxima (c_arguments (op_command x)))%N
                        then mean n cfg only (with_word x (Positional t)) z pl'
                        else Some (Surplus x z t (left_at pl'))
              end
          | _ => match find_command (op_command x) t (s_case_insensitive cfg) with
                 | Some d => mean n cfg false (opened d) (x :: z) pl'
                 | None => Some (Faulty x z (AtNoCommand t (left_at pl')))
                 end
          end
      | None =>
          let fin := if faultless_b x then Some (Complete x z []) else Some (Incomplete x z []) in
          if only then fin
          else match next_token (s_style cfg) pl with
          | None => fin
          | Some (t, pl') =>
              match find_option (op_command x) t (s_abbreviations cfg) (s_case_insensitive cfg) with
              | None => Some (Faulty x z (AtUnknown t (left_at pl')))
              | Some o =>
                  match (if needs_value o then next_text (s_style cfg) pl' else Some ([], pl')) with
                  | None => Some (Faulty x z (AtNoValue t))
                  | Some (v, pl'') =>
                      let x' := with_word x (Optional o v) in
                      match o_type o with
                      | OT_NORMAL => mean n cfg false x' z pl''
                      | OT_LAST_OPTION => mean n cfg true x' z pl''
                      | OT_LAST_ARGUMENT =>
                          if faultless_b x'
                          then match resumable_b z with
                               | None => Some (Complete x' z (left_at pl''))
                               | Some _ => match leave (successful x') (map successful z) with
                                           | Some (m, z') => mean n cfg true m z' pl''
                                           | None => None
                                           end
                               end
                          else Some (Incomplete x' z (left_at pl''))
                      | _ => Some (Stopped x' z o (left_at pl''))
                      end
                  end
              end
          end
      end
  end.

Section Mean.
Variables (p q : parser_data).
Hypothesis H : finish_parser p = Val q.
Let cfg := d_settings q.
Let top := d_command q.
Hypothesis Ci : s_case_insensitive cfg = false.
Hypothesis Sd : sound top.
Hypothesis Cl : clear cfg top.

Lemma found_named : forall c t, match find_command c t (s_case_insensitive cfg) with
  | Some d => first_named cfg c t d | None => forall d, ~ first_named cfg c t d end.
Proof.
  intros c t. destruct (find_command c t (s_case_insensitive cfg)) as [d|] eqn:F.
  - destruct (found_first q c t d F) as (d1 & X). pose proof (first_found q c t d1 X) as Y. fold cfg in Y.
    rewrite Y in F. injection F as ->. exact X.
  - intros d Fd. apply (first_found q) in Fd. fold cfg in Fd. rewrite Fd in F. discriminate.
Qed.

Lemma another_spec : forall x z t, match another_b cfg x z t with
  | Some d => another cfg x z t d | None => forall d, ~ another cfg x z t d end.
Proof.
  intros x z t. unfold another_b. destruct (minima (c_arguments (op_command x)) <=? given x)%N eqn:L.
  2:{ apply N.leb_gt in L. intros d (X & _). lia. }
  apply N.leb_le in L. pose proof (resumable_spec z) as R. destruct (resumable_b z) as [m|].
  2:{ intros d (_ & m & X & _). exact (R m X). }
  pose proof (found_named m t) as F. destruct (find_command m t (s_case_insensitive cfg)).
  - split; [exact L|]. eauto.
  - intros d (_ & m' & R' & F'). rewrite (resumable_one _ _ _ R' R) in F'. exact (F d F').
Qed.

Lemma leave_sound : forall z x m z', within top (op_command x) -> Forall (fun y => within top (op_command y)) z ->
  leave x z = Some (m, z') -> leaves x z m z'.
Proof.
  induction z as [|y z IH]; intros x m z' W F E; [discriminate|]. cbn [leave] in E.
  destruct (within_limits x) eqn:L; [|discriminate]. destruct (Sd _ W) as (Pr & Mx & _).
  pose proof (settle_spec x Pr Mx L) as St. inversion_clear F as [|? ? Wy F'].
  destruct (c_multi (op_command y)) eqn:Cm.
  - injection E as <- <-. apply lv_here; assumption.
  - eapply lv_further; [exact St|exact Cm|]. apply IH; assumption.
Qed.

Lemma mean_sound : forall n only x z pl out, inside q x z -> proper_place pl ->
  mean n cfg only x z pl = Some out -> means cfg only x z pl out.
Proof.
  induction n as [|n IH]; intros only x z pl out Iz Pp E; [discriminate|]. cbn [mean] in E.
  pose proof Iz as (W & F). destruct (Sd _ W) as (Pr & Mx & _).
  assert (End : (if only then no_text pl else no_token pl) ->
    (if faultless_b x then Some (Complete x z []) else Some (Incomplete x z [])) = Some out -> means cfg only x z pl out).
  { intros Np X. pose proof (faultless_spec x Pr Mx) as Y. destruct (faultless_b x); injection X as <-; [apply mn_complete|apply mn_incomplete]; assumption. }
  destruct (next_plain cfg only pl) as [(t & pl')|] eqn:Np.
  - apply next_plain_sound in Np.
    assert (Pp' : proper_place pl').
    { destruct only; [eapply text_proper; exact Np|]. destruct Np as (T & _). eapply next_token_proper; exact T. }
    pose proof (proj1 (Cl _ W) t) as Nb.
    destruct (c_commands (op_command x)) as [|d0 ds] eqn:C.
    + pose proof (another_spec x z t) as A. destruct (another_b cfg x z t) as [d|].
      * pose proof (used_spec x Pr Mx) as U. destruct (used_b x); [|injection E as <-; eapply mn_unfair; eassumption].
        destruct (leave x z) as [(m & z')|] eqn:Lv; [|discriminate]. apply (leave_sound z x m z' W F) in Lv.
        destruct (inside_left q _ _ _ _ Lv F) as (F1 & F2).
        eapply mn_another; try eassumption. apply IH; try assumption. split; [exact (inside_another q _ _ _ _ A F)|].
        constructor; assumption.
      * destruct (given x <? maxima (c_arguments (op_command x)))%N eqn:L.
        -- apply N.ltb_lt in L. eapply mn_positional; try eassumption. apply IH; assumption.
        -- apply N.ltb_ge in L. injection E as <-. eapply mn_surplus; eassumption.
    + pose proof (found_named (op_command x) t) as Fd.
      destruct (find_command (op_command x) t (s_case_insensitive cfg)) as [d|].
      * eapply mn_command; try eassumption. apply IH; try assumption. exact (inside_entered q _ _ _ _ Iz Fd).
      * injection E as <-. eapply mn_no_command; [exact Np|congruence|exact Fd].
  - destruct only.
    { apply End; [|exact E]. cbn [next_plain] in Np. eapply next_text_none. exact Np. }
    destruct (next_token (s_style cfg) pl) as [(t & pl')|] eqn:T.
    2:{ apply End; [|exact E]. eapply next_token_none; [exact T|]. intros r ->. contradiction. }
    cbn [next_plain] in Np. rewrite T in Np. pose proof (like_option_spec (s_style cfg) t) as L.
    destruct (like_option (s_style cfg) t); [|discriminate]. apply next_token_sound in T.
    pose proof (finished_index_proof p q (op_command x) H W) as B. fold cfg in B.
    destruct (dep q Ci (op_command x) t) as (D1 & D2). fold cfg in D1, D2.
    destruct (find_option (op_command x) t (s_abbreviations cfg) (s_case_insensitive cfg)) as [o|] eqn:Fo.
    2:{ injection E as <-. eapply mn_unknown; [exact T|exact L|split; assumption|]. intros o Se.
        apply (lookup_proof _ _ _ t (s_abbreviations cfg) o D1 D2 B) in Se. unfold find_option in Fo. rewrite Se in Fo. discriminate. }
    assert (Fl : flag cfg (op_command x) pl t o pl').
    { split; [exact T|]. split; [exact L|]. split; [split; assumption|].
      apply (lookup_proof _ _ _ t (s_abbreviations cfg) o D1 D2 B). exact Fo. }
    pose proof (needs_value_spec o) as Nv.
    pose proof (next_token_proper _ _ _ _ T) as Pp'.
    assert (V : forall v pl'', (if needs_value o then next_text (s_style cfg) pl' else Some ([], pl')) = Some (v, pl'') ->
              takes (s_style cfg) o pl' v pl'' /\ proper_place pl'').
    { intros v pl'' X. destruct (needs_value o).
      - apply next_text_sound in X. split; [left; auto|]. eapply text_proper; exact X.
      - injection X as <- <-. split; [right; auto|exact Pp']. }
    destruct (if needs_value o then _ else _) as [(v & pl'')|] eqn:Vt.
    2:{ injection E as <-. eapply mn_no_value; [exact Fl| |]; destruct (needs_value o); try discriminate; [exact Nv|].
        eapply next_text_none. exact Vt. }
    destruct (V v pl'' eq_refl) as (Tk & Pp''). clear V. cbv zeta in E.
    pose proof (faultless_spec (with_word x (Optional o v)) Pr Mx) as Fx.
    assert (Fs : foreseen cfg (op_command x) (Optional o v)).
    { cbn. apply (Cl _ W). destruct Fl as (_ & _ & Ch). exact (chosen_in q _ _ _ Ch). }
    destruct (o_type o) eqn:Ty.
    + eapply mn_option; eauto.
    + injection E as <-. eapply mn_stop; eauto.
    + injection E as <-. eapply mn_stop; eauto.
    + injection E as <-. eapply mn_stop; eauto.
    + destruct (faultless_b (with_word x (Optional o v))).
      2:{ injection E as <-. eapply mn_too_early; eassumption. }
      pose proof (resumable_spec z) as R. destruct (resumable_b z) as [m0|].
      2:{ injection E as <-. eapply mn_last; eassumption. }
      destruct (leave _ _) as [(m & z')|] eqn:Lv; [|discriminate].
      assert (F' : Forall (fun y => within top (op_command y)) (map successful z)) by (clear - F; induction F; cbn [map]; constructor; assumption).
      apply (leave_sound (map successful z) (successful (with_word x (Optional o v))) m z' W F') in Lv.
      eapply mn_return; try eassumption. apply IH; try assumption. exact (inside_left q _ _ _ _ Lv F').
    + eapply mn_last_option; eauto.
Qed.

Lemma mean_line : forall n args out, mean n cfg false (outermost top) [] (Fresh args) = Some out ->
  means cfg false (outermost top) [] (Fresh args) out.
Proof.
  intros n args out. apply mean_sound; [split; constructor|exact Logic.I].
Qed.
End Mean.

(* ------------------------------------------------------------------------ *)
(** ** Showing outcomes *)

Inductive note := Note (name : str) (values : list (list str)) (rc : result_code) (subs : list note).
Fixpoint noted (n : node) : note :=
  match n with
  | Node c h rc _ _ subs =>
      Note (c_name c)
        (map (fun id => map fst (history h id)) (map a_value_id (c_arguments c) ++ map o_value_id (c_options c)))
        rc (map noted subs)
  end.
Definition short (x : open) : str * list str * list note :=
  (c_name (op_command x), map (fun w => match w with Positional t => t | Optional o v => hd [] (o_flags o) ++ v end) (op_words x),
   map noted (op_subs x)).
