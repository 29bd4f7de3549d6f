(** Every command line has exactly one meaning (C73). *)
From Verif Require Import Base BaseProofs MStrings MOptIter MData MCounter MValues MParser
  SStrings SIndex SDef SValues SCounter SParser SStep SLook SEquiv SApi SLine SMulti
  IndexProofs DefProofs FinishProofs ValuesProofs CounterProofs CounterInv InvProofs NextProofs ParseProofs StepProofs StepProofs2
  LookProofs AcceptProofs LineProofs LineProofs2 MultiProofs MultiProofs2.
Open Scope nat_scope.

(* ------------------------------------------------------------------------ *)
(** ** Deciding *)

Lemma lacks_some : forall h (os : list opt_data), (exists o, In o os /\ lacks h o) \/ (forall o, In o os -> ~ lacks h o).
Proof.
  intros h os. induction os as [|o os [(x & Ix & L)|IH]]; [right; intros o []|left; exists x; cbn; auto|].
  pose proof (lacks_dec h o _ eq_refl) as D.
  destruct (negb (o_optional o) && negb (has_value (fold_left apply_change h []) (o_value_id o))).
  - left. exists o. cbn. auto.
  - right. intros x [<-|Ix]; [exact D|exact (IH x Ix)].
Qed.

Lemma used_dec : forall args k, proper args -> (maxima args < 2 ^ 64)%N -> last_used args k \/ ~ last_used args k.
Proof.
  intros args k P M. destruct (requires_argument_count args) eqn:R.
  2:{ left. left. apply requires_count_false. exact R. }
  assert (Np : ~ predictable args) by (intros X; apply requires_count_false in X; congruence).
  assert (D : (minima args <= k <= maxima args)%N \/ ~ (minima args <= k <= maxima args)%N) by lia.
  destruct D as [D|D].
  2:{ right. intros [X|(ks & F & _)]; [contradiction|]. apply fair_between in F. contradiction. }
  pose proof (counted_exact args k P M D) as F. destruct (N.eq_dec (last (map fst (make_counters_n args k)) 0%N) 0%N) as [E|E].
  - right. intros [X|(ks & F' & L)]; [contradiction|]. rewrite (fair_unique_proof _ _ _ _ F' F) in L. contradiction.
  - left. right. eauto.
Qed.

Lemma settled_some : forall x, proper (c_arguments (op_command x)) -> (maxima (c_arguments (op_command x)) < 2 ^ 64)%N ->
  (minima (c_arguments (op_command x)) <= given x <= maxima (c_arguments (op_command x)))%N -> exists h, settled x h.
Proof.
  intros x P M B. eexists. eexists. split; [exact (counted_exact _ _ P M B)|reflexivity].
Qed.

Lemma faultless_dec : forall x, proper (c_arguments (op_command x)) -> (maxima (c_arguments (op_command x)) < 2 ^ 64)%N ->
  (exists h, faultless x h) \/ (forall h, ~ faultless x h).
Proof.
  intros x P M. set (args := c_arguments (op_command x)) in *.
  assert (D : (minima args <= given x <= maxima args)%N \/ ~ (minima args <= given x <= maxima args)%N) by lia.
  destruct D as [D|D].
  2:{ right. intros h (_ & _ & (ks & F & _) & _). apply fair_between in F. contradiction. }
  destruct (settled_some x P M D) as (h & St).
  destruct (used_dec args (given x) P M) as [Lu|Lu]; [|right; intros h' (_ & X & _); contradiction].
  assert (R : (c_require (op_command x) = Some true -> op_subs x <> []) \/ ~ (c_require (op_command x) = Some true -> op_subs x <> [])).
  { destruct (c_require (op_command x)) as [[]|]; [|left; discriminate|left; discriminate].
    destruct (op_subs x); [right; intros X; exact (X eq_refl eq_refl)|left; discriminate]. }
  destruct R as [R|R]; [|right; intros h' (X & _); contradiction].
  destruct (lacks_some h (c_options (op_command x))) as [(o & Io & L1 & L2)|A].
  - right. intros h' (_ & _ & St' & X). rewrite (settled_unique _ _ _ St' St) in X. exact (X o Io L1 L2).
  - left. exists h. split; [exact R|]. split; [exact Lu|]. split; [exact St|].
    intros o Io Op Hh. apply (A o Io). split; assumption.
Qed.

Lemma resumable_dec : forall z, (exists m, resumable z m) \/ (forall m, ~ resumable z m).
Proof.
  induction z as [|y z IH]; [right; intros m X; inversion X|].
  destruct (c_multi (op_command y)) eqn:E; [left; eexists; apply rs_here; exact E|].
  destruct IH as [(m & R)|N]; [left; exists m; apply rs_further; assumption|].
  right. intros m X. inversion X; subst; [congruence|]. eapply N. eassumption.
Qed.

Lemma successful_resumable : forall z m, resumable z m -> resumable (map successful z) m.
Proof.
  intros z m R. induction R as [y z E|y z m E R IH]; cbn [map]; [exact (rs_here (successful y) _ E)|].
  apply rs_further; [exact E|exact IH].
Qed.

Lemma leaves_some : forall z m, resumable z m -> forall x h, settled x h ->
  Forall (fun y => positionals (op_words y) = [] /\ c_arguments (op_command y) = []) z -> exists n z', leaves x z n z'.
Proof.
  intros z m R. induction R as [y z E|y z m E R IH]; intros x h St F; inversion_clear F as [|? ? (F1 & F2) F'].
  - eexists _, _. eapply lv_here; eassumption.
  - destruct (IH (with_sub y (ended_as x h)) _ (settled_none (with_sub y (ended_as x h)) F1 F2) F') as (n & z' & L).
    exists n, z'. eapply lv_further; eassumption.
Qed.

(** What a command left behind is like. *)
Lemma leaves_keeps : forall (Q : cmd_data -> list word -> Prop) x z m z', leaves x z m z' ->
  Forall (fun y => Q (op_command y) (op_words y)) z ->
  Q (op_command m) (op_words m) /\ Forall (fun y => Q (op_command y) (op_words y)) z'.
Proof.
  intros Q x z m z' L. induction L as [x h y z St E|x h y z m z' St E L IH]; intros F; inversion_clear F as [|? ? F1 F'].
  - split; assumption.
  - exact (IH F').
Qed.

Lemma leaves_one : forall x z m z', leaves x z m z' -> forall n y', leaves x z n y' -> m = n /\ z' = y'.
Proof.
  intros x z m z' L. induction L as [x h y z St E|x h y z m z' St E L IH]; intros n y' L'; inversion L'; subst; try congruence;
    match goal with A : settled x h, B : settled x ?g |- _ => pose proof (settled_unique _ _ _ A B) as X; subst end; auto.
Qed.

Section Total.
Variables (p q : parser_data).
Hypothesis H : finish_parser p = Val q.
Let cfg := d_settings q.
Let top := d_command q.
Hypothesis Sd : sound top.

Definition outer_fine (y : open) : Prop :=
  within top (op_command y) /\ positionals (op_words y) = [] /\ c_commands (op_command y) <> [].
Record fine (x : open) (z : list open) : Prop := {
  fi_within : within top (op_command x);
  fi_plain : c_commands (op_command x) <> [] -> positionals (op_words x) = [];
  fi_room : (given x <= maxima (c_arguments (op_command x)))%N;
  fi_outer : Forall outer_fine z
}.

Lemma no_arguments : forall c, within top c -> c_commands c <> [] -> c_arguments c = [].
Proof. intros c W N0. destruct (Sd _ W) as (_ & _ & [E|E]); [exact E|contradiction]. Qed.

Lemma outer_simple : forall z, Forall outer_fine z ->
  Forall (fun y => positionals (op_words y) = [] /\ c_arguments (op_command y) = []) z.
Proof.
  intros z F. eapply Forall_impl; [|exact F]. intros y (W & Pn & Nc). split; [exact Pn|]. exact (no_arguments _ W Nc).
Qed.

Lemma resumable_within : forall z m, resumable z m -> Forall outer_fine z -> within top m.
Proof.
  intros z m R. induction R; intros F; inversion_clear F as [|? ? (W & _) F']; [exact W|auto].
Qed.

Lemma another_dec : forall x z t, (exists d, another cfg x z t d) \/ (forall d, ~ another cfg x z t d).
Proof.
  intros x z t. destruct (N.le_gt_cases (minima (c_arguments (op_command x))) (given x)) as [L|L].
  2:{ right. intros d (X & _). lia. }
  destruct (resumable_dec z) as [(m & R)|N0].
  2:{ right. intros d (_ & m & R & _). exact (N0 m R). }
  destruct (named_decides q m t) as [(d & F)|N0].
  - left. exists d. split; [exact L|]. eauto.
  - right. intros d (_ & m' & R' & F). rewrite (resumable_one _ _ _ R' R) in F. exact (N0 d F).
Qed.

Lemma another_within : forall x z t d, another cfg x z t d -> Forall outer_fine z -> within top d.
Proof.
  intros x z t d (_ & m & R & F) O. eapply (named_within q); [eapply resumable_within; eassumption|exact F].
Qed.

Lemma fine_opened : forall d z, within top d -> Forall outer_fine z -> fine (opened d) z.
Proof.
  intros d z W F. constructor; [exact W|reflexivity|unfold given; cbn; apply N.le_0_l|exact F].
Qed.

Lemma fine_option : forall x z o v, fine x z -> fine (with_word x (Optional o v)) z.
Proof.
  intros x z o v [W Pn Rm F]. constructor; [exact W| | |exact F].
  - intros X. rewrite back_words. exact (Pn X).
  - unfold given. rewrite back_words. exact Rm.
Qed.

Lemma fine_positional : forall x z t, fine x z -> c_commands (op_command x) = [] ->
  (given x < maxima (c_arguments (op_command x)))%N -> fine (with_word x (Positional t)) z.
Proof.
  intros x z t [W Pn Rm F] Nc L. constructor; [exact W| | |exact F].
  - intros X. contradiction.
  - unfold given in *. cbn [op_words with_word op_command]. rewrite positionals_app, app_length. cbn. lia.
Qed.

Lemma fine_entered : forall x z d t, fine x z -> first_named cfg (op_command x) t d -> fine (opened d) (x :: z).
Proof.
  intros x z d t [W Pn Rm F] Fn. pose proof (named_has q _ _ _ Fn) as Nc. apply fine_opened; [exact (named_within q _ _ _ W Fn)|].
  constructor; [|exact F]. split; [exact W|]. split; [exact (Pn Nc)|exact Nc].
Qed.

Lemma fine_left : forall x z m z', leaves x z m z' -> Forall outer_fine z -> outer_fine m /\ Forall outer_fine z'.
Proof.
  intros x z m z' L F.
  exact (leaves_keeps (fun c w => within top c /\ positionals w = [] /\ c_commands c <> []) x z m z' L F).
Qed.

Lemma fine_successful : forall z, Forall outer_fine z -> Forall outer_fine (map successful z).
Proof. intros z F. induction F as [|y z X F IH]; cbn [map]; constructor; [exact X|exact IH]. Qed.

Lemma fine_back : forall m z, outer_fine m -> Forall outer_fine z -> fine m z.
Proof.
  intros m z (W & Pn & Nc) F. constructor; [exact W|intros _; exact Pn| |exact F].
  unfold given. rewrite Pn. apply N.le_0_l.
Qed.

Hypothesis Cl : clear cfg top.

Lemma plain_means : forall only x z pl t pl', plain cfg only pl t pl' -> fine x z ->
  (forall only x z, fine x z -> exists out, means cfg only x z pl' out) -> exists out, means cfg only x z pl out.
Proof.
  intros only x z pl t pl' P Fi X. destruct Fi as [W Pn Rm F] eqn:Ef. clear Ef.
  destruct (c_commands (op_command x)) as [|d0 ds] eqn:C.
  2:{ destruct (named_decides q (op_command x) t) as [(d & Fd)|Nd].
      - destruct (X false _ _ (fine_entered x z d t ltac:(constructor; assumption || (rewrite C; exact Pn)) Fd)) as (out & Mn).
        exists out. eapply mn_command; eassumption.
      - eexists. eapply mn_no_command; [exact P|congruence|exact Nd]. }
  assert (Fi0 : fine x z) by (constructor; try assumption; rewrite C; exact Pn).
  destruct (Sd _ W) as (Pr & Mx & _). pose proof (proj1 (Cl _ W) t) as Nb.
  destruct (another_dec x z t) as [(d & An)|Na].
  - destruct (used_dec _ (given x) Pr Mx) as [Lu|Lu]; [|eexists; eapply mn_unfair; eassumption].
    destruct (settled_some x Pr Mx) as (h & St); [split; [apply An|exact Rm]|].
    pose proof (another_within _ _ _ _ An F) as Wd. destruct An as (Mi & m & R & Fn).
    destruct (leaves_some z m R x h St (outer_simple _ F)) as (n & z' & Lv). destruct (fine_left _ _ _ _ Lv F) as (F1 & F2).
    destruct (X false (opened d) (n :: z')) as (out & Mn); [apply fine_opened; [exact Wd|constructor; assumption]|].
    exists out. eapply mn_another; try eassumption. split; [exact Mi|eauto].
  - destruct (N.lt_ge_cases (given x) (maxima (c_arguments (op_command x)))) as [L|L].
    + destruct (X only _ _ (fine_positional x z t Fi0 C L)) as (out & Mn). exists out. eapply mn_positional; eassumption.
    + eexists. eapply mn_surplus; eassumption.
Qed.

Lemma means_total : forall n only x z pl, place_weight pl < n -> proper_place pl -> depends q pl -> fine x z ->
  exists out, means cfg only x z pl out.
Proof.
  induction n as [|n IH]; intros only x z pl L Pp D Fi; [lia|]. pose proof (fi_within _ _ Fi) as W.
  destruct (Sd _ W) as (Pr & Mx & _).
  assert (End : (if only then no_text pl else no_token pl) -> exists out, means cfg only x z pl out).
  { intros Np. destruct (faultless_dec x Pr Mx) as [Ok|Bad]; eexists; [apply mn_complete|apply mn_incomplete]; eassumption. }
  destruct only.
  - destruct (text_total (s_style cfg) pl Pp) as [Nt|(t & pl' & T & Pp' & L')]; [exact (End Nt)|].
    eapply plain_means; [exact T|exact Fi|]. intros on y zz Fy. apply IH; auto; [lia|]. eapply depends_text; eassumption.
  - destruct (token_total (s_style cfg) pl Pp) as [Nt|(t & pl' & T & Pp' & L')]; [exact (End Nt)|].
    pose proof (depends_token q _ _ _ D T) as D'.
    destruct (looks_dec (s_style cfg) t) as [Lo|Nl].
    2:{ eapply plain_means; [exact (conj T Nl)|exact Fi|]. intros on y zz Fy. apply IH; auto; lia. }
    pose proof (depends_flag q _ _ _ (op_command x) D T W) as De.
    destruct (found_decides p q H (op_command x) t W De) as [(o & Ch)|Un]; [|eexists; eapply mn_unknown; eassumption].
    pose proof (conj T (conj Lo Ch) : flag cfg (op_command x) pl t o pl') as Fl.
    assert (V : (takes_value o /\ no_text pl') \/ exists v pl'', takes (s_style cfg) o pl' v pl'' /\
                proper_place pl'' /\ place_weight pl'' <= place_weight pl' /\ depends q pl'').
    { destruct (takes_value_dec o) as [Tv|Nv].
      - destruct (text_total (s_style cfg) pl' Pp') as [Nt|(v & pl'' & Tx & Pp'' & L'')]; [left; auto|].
        right. exists v, pl''. split; [left; auto|]. split; [exact Pp''|]. split; [lia|]. eapply depends_text; eassumption.
      - right. exists [], pl'. split; [right; auto|]. auto. }
    destruct V as [(Tv & Nt)|(v & pl'' & Tk & Pp'' & L'' & D'')]; [eexists; eapply mn_no_value; eassumption|].
    assert (Fo : foreseen cfg (op_command x) (Optional o v)).
    { cbn. apply (Cl _ W). exact (chosen_in q _ _ _ Ch). }
    pose proof (fine_option x z o v Fi) as Fw. set (x' := with_word x (Optional o v)) in *.
    assert (Go : forall on, exists out, means cfg on x' z pl'' out) by (intros on; apply IH; auto; lia).
    destruct (o_type o) eqn:Ty.
    + destruct (Go false) as (out & Mn). exists out. eapply mn_option; eassumption.
    + eexists. eapply mn_stop; eauto.
    + eexists. eapply mn_stop; eauto.
    + eexists. eapply mn_stop; eauto.
    + destruct (faultless_dec x' Pr Mx) as [Ok|Bad]; [|eexists; eapply mn_too_early; eassumption].
      destruct (resumable_dec z) as [(m & R)|N0]; [|eexists; eapply mn_last; eassumption].
      destruct Ok as (h & Ok). pose proof Ok as (_ & _ & St & _). pose proof (fi_outer _ _ Fi) as F.
      assert (St' : settled (successful x') h) by exact St.
      destruct (leaves_some (map successful z) m (successful_resumable z m R) (successful x') h St' (outer_simple _ (fine_successful _ F)))
        as (nn & z' & Lv).
      destruct (fine_left _ _ _ _ Lv (fine_successful _ F)) as (F1 & F2).
      destruct (IH true nn z' pl'') as (out & Mn); auto; [lia|exact (fine_back _ _ F1 F2)|].
      exists out. eapply mn_return; try eassumption. exists h. exact Ok.
    + destruct (Go true) as (out & Mn). exists out. eapply mn_last_option; eassumption.
Qed.

Lemma fine_top : fine (outermost top) [].
Proof. constructor; [constructor|reflexivity|unfold given; cbn; apply N.le_0_l|constructor]. Qed.

Lemma multi_total : forall args, dependable_line cfg top args ->
  exists out, means cfg false (outermost top) [] (Fresh args) out.
Proof.
  intros args D. apply (means_total (S (weight args))); [simpl; lia|exact Logic.I|exact D|exact fine_top].
Qed.
End Total.

Section One.
Variables (p q : parser_data).
Hypothesis H : finish_parser p = Val q.
Let cfg := d_settings q.
Let top := d_command q.

Lemma another_one : forall x z t d d', another cfg x z t d -> another cfg x z t d' -> d = d'.
Proof.
  intros x z t d d' (_ & m & R & F) (_ & m' & R' & F'). rewrite (resumable_one _ _ _ R' R) in F'.
  exact (named_one q _ _ _ _ F F').
Qed.

Definition inside (x : open) (z : list open) : Prop :=
  within top (op_command x) /\ Forall (fun y => within top (op_command y)) z.

Lemma inside_left : forall x z m z', leaves x z m z' -> Forall (fun y => within top (op_command y)) z ->
  within top (op_command m) /\ Forall (fun y => within top (op_command y)) z'.
Proof. intros x z m z' L F. exact (leaves_keeps (fun c _ => within top c) x z m z' L F). Qed.

Lemma inside_another : forall x z t d, another cfg x z t d -> Forall (fun y => within top (op_command y)) z -> within top d.
Proof.
  intros x z t d (_ & m & R & F) O. eapply (named_within q); [|exact F]. clear F.
  induction R; inversion_clear O as [|? ? W F']; [exact W|auto].
Qed.

Lemma inside_entered : forall x z t d, inside x z -> first_named cfg (op_command x) t d -> inside (opened d) (x :: z).
Proof.
  intros x z t d (W & F) Fn. split; [exact (named_within q _ _ _ W Fn)|]. constructor; assumption.
Qed.

Ltac same :=
  repeat match goal with
  | A : flag cfg ?c ?pl _ _ _, B : flag cfg ?c ?pl _ _ _ |- _ =>
      let X := fresh in pose proof (flag_one p q H _ _ _ _ _ _ _ _ ltac:(eassumption) A B) as X;
      destruct X as (? & ? & ?); subst; clear B
  | A : takes _ ?o ?pl _ _, B : takes _ ?o ?pl _ _ |- _ =>
      let X := fresh in pose proof (takes_one _ _ _ _ _ _ _ A B) as X; destruct X as (? & ?); subst; clear B
  | A : plain cfg ?only ?pl _ _, B : plain cfg ?only ?pl _ _ |- _ =>
      let X := fresh in pose proof (plain_one q _ _ _ _ _ _ A B) as X; destruct X as (? & ?); subst; clear B
  | A : first_named cfg ?c ?t _, B : first_named cfg ?c ?t _ |- _ =>
      let X := fresh in pose proof (named_one q _ _ _ _ A B) as X; subst; clear B
  | A : another cfg ?x ?z ?t _, B : another cfg ?x ?z ?t _ |- _ =>
      let X := fresh in pose proof (another_one _ _ _ _ _ A B) as X; subst; clear B
  | A : leaves ?x ?z _ _, B : leaves ?x ?z _ _ |- _ =>
      let X := fresh in pose proof (leaves_one _ _ _ _ A _ _ B) as X; destruct X as (? & ?); subst; clear B
  | A : token ?s ?pl _ _, B : token ?s ?pl _ _ |- _ =>
      let X := fresh in pose proof (token_one _ _ _ _ _ _ A B) as X; destruct X as (? & ?); subst; clear B
  end.

Ltac conflict :=
  exfalso; match goal with
  | A : flag cfg _ ?pl _ _ _, B : plain cfg false ?pl _ _ |- _ => exact (flag_not_plain q _ _ _ _ _ _ _ A B)
  | A : flag cfg _ ?pl _ _ _, B : no_token ?pl |- _ => exact (flag_some q _ _ _ _ _ A B)
  | A : plain cfg false ?pl _ _, B : no_token ?pl |- _ => exact (plain_some q _ _ _ A B)
  | A : plain cfg true ?pl _ _, B : no_text ?pl |- _ => exact (text_some _ _ _ _ A B)
  | A : plain cfg ?only ?pl _ _, B : if ?only then _ else _ |- _ =>
      destruct only; [exact (text_some _ _ _ _ A B)|exact (plain_some q _ _ _ A B)]
  | A : token _ ?pl _ _, B : no_token ?pl |- _ => exact (token_some _ _ _ _ A B)
  | A : first_named cfg ?c _ _, B : c_commands ?c = [] |- _ => exact (named_has q _ _ _ A B)
  | A : first_named cfg ?c ?t _, B : forall d, ~ first_named cfg ?c ?t d |- _ => exact (B _ A)
  | A : another cfg ?x ?z ?t _, B : forall d, ~ another cfg ?x ?z ?t d |- _ => exact (B _ A)
  | A : exists h, faultless ?x h, B : forall h, ~ faultless ?x h |- _ => destruct A as (? & A); exact (B _ A)
  | A : flag cfg ?c ?pl _ _ _, B : token _ ?pl ?t _, C : unknown_option cfg ?c ?t |- _ => exact (flag_known q _ _ _ _ _ _ _ A B C)
  | A : plain cfg false ?pl _ _, B : token _ ?pl ?t _, C : looks_like_option _ ?t |- _ => exact (plain_unlike q _ _ _ _ _ A B C)
  | A : takes _ ?o ?pl _ _, B : takes_value ?o, C : no_text ?pl |- _ => exact (takes_some q _ _ _ _ A B C)
  | A : o_type ?o = _, B : o_type ?o = _ |- _ => rewrite A in B; discriminate B
  | A : o_type ?o = _, B : o_type ?o = _ \/ o_type ?o = _ \/ o_type ?o = _ |- _ =>
      rewrite A in B; destruct B as [B|[B|B]]; discriminate B
  | A : (?a < ?b)%N, B : (?b <= ?a)%N |- _ => lia
  | A : last_used ?a ?k, B : ~ last_used ?a ?k |- _ => exact (B A)
  | _ => congruence
  end.

Lemma leaves_resumable : forall x z m z', leaves (successful x) (map successful z) m z' -> exists c, resumable z c.
Proof.
  intros x z m z' L. remember (map successful z) as zz eqn:Ez. revert z Ez. generalize (successful x) L. clear. intros y L.
  induction L as [y h u zz St E|y h u zz m z' St E L IH]; intros z Ez; (destruct z as [|v z]; [discriminate|]);
    cbn in Ez; injection Ez as -> Ez.
  - eexists. exact (rs_here v z E).
  - destruct (IH z Ez) as (c & R). exists c. apply rs_further; [exact E|exact R].
Qed.

Lemma means_one : forall only x z pl out, means cfg only x z pl out -> inside x z ->
  forall out', means cfg only x z pl out' -> out = out'.
Proof.
  induction 1; intros (W & F) out' M'; inversion M'; subst; same; try reflexivity; try (solve [conflict]).
  all: try (match goal with
    | IH : inside (opened _) (?m :: ?z') -> _, A : another cfg _ _ _ _, L : leaves _ _ _ _ |- _ =>
        apply IH; [split; [exact (inside_another _ _ _ _ A F)|
                   constructor; [exact (proj1 (inside_left _ _ _ _ L F))|exact (proj2 (inside_left _ _ _ _ L F))]]|assumption]
    | IH : inside (opened _) _ -> _, A : first_named cfg _ _ _ |- _ =>
        apply IH; [exact (inside_entered _ _ _ _ (conj W F) A)|assumption]
    | IH : inside _ _ -> _, L : leaves (successful _) _ _ _ |- _ =>
        apply IH; [apply (inside_left _ _ _ _ L); clear - F; induction F; cbn [map]; constructor; assumption|assumption]
    | IH : inside _ _ -> _ |- _ => apply IH; [exact (conj W F)|assumption]
    end).
  all: exfalso;
    match goal with A : forall m, ~ resumable ?z m, B : leaves _ _ _ _ |- _ =>
      destruct (leaves_resumable _ _ _ _ B) as (c & R); exact (A c R) end.
Qed.

Lemma multi_one : forall args out out', means cfg false (outermost top) [] (Fresh args) out ->
  means cfg false (outermost top) [] (Fresh args) out' -> out = out'.
Proof.
  intros args out out' M M'. refine (means_one _ _ _ _ _ M _ _ M'). split; [constructor|constructor].
Qed.
End One.
