(** Proofs for C88, and a reader for the examples. *)
From Verif Require Import Base MStrings MOptIter MData MCounter MValues MParser
  SIndex SDef SValues SCounter SParser SStep SLook SEquiv SApi SLine SIgnore SExamples
  IndexProofs FinishProofs LookProofs LineProofs LineProofs2 LineProofs3 LineExamples.
Open Scope nat_scope.

(* ------------------------------------------------------------------------ *)
(** ** A reader that ignores unknown options *)

Definition ignored_argument (cfg : settings) (pl pl' : place) : option str :=
  if s_ignore_options cfg then
    match pl with
    | Group _ _ => None
    | _ => match left_at pl with
           | a :: r => if list_eq_dec (list_eq_dec ascii_dec) r (left_at pl') then Some a else None
           | [] => None
           end
    end
  else None.
Lemma ignored_argument_sound : forall cfg pl pl' a, ignored_argument cfg pl pl' = Some a ->
  s_ignore_options cfg = true /\ match pl with Group _ _ => False | _ => True end /\ left_at pl = a :: left_at pl'.
Proof.
  intros cfg pl pl' a E. unfold ignored_argument in E. destruct (s_ignore_options cfg); [|discriminate].
  split; [reflexivity|].
  destruct pl; try discriminate E; (split; [exact Logic.I|]);
    (destruct (left_at _) as [|b r]; [discriminate|]; destruct (list_eq_dec (list_eq_dec ascii_dec) r _) as [->|]; [|discriminate];
     injection E as ->; reflexivity).
Qed.

Fixpoint skim (fuel : nat) (cfg : settings) (only : bool) (c : cmd_data) (pl : place)
  : option (list item * list (cmd_data * list item) * ending) :=
  match fuel with
  | O => None
  | S n =>
      match next_plain cfg only pl with
      | Some (t, pl') =>
          match c_commands c with
          | [] => match skim n cfg only c pl' with
                  | Some (ws, subs, e) => Some (Read (Positional t) :: ws, subs, e)
                  | None => None
                  end
          | _ => match find_command c t (s_case_insensitive cfg) with
                 | Some d => match skim n cfg false d pl' with
                             | Some (ws, subs, e) => Some ([], (d, ws) :: subs, e)
                             | None => None
                             end
                 | None => Some ([], [], AtNoCommand t (left_at pl'))
                 end
          end
      | None =>
          if only then Some ([], [], AtEnd)
          else match next_token (s_style cfg) pl with
          | None => Some ([], [], AtEnd)
          | Some (t, pl') =>
              match find_option c t (s_abbreviations cfg) (s_case_insensitive cfg) with
              | None =>
                  match ignored_argument cfg pl pl' with
                  | Some a => match skim n cfg false c pl' with
                              | Some (is, subs, e) => Some (Ignored a :: is, subs, e)
                              | None => None
                              end
                  | None => Some ([], [], AtUnknown t (left_at pl'))
                  end
              | Some o =>
                  match (if needs_value o then next_text (s_style cfg) pl' else Some ([], pl')) with
                  | None => Some ([], [], AtNoValue t)
                  | Some (v, pl'') =>
                      let go only := match skim n cfg only c pl'' with
                                     | Some (ws, subs, e) => Some (Read (Optional o v) :: ws, subs, e)
                                     | None => None
                                     end in
                      match o_type o with
                      | OT_NORMAL => go false
                      | OT_LAST_OPTION => go true
                      | OT_LAST_ARGUMENT => Some ([Read (Optional o v)], [], AtLast o (left_at pl''))
                      | _ => Some ([Read (Optional o v)], [], AtStop o (left_at pl''))
                      end
                  end
              end
          end
      end
  end.

Section Skim.
Variables (p q : parser_data).
Hypothesis H : finish_parser p = Val q.
Let cfg := d_settings q.
Let top := d_command q.
Hypothesis Ci : s_case_insensitive cfg = false.

Lemma dep : forall c t, dependable cfg c t.
Proof. intros c t. split; intros X; rewrite X in Ci; discriminate. Qed.

Lemma skim_sound : forall n only c pl ws subs e, within top c -> proper_place pl ->
  skim n cfg only c pl = Some (ws, subs, e) -> skimming cfg only c pl ws subs e.
Proof.
  induction n as [|n IH]; intros only c pl ws subs e W Pp E; [discriminate|]. cbn [skim] in E.
  destruct (next_plain cfg only pl) as [(t & pl')|] eqn:Np.
  - apply next_plain_sound in Np.
    assert (Pp' : proper_place pl').
    { destruct only; [eapply text_proper; exact Np|]. destruct Np as (T & _). eapply next_token_proper; exact T. }
    destruct (c_commands c) as [|d0 ds] eqn:C.
    + destruct (skim n cfg only c pl') as [((ws' & subs') & e')|] eqn:R; [|discriminate].
      injection E as <- <- <-. eapply sk_positional; [exact Np|exact C|]. apply IH; assumption.
    + destruct (find_command c t (s_case_insensitive cfg)) as [d|] eqn:F.
      * destruct (skim n cfg false d pl') as [((ws' & subs') & e')|] eqn:R; [|discriminate].
        injection E as <- <- <-.
        assert (Fd : first_named cfg c t d).
        { destruct (found_first q c t d F) as (d1 & X). pose proof (first_found q c t d1 X) as Y. fold cfg in Y.
          rewrite Y in F. injection F as ->. exact X. }
        eapply sk_command; [exact Np|exact Fd|]. apply IH; [exact (named_within q c t d W Fd)|exact Pp'|exact R].
      * injection E as <- <- <-. eapply sk_no_command; [exact Np|congruence|]. intros d Fd.
        apply (first_found q) in Fd. fold cfg in Fd. rewrite Fd in F. discriminate.
  - destruct only.
    { injection E as <- <- <-. apply sk_end_only. cbn [next_plain] in Np. eapply next_text_none. exact Np. }
    destruct (next_token (s_style cfg) pl) as [(t & pl')|] eqn:T.
    2:{ injection E as <- <- <-. apply sk_end. eapply next_token_none; [exact T|]. intros r ->. contradiction. }
    cbn [next_plain] in Np. rewrite T in Np. pose proof (like_option_spec (s_style cfg) t) as L.
    destruct (like_option (s_style cfg) t); [|discriminate]. apply next_token_sound in T.
    pose proof (finished_index_proof p q c H W) as B. fold cfg in B. destruct (dep c t) as (D1 & D2).
    destruct (find_option c t (s_abbreviations cfg) (s_case_insensitive cfg)) as [o|] eqn:F.
    2:{ assert (Un : unknown_option cfg c t).
        { intros o Se.
        apply (lookup_proof _ _ _ t (s_abbreviations cfg) o D1 D2 B) in Se. unfold find_option in F. rewrite Se in F. discriminate. }
        destruct (ignored_argument cfg pl pl') as [a|] eqn:Ia.
        - destruct (skim n cfg false c pl') as [((is' & subs') & e')|] eqn:R; [|discriminate]. injection E as <- <- <-.
          apply ignored_argument_sound in Ia. destruct Ia as (I1 & I2 & I3).
          eapply sk_ignored; [|apply IH; [exact W|eapply next_token_proper; exact T|exact R]].
          split; [exact I1|]. split; [exact I2|]. split; [exact I3|]. exists t. split; [exact T|]. split; [exact L|].
          split; [split; assumption|exact Un].
        - injection E as <- <- <-. eapply sk_unknown; [exact T|exact L|split; assumption|exact Un]. }
    assert (Fl : flag cfg c pl t o pl').
    { split; [exact T|]. split; [exact L|]. split; [split; assumption|].
      apply (lookup_proof _ _ _ t (s_abbreviations cfg) o D1 D2 B). exact F. }
    pose proof (needs_value_spec o) as Nv.
    pose proof (next_token_proper _ _ _ _ T) as Pp'.
    assert (V : forall v pl'', (if needs_value o then next_text (s_style cfg) pl' else Some ([], pl')) = Some (v, pl'') ->
              takes (s_style cfg) o pl' v pl'' /\ proper_place pl'').
    { intros v pl'' X. destruct (needs_value o).
      - apply next_text_sound in X. split; [left; auto|]. eapply text_proper; exact X.
      - injection X as <- <-. split; [right; auto|exact Pp']. }
    destruct (if needs_value o then _ else _) as [(v & pl'')|] eqn:Vt.
    2:{ injection E as <- <- <-. eapply sk_no_value; [exact Fl| |]; destruct (needs_value o); try discriminate; [exact Nv|].
        eapply next_text_none. exact Vt. }
    destruct (V v pl'' eq_refl) as (Tk & Pp''). clear V.
    destruct (o_type o) eqn:Ty.
    + destruct (skim n cfg false c pl'') as [((ws' & subs') & e')|] eqn:R; [|discriminate].
      injection E as <- <- <-. eapply sk_option; eauto.
    + injection E as <- <- <-. eapply sk_stop; eauto.
    + injection E as <- <- <-. eapply sk_stop; eauto.
    + injection E as <- <- <-. eapply sk_stop; eauto.
    + injection E as <- <- <-. eapply sk_last_argument; eauto.
    + destruct (skim n cfg true c pl'') as [((ws' & subs') & e')|] eqn:R; [|discriminate].
      injection E as <- <- <-. eapply sk_last_option; eauto.
Qed.

Lemma skim_line : forall n args ws subs e, skim n cfg false top (Fresh args) = Some (ws, subs, e) ->
  skimming cfg false top (Fresh args) ws subs e.
Proof. intros. eapply skim_sound; [constructor|exact Logic.I|eassumption]. Qed.
End Skim.

(* ------------------------------------------------------------------------ *)
(** ** Every command line can be read *)

Definition from (args : list str) (pl : place) : Prop :=
  match pl with
  | Fresh r | After r | Attached _ r => incl r args
  | Group g r => incl r args /\ exists b, b <> [] /\ In ("-"%char :: b ++ g) args
  end.

Lemma from_cons : forall (args : list str) a r, incl (a :: r) args -> In a args /\ incl r args.
Proof. intros args a r X. split; [apply X; left; reflexivity|intros y Y; apply X; right; exact Y]. Qed.

Lemma token_from : forall args style pl t pl', token style pl t pl' -> from args pl ->
  from args pl' /\
  ((match pl with Group _ _ => False | _ => True end /\ exists a, left_at pl = a :: left_at pl') \/
   flag_in_group args t).
Proof.
  intros args style. induction 1; cbn [from left_at] in *; intros F.
  - apply IHtoken in F. destruct F as (F & [(_ & X)|X]); auto.
  - apply from_cons in F. destruct F as (_ & F). split; [exact F|]. left. eauto.
  - apply from_cons in F. destruct F as (_ & F). split; [exact F|]. left. eauto.
  - apply from_cons in F. destruct F as (_ & F). split; [exact F|]. left. eauto.
  - apply from_cons in F. destruct F as (_ & F). split; [exact F|]. left. eauto.
  - apply from_cons in F. destruct F as (I & F). split.
    + split; [exact F|]. exists [x]. split; [discriminate|exact I].
    + right. exists x, [], g. split; [reflexivity|]. split; [exact I|]. destruct g; [contradiction|cbn; lia].
  - destruct F as (F & b & Nb & I). split.
    + split; [exact F|]. exists (b ++ [x]). split; [destruct b; discriminate|]. rewrite <- app_assoc. exact I.
    + right. exists x, b, g. split; [reflexivity|]. split; [exact I|]. rewrite app_length. destruct b; [contradiction|cbn; lia].
  - destruct F as (F & b & Nb & I). split; [exact F|].
    right. exists x, b, []. split; [reflexivity|]. split; [exact I|]. rewrite app_length. destruct b; [contradiction|cbn; lia].
  - apply IHtoken in F. destruct F as (F & [(_ & X)|X]); auto.
Qed.

Lemma text_from : forall args style pl t pl', text style pl t pl' -> from args pl -> from args pl'.
Proof.
  intros args style. induction 1; cbn [from] in *; intros F;
    try (apply from_cons in F; destruct F as (_ & F); exact F); try exact F.
  destruct F as (F & _). exact F.
Qed.

Section Total.
Variables (p q : parser_data).
Hypothesis H : finish_parser p = Val q.
Let cfg := d_settings q.
Let top := d_command q.
Hypothesis Io : s_ignore_options cfg = true.
Variable args : list str.

Definition fine (e : ending) : Prop := forall f l, e = AtUnknown f l -> flag_in_group args f.

Lemma plain_skims : forall only c pl t pl', plain cfg only pl t pl' -> within top c ->
  (forall only d, within top d -> exists is subs e, skimming cfg only d pl' is subs e /\ fine e) ->
  exists is subs e, skimming cfg only c pl is subs e /\ fine e.
Proof.
  intros only c pl t pl' P W X.
  destruct (c_commands c) as [|d0 ds] eqn:C.
  { destruct (X only c W) as (ws & subs & e & Rd & Fe). eexists _, _, _. split; [|exact Fe]. eapply sk_positional; eassumption. }
  destruct (named_decides q c t) as [(d & Fd)|Nd].
  - destruct (X false d (named_within q _ _ _ W Fd)) as (ws & subs & e & Rd & Fe). eexists _, _, _. split; [|exact Fe].
    eapply sk_command; eassumption.
  - eexists _, _, _. split; [eapply sk_no_command; [exact P|congruence|exact Nd]|intros f l E; discriminate E].
Qed.

Ltac ends := intros ? ? ?; discriminate.

Lemma skimming_total : forall n only c pl, place_weight pl < n -> proper_place pl -> depends q pl -> from args pl ->
  within top c -> exists is subs e, skimming cfg only c pl is subs e /\ fine e.
Proof.
  induction n as [|n IH]; intros only c pl L Pp D Fm W; [lia|]. destruct only.
  - destruct (text_total (s_style cfg) pl Pp) as [Nt|(t & pl' & T & Pp' & L')].
    { eexists _, _, _. split; [apply sk_end_only; exact Nt|ends]. }
    eapply plain_skims; [exact T|exact W|]. intros on d Wd.
    apply IH; auto; [lia|eapply depends_text; eassumption|eapply text_from; eassumption].
  - destruct (token_total (s_style cfg) pl Pp) as [Nt|(t & pl' & T & Pp' & L')].
    { eexists _, _, _. split; [apply sk_end; exact Nt|ends]. }
    pose proof (depends_token q _ _ _ D T) as D'. destruct (token_from args _ _ _ _ T Fm) as (Fm' & Gr).
    destruct (looks_dec (s_style cfg) t) as [Lo|Nl].
    2:{ eapply plain_skims; [exact (conj T Nl)|exact W|]. intros on d Wd. apply IH; auto; lia. }
    pose proof (depends_flag q _ _ _ c D T W) as De.
    destruct (found_decides p q H c t W De) as [(o & Ch)|Un].
    2:{ destruct Gr as [(Ng & a & El)|Gr].
        - destruct (IH false c pl') as (is & subs & e & Rd & Fe); auto; [lia|]. eexists _, _, _. split; [|exact Fe].
          eapply sk_ignored; [|exact Rd]. split; [exact Io|]. split; [exact Ng|]. split; [exact El|].
          exists t. split; [exact T|]. split; [exact Lo|]. split; [exact De|exact Un].
        - eexists _, _, _. split; [eapply sk_unknown; eassumption|]. intros f l E. injection E as <- _. exact Gr. }
    pose proof (conj T (conj Lo Ch) : flag cfg c pl t o pl') as Fl.
    assert (V : (takes_value o /\ no_text pl') \/ exists v pl'', takes (s_style cfg) o pl' v pl'' /\
                proper_place pl'' /\ place_weight pl'' <= place_weight pl' /\ depends q pl'' /\ from args pl'').
    { destruct (takes_value_dec o) as [Tv|Nv].
      - destruct (text_total (s_style cfg) pl' Pp') as [Nt|(v & pl'' & Tx & Pp'' & L'')]; [left; auto|].
        right. exists v, pl''. split; [left; auto|]. split; [exact Pp''|]. split; [lia|].
        split; [eapply depends_text; eassumption|eapply text_from; eassumption].
      - right. exists [], pl'. split; [right; auto|]. auto. }
    destruct V as [(Tv & Nt)|(v & pl'' & Tk & Pp'' & L'' & D'' & Fm'')];
      [eexists _, _, _; split; [eapply sk_no_value; eassumption|ends]|].
    assert (Go : forall on, exists is subs e, skimming cfg on c pl'' is subs e /\ fine e) by (intros on; apply IH; auto; lia).
    destruct (o_type o) eqn:Ty.
    + destruct (Go false) as (ws & subs & e & Rd & Fe). eexists _, _, _. split; [eapply sk_option; eassumption|exact Fe].
    + eexists _, _, _. split; [eapply sk_stop; eauto|ends].
    + eexists _, _, _. split; [eapply sk_stop; eauto|ends].
    + eexists _, _, _. split; [eapply sk_stop; eauto|ends].
    + eexists _, _, _. split; [eapply sk_last_argument; eassumption|ends].
    + destruct (Go true) as (ws & subs & e & Rd & Fe). eexists _, _, _. split; [eapply sk_last_option; eassumption|exact Fe].
Qed.

Lemma skims_total : dependable_line cfg top args ->
  exists is subs e, skimming cfg false top (Fresh args) is subs e /\ fine e.
Proof.
  intros D. apply (skimming_total (S (weight args))); [simpl; lia|exact Logic.I|exact D|exact (incl_refl args)|constructor].
Qed.
End Total.

(* ------------------------------------------------------------------------ *)
(** ** The command line without the ignored arguments *)

Definition at_rest (pl : place) : list str :=
  match pl with Fresh r | After r | Group _ r | Attached _ r => r end.
Definition with_rest (pl : place) (r : list str) : place :=
  match pl with
  | Fresh _ => Fresh r
  | After _ => After r
  | Group g _ => Group g r
  | Attached v _ => Attached v r
  end.

Lemma with_own : forall pl, with_rest pl (at_rest pl) = pl.
Proof. destruct pl; reflexivity. Qed.

Lemma token_with : forall style pl t pl', token style pl t pl' ->
  exists used, at_rest pl = used ++ at_rest pl' /\ length used <= 1 /\
    forall r, token style (with_rest pl (used ++ r)) t (with_rest pl' r).
Proof.
  intros style. induction 1; cbn [at_rest with_rest] in *.
  - destruct IHtoken as (u & E & Nu & X). exists u. split; [exact E|]. split.
    + exact Nu.
    + intros r. apply tok_fresh. apply X.
  - exists [a]. split; [reflexivity|]. split; [cbn; lia|]. intros r. apply tok_short. assumption.
  - exists [a]. split; [reflexivity|]. split; [cbn; lia|]. intros r. apply tok_plain. assumption.
  - exists [long_prefix style ++ n]. split; [reflexivity|]. split; [cbn; lia|]. intros r. apply tok_long. assumption.
  - exists [long_prefix style ++ n ++ "="%char :: v]. split; [reflexivity|]. split; [cbn; lia|]. intros r. apply tok_long_value; assumption.
  - exists ["-"%char :: x :: g]. split; [reflexivity|]. split; [cbn; lia|]. intros r. apply tok_group; assumption.
  - exists []. split; [reflexivity|]. split; [cbn; lia|]. intros r. apply tok_in_group. assumption.
  - exists []. split; [reflexivity|]. split; [cbn; lia|]. intros r. apply tok_last_in_group.
  - destruct IHtoken as (u & E & Nu & X). exists u. split; [exact E|]. split.
    + exact Nu.
    + intros r. apply tok_unused_value. apply X.
Qed.

Lemma token_empty : forall style pl t pl', token style pl t pl' ->
  match pl with Group _ _ => False | _ => True end -> hd_error (at_rest pl) = Some [] -> t = [].
Proof.
  intros style. induction 1; cbn [at_rest hd_error] in *; intros Ng E; try contradiction; auto;
    injection E as E; try exact E; try discriminate; destruct style; discriminate.
Qed.

Lemma text_with : forall style pl t pl', text style pl t pl' ->
  exists used, at_rest pl = used ++ at_rest pl' /\
    forall r, (hd_error (at_rest pl') = Some [] -> hd_error r = Some []) ->
      text style (with_rest pl (used ++ r)) t (with_rest pl' r).
Proof.
  intros style. induction 1; cbn [at_rest with_rest] in *.
  - exists [a]. split; [reflexivity|]. intros r _. constructor.
  - exists [a]. split; [reflexivity|]. intros r _. constructor. assumption.
  - exists [a]. split; [reflexivity|]. intros r _. constructor; assumption.
  - exists []. split; [reflexivity|]. intros r X. specialize (X eq_refl). destruct r as [|y r]; [discriminate|].
    injection X as ->. apply txt_repeated. assumption.
  - exists []. split; [reflexivity|]. intros r _. constructor.
  - exists []. split; [reflexivity|]. intros r _. constructor.
Qed.

Lemma woven_cat : forall used xs ys all, woven xs ys all -> woven (used ++ xs) ys (used ++ all).
Proof. induction used; intros; [assumption|]. apply wv_left. auto. Qed.
Lemma woven_all : forall xs, woven xs [] xs.
Proof. induction xs; constructor; assumption. Qed.

Definition keeps_empty (all r : list str) : Prop := hd_error all = Some [] -> hd_error r = Some [].
Lemma keeps_cat : forall used all r, keeps_empty all r -> keeps_empty (used ++ all) (used ++ r).
Proof. intros [|u used] all r X; [exact X|]. intros Y. exact Y. Qed.

(** Before a token it does not matter what kind of place it is. *)
Definition loose (pl pl2 : place) : Prop :=
  match pl, pl2 with
  | Group _ _, _ | _, Group _ _ => False
  | _, _ => at_rest pl = at_rest pl2
  end.
Lemma token_after : forall style pl r t pl', token style pl t pl' -> loose pl (After r) -> token style (After r) t pl'.
Proof.
  intros style pl r t pl' T. induction T; cbn [loose at_rest] in *; intros L; try contradiction; try rewrite <- L.
  - exact T.
  - apply tok_short; assumption.
  - apply tok_plain; assumption.
  - apply tok_long; assumption.
  - apply tok_long_value; assumption.
  - apply tok_group; assumption.
  - exact T.
Qed.
Lemma token_loose : forall style pl pl2 t pl', loose pl pl2 -> token style pl t pl' -> token style pl2 t pl'.
Proof.
  intros style pl pl2 t pl' L T.
  assert (A : token style (After (at_rest pl2)) t pl').
  { eapply token_after; [exact T|]. destruct pl, pl2; cbn in *; try contradiction; exact L. }
  destruct pl2; cbn [at_rest] in A; [apply tok_fresh; exact A|exact A|destruct pl; contradiction|apply tok_unused_value; exact A].
Qed.
Lemma no_token_loose : forall pl pl2, loose pl pl2 -> no_token pl -> no_token pl2.
Proof.
  intros pl pl2 L N. assert (Z : at_rest pl2 = []).
  { destruct N as [[->| ->]|(v & ->)]; destruct pl2; cbn in *; try contradiction; congruence. }
  destruct pl2; cbn in Z; subst; [left; right; reflexivity|left; left; reflexivity| |right; eauto].
  destruct pl; contradiction.
Qed.

Lemma reading_loose : forall cfg c pl pl2 ws subs e, loose pl pl2 ->
  reading cfg false c pl ws subs e -> reading cfg false c pl2 ws subs e.
Proof.
  intros cfg c pl pl2 ws subs e L Rd.
  assert (T : forall style t pl', token style pl t pl' -> token style pl2 t pl') by (intros; eapply token_loose; eassumption).
  assert (P : forall t pl', plain cfg false pl t pl' -> plain cfg false pl2 t pl').
  { intros t pl' (X & Y). split; [apply T; exact X|exact Y]. }
  assert (F : forall t o pl', flag cfg c pl t o pl' -> flag cfg c pl2 t o pl').
  { intros t o pl' (X & Y). split; [apply T; exact X|exact Y]. }
  inversion Rd; subst.
  - apply rd_end. eapply no_token_loose; eassumption.
  - eapply rd_positional; eauto.
  - eapply rd_option; eauto.
  - eapply rd_last_option; eauto.
  - eapply rd_last_argument; eauto.
  - eapply rd_stop; eauto.
  - eapply rd_command; eauto.
  - eapply rd_no_command; eauto.
  - eapply rd_unknown; eauto.
  - eapply rd_no_value; eauto.
Qed.

Section Without.
Variable cfg : settings.

Lemma plain_with : forall only pl t pl', plain cfg only pl t pl' ->
  exists used, at_rest pl = used ++ at_rest pl' /\
    forall r, keeps_empty (at_rest pl') r -> plain cfg only (with_rest pl (used ++ r)) t (with_rest pl' r).
Proof.
  intros [|] pl t pl' P.
  - destruct (text_with _ _ _ _ P) as (u & E & X). exists u. split; [exact E|exact X].
  - destruct P as (T & N). destruct (token_with _ _ _ _ T) as (u & E & _ & X). exists u. split; [exact E|]. intros r _.
    split; [apply X|exact N].
Qed.

Lemma option_with : forall c pl t o pl' v pl'', flag cfg c pl t o pl' -> takes (s_style cfg) o pl' v pl'' ->
  exists used used', at_rest pl = used ++ used' ++ at_rest pl'' /\
    forall r, keeps_empty (at_rest pl'') r ->
      flag cfg c (with_rest pl (used ++ used' ++ r)) t o (with_rest pl' (used' ++ r)) /\
      takes (s_style cfg) o (with_rest pl' (used' ++ r)) v (with_rest pl'' r).
Proof.
  intros c pl t o pl' v pl'' (T & N) Ta. destruct (token_with _ _ _ _ T) as (u & E & _ & X).
  destruct Ta as [(Tv & Tx)|(Nv & -> & ->)].
  - destruct (text_with _ _ _ _ Tx) as (u' & E' & X'). exists u, u'. rewrite E, E'. split; [reflexivity|].
    intros r K. split; [split; [apply X|exact N]|]. left. split; [exact Tv|apply X'; exact K].
  - exists u, []. split; [exact E|]. intros r _. split; [split; [apply X|exact N]|]. right. auto.
Qed.

Lemma ignored_none : forall c, all_ignored [(c, [])] = [].
Proof. reflexivity. Qed.

Lemma skim_without : forall only c pl is subs e, skimming cfg only c pl is subs e ->
  exists r, reading cfg only c (with_rest pl r) (words is) (map words_of subs) e /\
    woven r (all_ignored ((c, is) :: subs)) (at_rest pl) /\ keeps_empty (at_rest pl) r.
Proof.
  assert (Own : forall only c pl is e, reading cfg only c pl (words is) [] e -> ignored is = [] ->
    exists r, reading cfg only c (with_rest pl r) (words is) [] e /\
      woven r (all_ignored [(c, is)]) (at_rest pl) /\ keeps_empty (at_rest pl) r).
  { intros only c pl is e Rd Z. exists (at_rest pl). rewrite with_own. split; [exact Rd|].
    unfold all_ignored. cbn [flat_map snd]. rewrite Z. split; [apply woven_all|intros X; exact X]. }
  intros only c pl is subs e Sk.
  induction Sk as [c pl a pl' is subs e Ia Rd IH|c pl Np|c pl Np|only c pl t pl' is subs e Pt Cm Rd IH|c pl t o pl' v pl'' is subs e Fl Ta Ty Rd IH
    |c pl t o pl' v pl'' is subs e Fl Ta Ty Rd IH|c pl t o pl' v pl'' Fl Ta Ty|c pl t o pl' v pl'' Fl Ta Ty
    |only c pl t pl' d is subs e Pt Fn Rd IH|only c pl t pl' Pt Nc Nn|c pl t pl' Tk Lk Dp Un|c pl t o pl' Fl Tv Nt];
    cbn [map].
  - destruct IH as (r & R & Wv & K). destruct Ia as (_ & Ng & El & t & Tk & Lk & _).
    destruct (token_with _ _ _ _ Tk) as (u & E & Nu & _).
    assert (Np : left_at pl = at_rest pl) by (destruct pl; [reflexivity..|contradiction|reflexivity]).
    assert (X : at_rest pl = a :: at_rest pl' /\ match pl' with Group _ _ => False | _ => True end).
    { rewrite Np in El. destruct pl' as [r'|r'|g r'|v r']; cbn [left_at at_rest] in *; auto.
      exfalso. assert (L : length (u ++ r') = S (S (length r'))) by (rewrite <- E, El; reflexivity).
      rewrite app_length in L. lia. }
    destruct X as (Ea & Ng').
    exists r. split; [|split].
    + eapply reading_loose; [|exact R]. destruct pl, pl'; cbn in *; try contradiction; reflexivity.
    + rewrite Ea. apply wv_right. exact Wv.
    + intros Z. exfalso. pose proof (token_empty _ _ _ _ Tk Ng Z) as ->. destruct Lk as (? & ? & Lk). discriminate Lk.
  - apply Own; [apply rd_end; exact Np|reflexivity].
  - apply Own; [apply rd_end_only; exact Np|reflexivity].
  - destruct IH as (r & R & Wv & K). destruct (plain_with _ _ _ _ Pt) as (u & E & X). exists (u ++ r). rewrite E.
    split; [eapply rd_positional; [apply X; exact K|exact Cm|exact R]|]. split; [apply woven_cat; exact Wv|apply keeps_cat; exact K].
  - destruct IH as (r & R & Wv & K). destruct (option_with _ _ _ _ _ _ _ Fl Ta) as (u & u' & E & X). exists (u ++ u' ++ r). rewrite E.
    destruct (X r K) as (Fl' & Ta').
    split; [eapply rd_option; [exact Fl'|exact Ta'|exact Ty|exact R]|]. split; [do 2 apply woven_cat; exact Wv|do 2 apply keeps_cat; exact K].
  - destruct IH as (r & R & Wv & K). destruct (option_with _ _ _ _ _ _ _ Fl Ta) as (u & u' & E & X). exists (u ++ u' ++ r). rewrite E.
    destruct (X r K) as (Fl' & Ta').
    split; [eapply rd_last_option; [exact Fl'|exact Ta'|exact Ty|exact R]|]. split; [do 2 apply woven_cat; exact Wv|do 2 apply keeps_cat; exact K].
  - apply Own; [eapply rd_last_argument; eassumption|reflexivity].
  - apply Own; [eapply rd_stop; eassumption|reflexivity].
  - destruct IH as (r & R & Wv & K). destruct (plain_with _ _ _ _ Pt) as (u & E & X). exists (u ++ r). rewrite E.
    split; [eapply rd_command; [apply X; exact K|exact Fn|exact R]|]. split; [apply woven_cat; exact Wv|apply keeps_cat; exact K].
  - apply Own; [eapply rd_no_command; eassumption|reflexivity].
  - apply Own; [eapply rd_unknown; eassumption|reflexivity].
  - apply Own; [eapply rd_no_value; eassumption|reflexivity].
Qed.
End Without.

(* ------------------------------------------------------------------------ *)
(** ** What filter_parsed_arguments leaves *)

Lemma woven_right : forall xs ys all, woven xs ys all -> subsequence ys all.
Proof. induction 1; constructor; assumption. Qed.
Lemma subsequence_front : forall (A : Type) (k k' l : list A), subsequence (k ++ k') l -> subsequence k l.
Proof.
  intros A k k' l S0. remember (k ++ k') as m eqn:E. revert k E. induction S0 as [l|x m l S0 IH|x m l S0 IH]; intros k E.
  - destruct k; [constructor|discriminate].
  - destruct k as [|y k]; [constructor|]. injection E as -> ->. constructor. auto.
  - constructor. auto.
Qed.

Lemma skim_ignored : forall cfg top args is subs e, skimming cfg false top (Fresh args) is subs e ->
  subsequence (ignored is) args.
Proof.
  intros cfg top args is subs e Sk. destruct (skim_without cfg _ _ _ _ _ _ Sk) as (r & _ & Wv & _).
  apply woven_right in Wv. unfold all_ignored in Wv. cbn [flat_map snd] in Wv. eapply subsequence_front. exact Wv.
Qed.
