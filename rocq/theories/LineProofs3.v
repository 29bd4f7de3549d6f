(** Command lines that are put together (C06, C72). *)
From Verif Require Import Base BaseProofs MStrings MOptIter MData MCounter MValues MParser
  SStrings SIndex SDef SValues SCounter SParser SStep SLook SEquiv SApi SLine
  LineProofs LineProofs2.
Open Scope nat_scope.

Definition place_app (pl : place) (more : list str) : place :=
  match pl with
  | Fresh a => Fresh (a ++ more)
  | After a => After (a ++ more)
  | Group g r => Group g (r ++ more)
  | Attached v r => Attached v (r ++ more)
  end.

Lemma token_app : forall style pl t pl' more, token style pl t pl' ->
  token style (place_app pl more) t (place_app pl' more).
Proof.
  intros style pl t pl' more T. induction T; cbn [place_app app] in *; try (constructor; assumption).
Qed.

Lemma text_app : forall style pl t pl' more, text style pl t pl' ->
  text style (place_app pl more) t (place_app pl' more).
Proof. intros style pl t pl' more T. destruct T; cbn [place_app app]; constructor; assumption. Qed.

Lemma takes_app : forall style o pl v pl' more, takes style o pl v pl' ->
  takes style o (place_app pl more) v (place_app pl' more).
Proof.
  intros style o pl v pl' more [(A & T)|(A & -> & ->)]; [left; split; [exact A|apply text_app; exact T]|right; auto].
Qed.

Lemma flag_app : forall cfg c pl t o pl' more, flag cfg c pl t o pl' ->
  flag cfg c (place_app pl more) t o (place_app pl' more).
Proof. intros cfg c pl t o pl' more (T & L & C). split; [apply token_app; exact T|auto]. Qed.

Lemma plain_app : forall cfg only pl t pl' more, plain cfg only pl t pl' ->
  plain cfg only (place_app pl more) t (place_app pl' more).
Proof.
  intros cfg [] pl t pl' more P; [apply text_app; exact P|]. destruct P as (T & N). split; [apply token_app; exact T|exact N].
Qed.

(** Only the tokens matter at the beginning. *)
Lemma reading_same : forall cfg c pl pl2 ws subs e,
  (forall t pl', token (s_style cfg) pl t pl' -> token (s_style cfg) pl2 t pl') -> (no_token pl -> no_token pl2) ->
  reading cfg false c pl ws subs e -> reading cfg false c pl2 ws subs e.
Proof.
  intros cfg c pl pl2 ws subs e T N Rd.
  assert (Fl : forall t o pl', flag cfg c pl t o pl' -> flag cfg c pl2 t o pl') by (intros t o pl' (A & B); split; auto).
  assert (Pl : forall t pl', plain cfg false pl t pl' -> plain cfg false pl2 t pl') by (intros t pl' (A & B); split; auto).
  inversion Rd; subst.
  - apply rd_end. auto.
  - eapply rd_positional; eauto.
  - eapply rd_option; eauto.
  - eapply rd_last_option; eauto.
  - eapply rd_last_argument; eauto.
  - eapply rd_stop; eauto.
  - eapply rd_command; eauto.
  - eapply rd_no_command; eauto.
  - eapply rd_unknown; eauto.
  - eapply rd_no_value; eauto.
Qed.

Lemma reading_at_end : forall cfg c pl more ws subs e, no_token pl ->
  reading cfg false c (Fresh more) ws subs e -> reading cfg false c (place_app pl more) ws subs e.
Proof.
  intros cfg c pl more ws subs e N. apply reading_same.
  - intros t pl' T. inversion T; subst. destruct N as [[->| ->]|(v & ->)]; cbn [place_app app].
    + assumption.
    + exact T.
    + apply tok_unused_value. assumption.
  - intros X. assert (more = []) as -> by (destruct X as [[X|X]|(v & X)]; try discriminate X; injection X as ->; reflexivity).
    destruct N as [[->| ->]|(v & ->)]; cbn [place_app app]; [left; left|left; right|right; exists v]; reflexivity.
Qed.

Lemma reading_app : forall cfg only c pl ws subs e, reading cfg only c pl ws subs e ->
  only = false -> e = AtEnd -> no_last_option ((c, ws) :: subs) ->
  forall front cl wl more ws' subs' e', (c, ws) :: subs = front ++ [(cl, wl)] ->
  reading cfg false cl (Fresh more) ws' subs' e' ->
  exists ws2 subs2, reading cfg false c (place_app pl more) ws2 subs2 e' /\
    (c, ws2) :: subs2 = front ++ (cl, wl ++ ws') :: subs'.
Proof.
  assert (Step : forall (c : cmd_data) (w : word) ws subs front cl wl, (c, w :: ws) :: subs = front ++ [(cl, wl)] ->
    exists front' wl', (c, ws) :: subs = front' ++ [(cl, wl')] /\
      forall ws2 subs2 ws' (subs' : list (cmd_data * list word)), (c, ws2) :: subs2 = front' ++ (cl, wl' ++ ws') :: subs' ->
        (c, w :: ws2) :: subs2 = front ++ (cl, wl ++ ws') :: subs').
  { intros c w ws subs [|x front] cl wl E; cbn [app] in E.
    - injection E as <- <- ->. exists [], ws. split; [reflexivity|]. intros ws2 subs2 ws' subs' X. injection X as -> ->. reflexivity.
    - injection E as <- ->. exists ((c, ws) :: front), wl. split; [reflexivity|]. intros ws2 subs2 ws' subs' X.
      injection X as -> ->. reflexivity. }
  assert (Nl : forall (c : cmd_data) w ws subs, no_last_option ((c, w :: ws) :: subs) -> no_last_option ((c, ws) :: subs)).
  { intros c w ws subs N c' ws' o v [E|I] Iw; [injection E as -> ->; exact (N c' (w :: ws') o v (or_introl eq_refl) (or_intror Iw))|].
    exact (N c' ws' o v (or_intror I) Iw). }
  induction 1; intros Eo Ee N front cl wl more ws' subs' e' Es Rd'; try discriminate.
  - destruct front as [|x front]; [|destruct front; discriminate]. injection Es as <- <-.
    exists ws', subs'. split; [apply reading_at_end; assumption|reflexivity].
  - destruct (Step _ _ _ _ _ _ _ Es) as (f' & w' & Es' & Re).
    destruct (IHreading Eo Ee (Nl _ _ _ _ N) _ _ _ _ _ _ _ Es' Rd') as (ws2 & subs2 & R2 & E2).
    subst only. eexists _, _. split; [eapply rd_positional; [apply plain_app; eassumption|assumption|exact R2]|]. exact (Re _ _ _ _ E2).
  - destruct (Step _ _ _ _ _ _ _ Es) as (f' & w' & Es' & Re).
    destruct (IHreading Eo Ee (Nl _ _ _ _ N) _ _ _ _ _ _ _ Es' Rd') as (ws2 & subs2 & R2 & E2).
    eexists _, _. split; [eapply rd_option; [apply flag_app; eassumption|apply takes_app; eassumption|assumption|exact R2]|].
    exact (Re _ _ _ _ E2).
  - exfalso. exact (N c _ o v (or_introl eq_refl) (or_introl eq_refl) ltac:(assumption)).
  - destruct front as [|x front]; [destruct subs; discriminate Es|]. cbn [app] in Es. injection Es as <- Es.
    destruct (IHreading eq_refl Ee) with (front := front) (cl := cl) (wl := wl) (more := more) (ws' := ws') (subs' := subs') (e' := e')
      as (ws2 & subs2 & R2 & E2); auto.
    { intros c' w' o' v' I Iw. exact (N c' w' o' v' (or_intror I) Iw). }
    subst only. eexists _, _. split; [eapply rd_command; [apply plain_app; eassumption|eassumption|exact R2]|].
    cbn [app]. rewrite E2. reflexivity.
Qed.

(** After a LAST_OPTION option. *)
Lemma only_reading : forall cfg c rest, c_commands c = [] ->
  reading cfg true c (After rest) (map Positional (verbatim (s_style cfg) rest)) [] AtEnd.
Proof.
  intros cfg c rest C. induction rest as [|a rest IH].
  - destruct (s_style cfg); cbn; apply rd_end_only; left; reflexivity.
  - assert (D : s_style cfg = STANDARD \/ s_style cfg <> STANDARD) by (destruct (s_style cfg); auto; right; discriminate).
    destruct D as [D|D].
    + rewrite D in *. cbn [verbatim map] in *. eapply rd_positional; [cbn; rewrite D; apply txt_argument; reflexivity|exact C|exact IH].
    + assert (E : verbatim (s_style cfg) (a :: rest) = a :: [] :: verbatim (s_style cfg) rest) by (destruct (s_style cfg); [contradiction|reflexivity|reflexivity]).
      rewrite E. cbn [map]. destruct a as [|x a].
      * eapply rd_positional; [cbn; apply txt_repeated; exact D|exact C|].
        eapply rd_positional; [cbn; apply txt_fresh|exact C|exact IH].
      * eapply rd_positional; [cbn; apply txt_followed; [exact D|discriminate]|exact C|].
        eapply rd_positional; [cbn; apply txt_attached|exact C|exact IH].
Qed.

Lemma last_option_reading : forall cfg c f o rest, c_commands c = [] -> flag cfg c (After [f]) f o (After []) ->
  o_type o = OT_LAST_OPTION -> ~ takes_value o ->
  reading cfg false c (Fresh (f :: rest)) (Optional o [] :: map Positional (verbatim (s_style cfg) rest)) [] AtEnd.
Proof.
  intros cfg c f o rest C Fl Ty Nv. apply (flag_app _ _ _ _ _ _ rest) in Fl. cbn [place_app app] in Fl.
  destruct Fl as (T & L & Ch).
  eapply rd_last_option; [split; [apply tok_fresh; exact T|split; [exact L|exact Ch]]|right; auto|exact Ty|].
  apply only_reading. exact C.
Qed.

Lemma line_app : forall cfg top args ws subs front c wl more ws' subs' e',
  reading cfg false top (Fresh args) ws subs AtEnd -> no_last_option ((top, ws) :: subs) ->
  (top, ws) :: subs = front ++ [(c, wl)] -> reading cfg false c (Fresh more) ws' subs' e' ->
  exists ws2 subs2, reading cfg false top (Fresh (args ++ more)) ws2 subs2 e' /\
    (top, ws2) :: subs2 = front ++ (c, wl ++ ws') :: subs'.
Proof.
  intros cfg top args ws subs front c wl more ws' subs' e' R N E R'.
  exact (reading_app cfg false top (Fresh args) ws subs AtEnd R eq_refl eq_refl N front c wl more ws' subs' e' E R').
Qed.

Section Together.
Variables (p q : parser_data).
Hypothesis H : finish_parser p = Val q.
Let cfg := d_settings q.
Let top := d_command q.
Hypothesis Rg : regular cfg top.

Lemma together : forall args ws subs front c wl more ws' subs' e' left hs,
  reading cfg false top (Fresh args) ws subs AtEnd -> no_last_option ((top, ws) :: subs) ->
  (top, ws) :: subs = front ++ [(c, wl)] -> reading cfg false c (Fresh more) ws' subs' e' ->
  all_foreseen cfg (front ++ (c, wl ++ ws') :: subs') -> left_of e' = Some left ->
  all_acceptable (at_first top) (front ++ (c, wl ++ ws') :: subs') hs ->
  succeeds cfg top (args ++ more) hs left.
Proof.
  intros args ws subs front c wl more ws' subs' e' left hs R N E R' F L A.
  destruct (line_app _ _ _ _ _ _ _ _ _ _ _ _ R N E R') as (ws2 & subs2 & R2 & E2). rewrite <- E2 in F, A.
  destruct Rg as (Sd & Hn & Hi & Ig & One).
  exact (line_success p q H Sd Hn Hi Ig One _ _ _ _ R2 F left hs L A).
Qed.

Lemma verbatim_line : forall args ws subs front c wl f o rest hs,
  reading cfg false top (Fresh args) ws subs AtEnd -> no_last_option ((top, ws) :: subs) ->
  (top, ws) :: subs = front ++ [(c, wl)] -> c_commands c = [] ->
  flag cfg c (After [f]) f o (After []) -> o_type o = OT_LAST_OPTION -> ~ takes_value o ->
  let segs := front ++ [(c, wl ++ Optional o [] :: map Positional (verbatim (s_style cfg) rest))] in
  all_foreseen cfg segs -> all_acceptable (at_first top) segs hs ->
  succeeds cfg top (args ++ f :: rest) hs [].
Proof.
  intros args ws subs front c wl f o rest hs R N E C Fl Ty Nv segs F A.
  exact (together args ws subs front c wl (f :: rest) _ [] AtEnd [] hs R N E
    (last_option_reading cfg c f o rest C Fl Ty Nv) F eq_refl A).
Qed.
End Together.
