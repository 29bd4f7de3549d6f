(** Every command line can be read (C71), and what follows from it. *)
From Verif Require Import Base BaseProofs MStrings MOptIter MData MCounter MValues MParser
  SIndex SDef SValues SCounter SParser SStep SLook SEquiv SApi SLine SStrings
  IndexProofs DefProofs FinishProofs InvProofs NextProofs ParseProofs StepProofs StepProofs2 LineProofs.
Open Scope nat_scope.

(* ------------------------------------------------------------------------ *)
(** ** Readings *)

Definition weight (args : list str) : nat := fold_right (fun a n => length a + 3 + n) 0 args.
Definition place_weight (pl : place) : nat :=
  match pl with
  | Fresh args => weight args
  | After rest => 1 + weight rest
  | Group g rest => 1 + length g + weight rest
  | Attached _ rest => 2 + weight rest
  end.
Definition proper_place (pl : place) : Prop := match pl with Group g _ => g <> [] | _ => True end.

Lemma split_eq : forall (a : str), ~ In "="%char a \/ exists n v, a = n ++ "="%char :: v /\ ~ In "="%char n.
Proof.
  induction a as [|x a [IH|(n & v & -> & IH)]].
  - left. intros [].
  - destruct (ascii_dec x "="%char) as [->|Ne]; [right; exists [], a; auto|]. left. intros [E|I]; auto.
  - right. destruct (ascii_dec x "="%char) as [->|Ne]; [exists [], (n ++ "="%char :: v); auto|].
    exists (x :: n), v. split; [reflexivity|]. intros [E|I]; auto.
Qed.

Lemma after_total : forall style args, args = [] \/
  exists t pl, token style (After args) t pl /\ proper_place pl /\ place_weight pl < weight args.
Proof.
  intros style [|a rest]; [left; reflexivity|]. right.
  destruct (le_lt_dec (length a) 2) as [L|L].
  { exists a, (After rest). split; [apply tok_short; exact L|]. split; [exact Logic.I|]. simpl. lia. }
  destruct a as [|x a]; [simpl in L; lia|].
  destruct (ascii_dec x (style_prefix style)) as [->|Ne].
  2:{ exists (x :: a), (After rest). split; [apply tok_plain; intros E; injection E as E; contradiction|].
      split; [exact Logic.I|]. simpl. lia. }
  assert (Long : forall n, (style_prefix style :: a) = long_prefix style ++ n -> exists t pl,
    token style (After ((style_prefix style :: a) :: rest)) t pl /\ proper_place pl /\
    place_weight pl < weight ((style_prefix style :: a) :: rest)).
  { intros n E. rewrite E in L |- *. destruct (split_eq n) as [Ni|(m & v & -> & Ni)].
    - eexists _, (After rest). split; [apply tok_long; exact Ni|]. split; [exact Logic.I|]. simpl. lia.
    - eexists _, (Attached v rest). split; [apply tok_long_value; assumption|]. split; [exact Logic.I|]. simpl. lia. }
  destruct style; [|exact (Long a eq_refl)|exact (Long a eq_refl)].
  destruct a as [|y a]; [simpl in L; lia|]. destruct (ascii_dec y "-"%char) as [->|Ny]; [exact (Long a eq_refl)|].
  exists ["-"%char; y], (Group a rest). assert (Na : a <> []) by (destruct a; [simpl in L; lia|discriminate]).
  split; [apply tok_group; [reflexivity|exact Ny|exact Na]|]. split; [exact Na|]. simpl. lia.
Qed.

Lemma token_total : forall style pl, proper_place pl -> no_token pl \/
  exists t pl', token style pl t pl' /\ proper_place pl' /\ place_weight pl' < place_weight pl.
Proof.
  intros style pl Pp. destruct pl as [args|args|g rest|v rest].
  - destruct args as [|a r]; [left; left; right; reflexivity|].
    destruct (after_total style (a :: r)) as [E|(t & pl & T & P & W)]; [discriminate|].
    right. exists t, pl. split; [constructor; exact T|]. split; [exact P|]. exact W.
  - destruct (after_total style args) as [->|(t & pl & T & P & W)]; [left; left; left; reflexivity|].
    right. exists t, pl. cbn [place_weight]. repeat split; auto.
  - right. destruct g as [|x g]; [contradiction|]. destruct g as [|y g].
    + eexists _, (After rest). split; [apply tok_last_in_group|]. split; [exact Logic.I|]. simpl. lia.
    + eexists _, (Group (y :: g) rest). split; [apply tok_in_group; discriminate|]. split; [discriminate|]. simpl. lia.
  - destruct (after_total style rest) as [->|(t & pl & T & P & W)]; [left; right; eauto|].
    right. exists t, pl. split; [apply tok_unused_value; exact T|]. split; [exact P|]. cbn [place_weight]. lia.
Qed.

Lemma text_total : forall style pl, proper_place pl -> no_text pl \/
  exists t pl', text style pl t pl' /\ proper_place pl' /\ place_weight pl' < place_weight pl.
Proof.
  intros style pl Pp. destruct pl as [[|a r]|[|a r]|g rest|v rest].
  - left. right. reflexivity.
  - right. exists a, (After r). split; [constructor|]. split; [exact Logic.I|]. simpl. lia.
  - left. left. reflexivity.
  - right. assert (D : style = STANDARD \/ style <> STANDARD) by (destruct style; auto; right; discriminate).
    destruct D as [D|D]; [exists a, (After r); split; [constructor; exact D|]; split; [exact Logic.I|]; simpl; lia|].
    destruct a as [|x a].
    + exists [], (Fresh ([] :: r)). split; [constructor; exact D|]. split; [exact Logic.I|]. simpl. lia.
    + exists (x :: a), (Attached [] r). split; [constructor; [exact D|discriminate]|]. split; [exact Logic.I|]. simpl. lia.
  - right. exists g, (After rest). split; [constructor|]. split; [exact Logic.I|].
    destruct g; [contradiction|]. simpl. lia.
  - right. exists v, (After rest). split; [constructor|]. split; [exact Logic.I|]. simpl. lia.
Qed.

(** Tokens and texts are pieces of the arguments. *)
Definition safe_place (pl : place) : Prop :=
  match pl with
  | Fresh args | After args => Forall SStrings.safe args
  | Group g rest => SStrings.safe g /\ Forall SStrings.safe rest
  | Attached v rest => SStrings.safe v /\ Forall SStrings.safe rest
  end.

Lemma safe_app : forall a b, SStrings.safe (a ++ b) <-> SStrings.safe a /\ SStrings.safe b.
Proof.
  intros a b. unfold SStrings.safe. split.
  - intros X. split; intros c Ic; apply X; apply in_or_app; auto.
  - intros (X & Y) c Ic. apply in_app_or in Ic. destruct Ic; auto.
Qed.
Lemma safe_cons : forall x a, SStrings.safe (x :: a) <-> safe_byte x = true /\ SStrings.safe a.
Proof.
  intros x a. unfold SStrings.safe. split.
  - intros X. split; [apply X; left; reflexivity|]. intros c Ic. apply X. right. exact Ic.
  - intros (X & Y) c [<-|Ic]; auto.
Qed.
Lemma safe_nil : SStrings.safe [].
Proof. intros c []. Qed.

Lemma token_safe : forall style pl t pl', token style pl t pl' -> safe_place pl ->
  SStrings.safe t /\ safe_place pl'.
Proof.
  induction 1; cbn [safe_place] in *; intros Sp.
  - auto.
  - inversion Sp; subst. auto.
  - inversion Sp; subst. auto.
  - inversion Sp; subst. auto.
  - inversion Sp as [|? ? Sa Sr]; subst. rewrite !safe_app, safe_cons in *. destruct Sa as (A & B & C & D).
    pose proof safe_nil. tauto.
  - inversion Sp as [|? ? Sa Sr]; subst. rewrite !safe_cons in *. pose proof safe_nil. tauto.
  - rewrite !safe_cons in *. pose proof safe_nil. assert (safe_byte "-"%char = true) by reflexivity. tauto.
  - rewrite !safe_cons in *. pose proof safe_nil. assert (safe_byte "-"%char = true) by reflexivity. tauto.
  - apply IHtoken. tauto.
Qed.

Lemma text_safe : forall style pl t pl', text style pl t pl' -> safe_place pl ->
  SStrings.safe t /\ safe_place pl'.
Proof.
  pose proof safe_nil.
  induction 1; cbn [safe_place] in *; intros Sp; try (inversion Sp; subst; auto; fail); tauto.
Qed.

Section Total.
Variables (p q : parser_data).
Hypothesis H : finish_parser p = Val q.
Let cfg := d_settings q.
Let top := d_command q.

Lemma found_decides : forall c t, within top c -> dependable cfg c t ->
  (exists o, chooses cfg c t o) \/ unknown_option cfg c t.
Proof.
  intros c t W (D1 & D2). pose proof (finished_index_proof p q c H W) as B. fold cfg in B.
  destruct (find_option c t (s_abbreviations cfg) (s_case_insensitive cfg)) as [o|] eqn:F.
  - left. exists o. split; [split; assumption|]. apply (lookup_proof _ _ _ t (s_abbreviations cfg) o D1 D2 B). exact F.
  - right. intros o Se. apply (lookup_proof _ _ _ t (s_abbreviations cfg) o D1 D2 B) in Se. unfold find_option in F. rewrite Se in F. discriminate F.
Qed.

Lemma named_decides : forall c t, (exists d, first_named cfg c t d) \/ (forall d, ~ first_named cfg c t d).
Proof.
  intros c t. destruct (find_command c t (s_case_insensitive cfg)) as [d|] eqn:F.
  - left. exact (found_first q c t d F).
  - right. intros d Fn. apply (first_found q) in Fn. fold cfg in Fn. rewrite Fn in F. discriminate F.
Qed.

Lemma looks_dec : forall style t, looks_like_option style t \/ ~ looks_like_option style t.
Proof.
  intros style t. unfold looks_like_option. destruct t as [|x [|y r]]; [right; intros (? & ? & ?); discriminate|right; intros (? & ? & ?); discriminate|].
  destruct (ascii_dec x (match style with SLASH => "/" | _ => "-" end)%char) as [->|Ne]; [left; eauto|].
  right. intros (? & ? & E). injection E as E _ _. contradiction.
Qed.

Lemma takes_value_dec : forall o, takes_value o \/ ~ takes_value o.
Proof.
  intros o. unfold takes_value. destruct (o_constant o) eqn:C; [|right; intros (_ & ?); discriminate].
  destruct (o_operation o); auto; right; intros ([?|?] & _); discriminate.
Qed.

Lemma named_within : forall c t d, within top c -> first_named cfg c t d -> within top d.
Proof.
  intros c t d W (b & e & E & _). eapply within_sub; [exact W|]. rewrite E. apply in_or_app. right. left. reflexivity.
Qed.

Lemma plain_total : forall only c pl t pl', plain cfg only pl t pl' -> within top c ->
  (forall only d, within top d -> exists ws subs e, reading cfg only d pl' ws subs e) ->
  exists ws subs e, reading cfg only c pl ws subs e.
Proof.
  intros only c pl t pl' P W X.
  destruct (c_commands c) as [|d0 ds] eqn:C.
  { destruct (X only c W) as (ws & subs & e & Rd). eexists _, _, _. eapply rd_positional; eassumption. }
  destruct (named_decides c t) as [(d & Fd)|Nd].
  - destruct (X false d (named_within _ _ _ W Fd)) as (ws & subs & e & Rd). eexists _, _, _. eapply rd_command; eassumption.
  - eexists _, _, _. eapply rd_no_command; [exact P|congruence|exact Nd].
Qed.

Definition depends (pl : place) : Prop :=
  s_case_insensitive cfg = true -> (forall c, within top c -> safe_flags true (c_options c)) /\ safe_place pl.

Lemma depends_token : forall pl t pl', depends pl -> token (s_style cfg) pl t pl' -> depends pl'.
Proof. intros pl t pl' D T Ci. destruct (D Ci) as (A & B). split; [exact A|]. eapply token_safe; eassumption. Qed.
Lemma depends_text : forall pl t pl', depends pl -> text (s_style cfg) pl t pl' -> depends pl'.
Proof. intros pl t pl' D T Ci. destruct (D Ci) as (A & B). split; [exact A|]. eapply text_safe; eassumption. Qed.
Lemma depends_flag : forall pl t pl' c, depends pl -> token (s_style cfg) pl t pl' -> within top c -> dependable cfg c t.
Proof.
  intros pl t pl' c D T W. split.
  - intros Ci. destruct (D Ci) as (A & _). exact (A c W eq_refl).
  - intros Ci. destruct (D Ci) as (_ & B). eapply token_safe; eassumption.
Qed.

Lemma reading_total : forall n only c pl, place_weight pl < n -> proper_place pl -> depends pl -> within top c ->
  exists ws subs e, reading cfg only c pl ws subs e.
Proof.
  induction n as [|n IH]; intros only c pl L Pp D W; [lia|]. destruct only.
  - destruct (text_total (s_style cfg) pl Pp) as [Nt|(t & pl' & T & Pp' & L')].
    { eexists _, _, _. apply rd_end_only. exact Nt. }
    eapply plain_total; [exact T|exact W|]. intros on d Wd. apply IH; auto; [lia|]. eapply depends_text; eassumption.
  - destruct (token_total (s_style cfg) pl Pp) as [Nt|(t & pl' & T & Pp' & L')].
    { eexists _, _, _. apply rd_end. exact Nt. }
    pose proof (depends_token _ _ _ D T) as D'.
    destruct (looks_dec (s_style cfg) t) as [Lo|Nl].
    2:{ eapply plain_total; [exact (conj T Nl)|exact W|]. intros on d Wd. apply IH; auto; lia. }
    pose proof (depends_flag _ _ _ c D T W) as De.
    destruct (found_decides c t W De) as [(o & Ch)|Un]; [|eexists _, _, _; eapply rd_unknown; eassumption].
    pose proof (conj T (conj Lo Ch) : flag cfg c pl t o pl') as Fl.
    assert (V : (takes_value o /\ no_text pl') \/ exists v pl'', takes (s_style cfg) o pl' v pl'' /\
                proper_place pl'' /\ place_weight pl'' <= place_weight pl' /\ depends pl'').
    { destruct (takes_value_dec o) as [Tv|Nv].
      - destruct (text_total (s_style cfg) pl' Pp') as [Nt|(v & pl'' & Tx & Pp'' & L'')]; [left; auto|].
        right. exists v, pl''. split; [left; auto|]. split; [exact Pp''|]. split; [lia|]. eapply depends_text; eassumption.
      - right. exists [], pl'. split; [right; auto|]. auto. }
    destruct V as [(Tv & Nt)|(v & pl'' & Tk & Pp'' & L'' & D'')]; [eexists _, _, _; eapply rd_no_value; eassumption|].
    assert (Go : forall on, exists ws subs e, reading cfg on c pl'' ws subs e) by (intros on; apply IH; auto; lia).
    destruct (o_type o) eqn:Ty.
    + destruct (Go false) as (ws & subs & e & Rd). eexists _, _, _. eapply rd_option; eassumption.
    + eexists _, _, _. eapply rd_stop; eauto.
    + eexists _, _, _. eapply rd_stop; eauto.
    + eexists _, _, _. eapply rd_stop; eauto.
    + eexists _, _, _. eapply rd_last_argument; eassumption.
    + destruct (Go true) as (ws & subs & e & Rd). eexists _, _, _. eapply rd_last_option; eassumption.
Qed.

Lemma line_total : forall args, dependable_line cfg top args ->
  exists ws subs e, reading cfg false top (Fresh args) ws subs e.
Proof.
  intros args D. apply (reading_total (S (weight args))); [simpl; lia|exact Logic.I|exact D|constructor].
Qed.

(** *** At most one *)

Lemma token_short_or : forall style a rest t pl, token style (After (a :: rest)) t pl ->
  (t = a /\ pl = After rest /\
   (length a <= 2 \/ hd_error a <> Some (style_prefix style) \/
    exists n, a = long_prefix style ++ n /\ ~ In "="%char n)) \/
  (exists n v, a = long_prefix style ++ n ++ "="%char :: v /\ ~ In "="%char n /\ 2 < length a /\
     t = long_prefix style ++ n ++ ["="%char] /\ pl = Attached v rest) \/
  (exists x g, style = STANDARD /\ x <> "-"%char /\ g <> [] /\ a = "-"%char :: x :: g /\
     t = ["-"%char; x] /\ pl = Group g rest).
Proof.
  intros style a rest t pl T. inversion T; subst.
  - left. auto.
  - left. auto.
  - left. repeat split. right. right. eauto.
  - right. left. eexists _, _. repeat split; auto.
  - right. right. eexists _, _. repeat split; auto.
Qed.

Lemma before_eq : forall (n m v w : str), n ++ "="%char :: v = m ++ "="%char :: w ->
  ~ In "="%char n -> ~ In "="%char m -> n = m /\ v = w.
Proof.
  induction n as [|x n IH]; intros [|y m] v w E Nn Nm; cbn [app] in E.
  - injection E as E. auto.
  - injection E as E F. subst. destruct Nm. left. reflexivity.
  - injection E as E F. subst. destruct Nn. left. reflexivity.
  - injection E as E F. subst. destruct (IH m v w F) as (-> & ->); auto; [intros X; apply Nn; right; exact X|intros X; apply Nm; right; exact X].
Qed.

Lemma long_begins : forall style r, hd_error (long_prefix style ++ r) = Some (style_prefix style).
Proof. intros [] r; reflexivity. Qed.

Lemma after_one : forall style a rest t pl t' pl', token style (After (a :: rest)) t pl ->
  token style (After (a :: rest)) t' pl' -> t = t' /\ pl = pl'.
Proof.
  intros style a rest t pl t' pl' T T'. apply token_short_or in T. apply token_short_or in T'.
  assert (A : forall n v, a = long_prefix style ++ n ++ "="%char :: v -> 2 < length a ->
     ~ (length a <= 2 \/ hd_error a <> Some (style_prefix style) \/
        exists n, a = long_prefix style ++ n /\ ~ In "="%char n)).
  { intros n v E L [X|[X|(m & F & Nm)]]; [lia|subst a; apply X; apply long_begins|].
    rewrite F in E. apply app_inv_head in E. subst m. apply Nm. apply in_or_app. right. left. reflexivity. }
  assert (B : forall x g, style = STANDARD -> x <> "-"%char -> g <> [] -> a = "-"%char :: x :: g ->
     ~ (length a <= 2 \/ hd_error a <> Some (style_prefix style) \/
        exists n, a = long_prefix style ++ n /\ ~ In "="%char n)).
  { intros x g St Nx Ng E [X|[X|(m & F & Nm)]]; subst; [destruct g; [contradiction|simpl in X; lia]|apply X; reflexivity|].
    injection F as F _. contradiction. }
  assert (C : forall x g n v, style = STANDARD -> x <> "-"%char -> a = "-"%char :: x :: g ->
     a = long_prefix style ++ n ++ "="%char :: v -> False).
  { intros x g n v St Nx E F. subst. injection F as F _. contradiction. }
  destruct T as [(-> & -> & T)|[(n & v & E & Nn & L & -> & ->)|(x & g & St & Nx & Ng & E & -> & ->)]];
  destruct T' as [(-> & -> & T')|[(n' & v' & E' & Nn' & L' & -> & ->)|(x' & g' & St' & Nx' & Ng' & E' & -> & ->)]].
  - auto.
  - exfalso. exact (A _ _ E' L' T).
  - exfalso. exact (B _ _ St' Nx' Ng' E' T).
  - exfalso. exact (A _ _ E L T').
  - rewrite E in E'. apply app_inv_head in E'. apply before_eq in E'; auto. destruct E' as (-> & ->). auto.
  - exfalso. exact (C _ _ _ _ St' Nx' E' E).
  - exfalso. exact (B _ _ St Nx Ng E T').
  - exfalso. exact (C _ _ _ _ St Nx E E').
  - rewrite E in E'. injection E' as -> ->. auto.
Qed.

Lemma token_one : forall style pl t pl' t' pl'', token style pl t pl' -> token style pl t' pl'' ->
  t = t' /\ pl' = pl''.
Proof.
  intros style pl t pl' t' pl'' T T'.
  assert (A : forall args t pl' t' pl'', token style (After args) t pl' -> token style (After args) t' pl'' -> t = t' /\ pl' = pl'').
  { clear. intros [|a rest] t pl' t' pl'' T T'; [inversion T|]. eapply after_one; eassumption. }
  destruct pl; [|exact (A _ _ _ _ _ T T')| |];
    inversion T; subst; inversion T'; subst; try (eapply A; eassumption); try contradiction; auto.
Qed.

Lemma text_one : forall style pl t pl' t' pl'', text style pl t pl' -> text style pl t' pl'' ->
  t = t' /\ pl' = pl''.
Proof.
  intros style pl t pl' t' pl'' T T'. destruct T; inversion T'; subst; try contradiction; auto.
Qed.

Lemma token_some : forall style pl t pl', token style pl t pl' -> ~ no_token pl.
Proof.
  intros style pl t pl' T [[->| ->]|(v & ->)].
  - inversion T.
  - inversion T; subst. match goal with X : token _ (After []) _ _ |- _ => inversion X end.
  - inversion T; subst. match goal with X : token _ (After []) _ _ |- _ => inversion X end.
Qed.
Lemma text_some : forall style pl t pl', text style pl t pl' -> ~ no_text pl.
Proof. intros style pl t pl' T [->| ->]; inversion T. Qed.

Lemma takes_one : forall style o pl v pl' v' pl'', takes style o pl v pl' -> takes style o pl v' pl'' ->
  v = v' /\ pl' = pl''.
Proof.
  intros style o pl v pl' v' pl'' [(A & T)|(A & -> & ->)] [(B & T')|(B & -> & ->)]; try contradiction; auto.
  eapply text_one; eassumption.
Qed.

Lemma plain_one : forall only pl t pl' t' pl'', plain cfg only pl t pl' -> plain cfg only pl t' pl'' ->
  t = t' /\ pl' = pl''.
Proof.
  intros [] pl t pl' t' pl'' A B; [eapply text_one; eassumption|]. destruct A as (A & _), B as (B & _).
  eapply token_one; eassumption.
Qed.

Lemma chooses_one : forall c t o o', within top c -> chooses cfg c t o -> chooses cfg c t o' -> o = o'.
Proof.
  intros c t o o' W ((D1 & D2) & A) (_ & B).
  pose proof (finished_index_proof p q c H W) as I. fold cfg in I.
  apply (lookup_proof _ _ _ t (s_abbreviations cfg) o D1 D2 I) in A.
  apply (lookup_proof _ _ _ t (s_abbreviations cfg) o' D1 D2 I) in B.
  rewrite A in B. injection B as ->. reflexivity.
Qed.

Lemma flag_one : forall c pl t o pl' t' o' pl'', within top c -> flag cfg c pl t o pl' -> flag cfg c pl t' o' pl'' ->
  t = t' /\ o = o' /\ pl' = pl''.
Proof.
  intros c pl t o pl' t' o' pl'' W (A & _ & B) (A' & _ & B').
  destruct (token_one _ _ _ _ _ _ A A') as (-> & ->). split; [reflexivity|]. split; [|reflexivity].
  eapply chooses_one; eassumption.
Qed.

Lemma named_one : forall c t d d', first_named cfg c t d -> first_named cfg c t d' -> d = d'.
Proof.
  intros c t d d' A B. apply (first_found q) in A. apply (first_found q) in B. rewrite A in B. injection B as ->. reflexivity.
Qed.

Lemma flag_not_plain : forall c pl t o pl' t' pl'', flag cfg c pl t o pl' -> plain cfg false pl t' pl'' -> False.
Proof.
  intros c pl t o pl' t' pl'' (A & L & _) (B & N). destruct (token_one _ _ _ _ _ _ A B) as (-> & _). contradiction.
Qed.
Lemma plain_some : forall pl t pl', plain cfg false pl t pl' -> ~ no_token pl.
Proof. intros pl t pl' (T & _). eapply token_some; exact T. Qed.
Lemma flag_some : forall c pl t o pl', flag cfg c pl t o pl' -> ~ no_token pl.
Proof. intros c pl t o pl' (T & _). eapply token_some; exact T. Qed.
Lemma named_has : forall c t d, first_named cfg c t d -> c_commands c <> [].
Proof. intros c t d (b & e & E & _) X. rewrite X in E. destruct b; discriminate. Qed.
Lemma flag_known : forall c pl t o pl' t' pl'', flag cfg c pl t o pl' -> token (s_style cfg) pl t' pl'' ->
  unknown_option cfg c t' -> False.
Proof.
  intros c pl t o pl' t' pl'' (A & _ & _ & B) T U. destruct (token_one _ _ _ _ _ _ A T) as (-> & _). exact (U _ B).
Qed.
Lemma takes_some : forall o pl v pl', takes (s_style cfg) o pl v pl' -> takes_value o -> ~ no_text pl.
Proof. intros o pl v pl' [(_ & T)|(N & _)] V; [eapply text_some; exact T|contradiction]. Qed.
Lemma plain_unlike : forall pl t pl' t' pl'', plain cfg false pl t pl' -> token (s_style cfg) pl t' pl'' ->
  looks_like_option (s_style cfg) t' -> False.
Proof. intros pl t pl' t' pl'' (A & N) T L. destruct (token_one _ _ _ _ _ _ A T) as (-> & _). contradiction. Qed.

Ltac same :=
  repeat match goal with
  | A : flag cfg ?c ?pl _ _ _, B : flag cfg ?c ?pl _ _ _ |- _ =>
      let X := fresh in pose proof (flag_one _ _ _ _ _ _ _ _ ltac:(eassumption) A B) as X;
      destruct X as (? & ? & ?); subst; clear B
  | A : takes _ ?o ?pl _ _, B : takes _ ?o ?pl _ _ |- _ =>
      let X := fresh in pose proof (takes_one _ _ _ _ _ _ _ A B) as X; destruct X as (? & ?); subst; clear B
  | A : plain cfg ?only ?pl _ _, B : plain cfg ?only ?pl _ _ |- _ =>
      let X := fresh in pose proof (plain_one _ _ _ _ _ _ A B) as X; destruct X as (? & ?); subst; clear B
  | A : first_named cfg ?c ?t _, B : first_named cfg ?c ?t _ |- _ =>
      let X := fresh in pose proof (named_one _ _ _ _ A B) as X; subst; clear B
  | A : token ?s ?pl _ _, B : token ?s ?pl _ _ |- _ =>
      let X := fresh in pose proof (token_one _ _ _ _ _ _ A B) as X; destruct X as (? & ?); subst; clear B
  end.

Ltac conflict :=
  exfalso; match goal with
  | A : flag cfg _ ?pl _ _ _, B : plain cfg false ?pl _ _ |- _ => exact (flag_not_plain _ _ _ _ _ _ _ A B)
  | A : flag cfg _ ?pl _ _ _, B : no_token ?pl |- _ => exact (flag_some _ _ _ _ _ A B)
  | A : plain cfg false ?pl _ _, B : no_token ?pl |- _ => exact (plain_some _ _ _ A B)
  | A : plain cfg true ?pl _ _, B : no_text ?pl |- _ => exact (text_some _ _ _ _ A B)
  | A : token _ ?pl _ _, B : no_token ?pl |- _ => exact (token_some _ _ _ _ A B)
  | A : first_named cfg ?c _ _, B : c_commands ?c = [] |- _ => exact (named_has _ _ _ A B)
  | A : first_named cfg ?c ?t _, B : forall d, ~ first_named cfg ?c ?t d |- _ => exact (B _ A)
  | A : flag cfg ?c ?pl _ _ _, B : token _ ?pl ?t _, C : unknown_option cfg ?c ?t |- _ => exact (flag_known _ _ _ _ _ _ _ A B C)
  | A : plain cfg false ?pl _ _, B : token _ ?pl ?t _, C : looks_like_option _ ?t |- _ => exact (plain_unlike _ _ _ _ _ A B C)
  | A : takes _ ?o ?pl _ _, B : takes_value ?o, C : no_text ?pl |- _ => exact (takes_some _ _ _ _ A B C)
  | A : o_type ?o = _, B : o_type ?o = _ |- _ => rewrite A in B; discriminate B
  | A : o_type ?o = _, B : o_type ?o = _ \/ o_type ?o = _ \/ o_type ?o = _ |- _ =>
      rewrite A in B; destruct B as [B|[B|B]]; discriminate B
  | _ => congruence
  end.

Lemma reading_one : forall only c pl ws subs e, reading cfg only c pl ws subs e -> within top c ->
  forall ws' subs' e', reading cfg only c pl ws' subs' e' -> ws = ws' /\ subs = subs' /\ e = e'.
Proof.
  induction 1; intros W ws' subs' e' Rd'; inversion Rd'; subst; same; try conflict; auto.
  all: try (match goal with
       | IH : within top _ -> _, Rd : reading cfg _ _ _ _ _ ?e' |- _ =>
           destruct (IH ltac:(first [assumption|eapply named_within; eassumption]) _ _ _ Rd) as (? & ? & ?); subst; auto end).
Qed.
End Total.

(* ------------------------------------------------------------------------ *)
(** ** Success and failure *)

Lemma split_surplus : forall ws n, n < length (positionals ws) ->
  exists before t after, ws = before ++ Positional t :: after /\ length (positionals before) = n.
Proof.
  induction ws as [|[o v|t] ws IH]; intros n L; cbn [positionals flat_map app length] in L; [lia| |].
  - destruct (IH n L) as (b & t & a & -> & E). exists (Optional o v :: b), t, a. split; [reflexivity|exact E].
  - destruct n as [|n]; [exists [], t, ws; auto|]. destruct (IH n) as (b & t' & a & -> & E); [fold (positionals ws) in L; lia|].
    exists (Positional t :: b), t', a. split; [reflexivity|]. cbn [positionals flat_map app length]. fold (positionals b). lia.
Qed.

Lemma tells_result : forall outer rc stop l hs left, tells outer rc stop l hs left ->
  l_result l = outer \/ l_result l = rc.
Proof.
  intros outer rc stop l [|(c & h) r] left T; [destruct T|]. cbn [tells] in T. destruct T as (_ & _ & T).
  destruct r; tauto.
Qed.

Section Verdict.
Variables (p q : parser_data).
Hypothesis H : finish_parser p = Val q.
Let cfg := d_settings q.
Let top := d_command q.
Hypothesis Sd : sound top.
Hypothesis Hn : no_insertions cfg top.
Hypothesis Hi : no_interference cfg top.
Hypothesis Ig : s_ignore_arguments cfg = false.
Hypothesis One : one_at_a_time top.

Lemma run_one : forall args f f' r r', run_parser cfg f top args = r -> run_parser cfg f' top args = r' ->
  r <> NoFuel -> r' <> NoFuel -> r = r'.
Proof.
  intros args f f' r r' E E' N N'. subst r r'. destruct (le_ge_dec f f') as [L|L].
  - symmetry. apply run_fuel_mono; assumption.
  - apply run_fuel_mono; assumption.
Qed.

Section Reading2.
Variables (args : list str) (ws : list word) (subs : list (cmd_data * list word)) (e : ending).
Hypothesis Rd : reading cfg false top (Fresh args) ws subs e.
Hypothesis Fw : all_foreseen cfg ((top, ws) :: subs).

Lemma room_or : room ((top, ws) :: subs) \/
  exists front c before t after, (top, ws) :: subs = front ++ [(c, before ++ Positional t :: after)] /\
    N.of_nat (length (positionals before)) = maxima (c_arguments c).
Proof.
  destruct (@exists_last _ ((top, ws) :: subs)) as (front & (c & w) & E); [discriminate|].
  destruct (N.le_gt_cases (N.of_nat (length (positionals w))) (maxima (c_arguments c))) as [L|L].
  - left. intros f c' w' E'. rewrite E in E'. apply app_inj_tail in E'. destruct E' as (_ & E'). injection E' as <- <-. exact L.
  - right. destruct (split_surplus w (N.to_nat (maxima (c_arguments c)))) as (b & t & a & -> & Eb); [lia|].
    exists front, c, b, t, a. split; [exact E|]. lia.
Qed.

Lemma line_verdict : s_ignore_options cfg = false ->
  (exists left hs, left_of e = Some left /\ all_acceptable (at_first top) ((top, ws) :: subs) hs /\
     succeeds cfg top args hs left) \/
  (exists o left hs, e = AtStop o left /\ stops cfg top args o hs left) \/
  (exists m hs left, refuses cfg top args m hs left).
Proof.
  intros Io. destruct room_or as [Rm|(front & c & b & t & a & E & M)].
  2:{ right. right. destruct (line_surplus p q H Sd Hn Hi Ig One args ws subs e Rd Fw _ _ _ _ _ E M) as (hs & pl & _ & _ & _ & R). eauto. }
  destruct (left_of e) as [left|] eqn:El.
  { destruct (line_judged p q H Sd Hn Hi Ig One args ws subs e Rd Fw left El Rm) as [(hs & A)|(f & c & w & h & m & _ & _ & _ & R)].
    - left. exists left, hs. split; [reflexivity|]. split; [exact A|]. exact (line_success p q H Sd Hn Hi Ig One args ws subs e Rd Fw left hs El A).
    - right. right. eauto. }
  assert (D : (exists o l, e = AtStop o l) \/ forall o l, e <> AtStop o l) by (destruct e; eauto; right; discriminate).
  destruct D as [(o & l & Ee)|Ns].
  - right. left. destruct (line_stop p q H Sd Hn Hi Ig One args ws subs e Rd Fw o l Ee Rm) as (hs & _ & St). eauto.
  - right. right. destruct (line_fault p q H Sd Hn Hi Ig One args ws subs e Rd Fw Io Rm El Ns) as (m & hs & l & _ & _ & R). eauto.
Qed.

Lemma line_accepted : s_ignore_options cfg = false ->
  ((exists st, parsed cfg top args st /\ l_result (toplevel st) = RC_SUCCESS) <->
   exists left hs, left_of e = Some left /\ all_acceptable (at_first top) ((top, ws) :: subs) hs).
Proof.
  intros Io. split.
  - intros (st & (f & E) & Rs). destruct (line_verdict Io) as [(left & hs & El & A & _)|[(o & l & hs & _ & St)|(m & hs & l & R)]]; [eauto| |]; exfalso.
    + destruct St as (evs & st' & _ & _ & St). destruct (s_auto_exit cfg && _).
      * destruct St as (f' & E'). pose proof (run_one _ _ _ _ _ E E' ltac:(discriminate) ltac:(discriminate)). discriminate.
      * destruct St as ((f' & E') & T). pose proof (run_one _ _ _ _ _ E E' ltac:(discriminate) ltac:(discriminate)) as X. injection X as ->.
        apply tells_result in T. rewrite Rs in T. destruct T; discriminate.
    + destruct R as (evs & st' & _ & _ & R). destruct (s_auto_exit cfg).
      * destruct R as (f' & E'). pose proof (run_one _ _ _ _ _ E E' ltac:(discriminate) ltac:(discriminate)). discriminate.
      * destruct R as ((f' & E') & T). pose proof (run_one _ _ _ _ _ E E' ltac:(discriminate) ltac:(discriminate)) as X. injection X as ->.
        apply tells_result in T. rewrite Rs in T. destruct T; discriminate.
  - intros (left & hs & El & A).
    destruct (line_success p q H Sd Hn Hi Ig One args ws subs e Rd Fw left hs El A) as (st & P & _ & T).
    exists st. split; [exact P|]. apply tells_result in T. tauto.
Qed.
End Reading2.
End Verdict.
