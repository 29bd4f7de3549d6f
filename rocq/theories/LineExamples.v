(** A reader for command lines, for the examples of C71. *)
From Verif Require Import Base BaseProofs MStrings MOptIter MData MCounter MValues MParser
  SStrings SIndex SDef SValues SCounter SParser SStep SLook SEquiv SApi SLine SExamples
  IndexProofs FinishProofs CounterProofs ExProofs LookProofs LineProofs LineProofs2.
Open Scope nat_scope.

Fixpoint cut_eq (a : str) : option (str * str) :=
  match a with
  | [] => None
  | x :: r => if ascii_dec x "="%char then Some ([], r)
              else match cut_eq r with Some (n, v) => Some (x :: n, v) | None => None end
  end.

Lemma cut_eq_spec : forall a, match cut_eq a with
  | Some (n, v) => a = n ++ "="%char :: v /\ ~ In "="%char n
  | None => ~ In "="%char a
  end.
Proof.
  induction a as [|x a IH]; cbn [cut_eq]; [intros []|]. destruct (ascii_dec x "="%char) as [->|Ne].
  - split; [reflexivity|intros []].
  - destruct (cut_eq a) as [(n & v)|].
    + destruct IH as (-> & IH). split; [reflexivity|]. intros [E|I]; auto.
    + intros [E|I]; auto.
Qed.

Definition long_token (style : option_style) (n : str) (rest : list str) : str * place :=
  match cut_eq n with
  | Some (m, v) => (long_prefix style ++ m ++ ["="%char], Attached v rest)
  | None => (long_prefix style ++ n, After rest)
  end.

Definition after_token (style : option_style) (args : list str) : option (str * place) :=
  match args with
  | [] => None
  | a :: rest =>
      if length a <=? 2 then Some (a, After rest)
      else match a with
      | x :: r =>
          if ascii_dec x (style_prefix style) then
            match style, r with
            | STANDARD, y :: g => if ascii_dec y "-"%char then Some (long_token style g rest)
                                  else Some (["-"%char; y], Group g rest)
            | _, _ => Some (long_token style r rest)
            end
          else Some (a, After rest)
      | [] => None
      end
  end.

Definition next_token (style : option_style) (pl : place) : option (str * place) :=
  match pl with
  | Fresh args | After args | Attached _ args => after_token style args
  | Group [x] rest => Some (["-"%char; x], After rest)
  | Group (x :: g) rest => Some (["-"%char; x], Group g rest)
  | Group [] rest => None
  end.

Lemma long_token_sound : forall style n rest t pl, 2 < length (long_prefix style ++ n) ->
  long_token style n rest = (t, pl) -> token style (After ((long_prefix style ++ n) :: rest)) t pl.
Proof.
  intros style n rest t pl L E. unfold long_token in E. pose proof (cut_eq_spec n) as X.
  destruct (cut_eq n) as [(m & v)|].
  - injection E as <- <-. destruct X as (-> & X). apply tok_long_value; assumption.
  - injection E as <- <-. apply tok_long. exact X.
Qed.

Lemma after_token_sound : forall style args t pl, after_token style args = Some (t, pl) ->
  token style (After args) t pl.
Proof.
  intros style [|a rest] t pl E; [discriminate|]. unfold after_token in E.
  destruct (length a <=? 2) eqn:L.
  { injection E as <- <-. apply tok_short. apply Nat.leb_le. exact L. }
  apply Nat.leb_gt in L. destruct a as [|x r]; [discriminate|].
  destruct (ascii_dec x (style_prefix style)) as [->|Ne].
  2:{ injection E as <- <-. apply tok_plain. intros X. injection X as X. contradiction. }
  destruct style.
  - destruct r as [|y g]; [cbn in L; lia|]. destruct (ascii_dec y "-"%char) as [->|Ny].
    + injection E as E. exact (long_token_sound STANDARD g rest t pl L E).
    + injection E as <- <-. apply tok_group; [reflexivity|exact Ny|]. destruct g; [cbn in L; lia|discriminate].
  - injection E as E. exact (long_token_sound SLASH r rest t pl L E).
  - injection E as E. exact (long_token_sound DASH r rest t pl L E).
Qed.

Lemma next_token_sound : forall style pl t pl', next_token style pl = Some (t, pl') -> token style pl t pl'.
Proof.
  intros style [args|args|g rest|v rest] t pl' E; cbn [next_token] in E.
  - apply tok_fresh, after_token_sound. exact E.
  - apply after_token_sound. exact E.
  - destruct g as [|x [|y g]]; [discriminate| |]; injection E as <- <-; [apply tok_last_in_group|].
    apply tok_in_group. discriminate.
  - apply tok_unused_value, after_token_sound. exact E.
Qed.

Lemma after_token_none : forall style args, after_token style args = None -> args = [].
Proof.
  intros style [|a rest] E; [reflexivity|]. unfold after_token in E. destruct (length a <=? 2) eqn:L; [discriminate|].
  apply Nat.leb_gt in L. destruct a as [|x r]; [cbn in L; lia|].
  destruct (ascii_dec x (style_prefix style)); [|discriminate].
  destruct style; [|discriminate|discriminate]. destruct r as [|y g]; [discriminate|].
  destruct (ascii_dec y "-"%char); discriminate.
Qed.

Lemma next_token_none : forall style pl, next_token style pl = None -> (forall r, pl <> Group [] r) -> no_token pl.
Proof.
  intros style [args|args|g rest|v rest] E Ng; cbn [next_token] in E.
  - apply after_token_none in E. subst. left. right. reflexivity.
  - apply after_token_none in E. subst. left. left. reflexivity.
  - destruct g as [|x [|y g]]; try discriminate. destruct (Ng rest eq_refl).
  - apply after_token_none in E. subst. right. eauto.
Qed.

Definition next_text (style : option_style) (pl : place) : option (str * place) :=
  match pl with
  | Fresh (a :: rest) => Some (a, After rest)
  | After (a :: rest) =>
      match style, a with
      | STANDARD, _ => Some (a, After rest)
      | _, [] => Some ([], Fresh ([] :: rest))
      | _, _ => Some (a, Attached [] rest)
      end
  | Group g rest => Some (g, After rest)
  | Attached v rest => Some (v, After rest)
  | Fresh [] | After [] => None
  end.

Lemma next_text_sound : forall style pl t pl', next_text style pl = Some (t, pl') -> text style pl t pl'.
Proof.
  intros style [[|a r]|[|a r]|g rest|v rest] t pl' E; cbn [next_text] in E; try discriminate.
  - injection E as <- <-. constructor.
  - destruct style; [injection E as <- <-; constructor; reflexivity| |];
      destruct a; injection E as <- <-; constructor; discriminate.
  - injection E as <- <-. constructor.
  - injection E as <- <-. constructor.
Qed.

Lemma next_text_none : forall style pl, next_text style pl = None -> no_text pl.
Proof.
  intros style [[|a r]|[|a r]|g rest|v rest] E; cbn [next_text] in E; try discriminate.
  - right. reflexivity.
  - left. reflexivity.
  - destruct style; [discriminate| |]; destruct a; discriminate.
Qed.

Definition like_option (style : option_style) (t : str) : bool :=
  match t with
  | x :: _ :: _ => if ascii_dec x (style_prefix style) then true else false
  | _ => false
  end.

Lemma like_option_spec : forall style t,
  if like_option style t then looks_like_option style t else ~ looks_like_option style t.
Proof.
  intros style [|x [|y r]]; cbn [like_option]; [intros (? & ? & ?); discriminate|intros (? & ? & ?); discriminate|].
  destruct (ascii_dec x (style_prefix style)) as [->|Ne].
  - destruct style; do 2 eexists; reflexivity.
  - intros (c & s & E). injection E as -> _ _. destruct style; contradiction.
Qed.

Definition needs_value (o : opt_data) : bool :=
  match o_operation o with OP_ASSIGN | OP_APPEND => is_empty (o_constant o) | _ => false end.
Lemma needs_value_spec : forall o, if needs_value o then takes_value o else ~ takes_value o.
Proof.
  intros o. unfold needs_value, takes_value. destruct (o_operation o); try (intros ([X|X] & _); discriminate);
    destruct (o_constant o); cbn [is_empty]; auto; intros (_ & X); discriminate.
Qed.

Definition next_plain (cfg : settings) (only : bool) (pl : place) : option (str * place) :=
  if only then next_text (s_style cfg) pl
  else match next_token (s_style cfg) pl with
       | Some (t, pl') => if like_option (s_style cfg) t then None else Some (t, pl')
       | None => None
       end.
Lemma next_plain_sound : forall cfg only pl t pl', next_plain cfg only pl = Some (t, pl') -> plain cfg only pl t pl'.
Proof.
  intros cfg [] pl t pl' E; cbn [next_plain] in E; [apply next_text_sound; exact E|].
  destruct (next_token (s_style cfg) pl) as [(t1 & pl1)|] eqn:T; [|discriminate].
  pose proof (like_option_spec (s_style cfg) t1) as L. destruct (like_option (s_style cfg) t1); [discriminate|].
  injection E as -> ->. split; [apply next_token_sound; exact T|exact L].
Qed.

Fixpoint read (fuel : nat) (cfg : settings) (only : bool) (c : cmd_data) (pl : place)
  : option (list word * list (cmd_data * list word) * ending) :=
  match fuel with
  | O => None
  | S n =>
      match next_plain cfg only pl with
      | Some (t, pl') =>
          match c_commands c with
          | [] => match read n cfg only c pl' with
                  | Some (ws, subs, e) => Some (Positional t :: ws, subs, e)
                  | None => None
                  end
          | _ => match find_command c t (s_case_insensitive cfg) with
                 | Some d => match read n cfg false d pl' with
                             | Some (ws, subs, e) => Some ([], (d, ws) :: subs, e)
                             | None => None
                             end
                 | None => Some ([], [], AtNoCommand t (left_at pl'))
                 end
          end
      | None =>
          if only then Some ([], [], AtEnd)
          else match next_token (s_style cfg) pl with
          | None => Some ([], [], AtEnd)
          | Some (t, pl') =>
              match find_option c t (s_abbreviations cfg) (s_case_insensitive cfg) with
              | None => Some ([], [], AtUnknown t (left_at pl'))
              | Some o =>
                  match (if needs_value o then next_text (s_style cfg) pl' else Some ([], pl')) with
                  | None => Some ([], [], AtNoValue t)
                  | Some (v, pl'') =>
                      let go only := match read n cfg only c pl'' with
                                     | Some (ws, subs, e) => Some (Optional o v :: ws, subs, e)
                                     | None => None
                                     end in
                      match o_type o with
                      | OT_NORMAL => go false
                      | OT_LAST_OPTION => go true
                      | OT_LAST_ARGUMENT => Some ([Optional o v], [], AtLast o (left_at pl''))
                      | _ => Some ([Optional o v], [], AtStop o (left_at pl''))
                      end
                  end
              end
          end
      end
  end.

Lemma next_token_proper : forall style pl t pl', token style pl t pl' -> proper_place pl'.
Proof. induction 1; cbn; auto. Qed.
Lemma text_proper : forall style pl t pl', text style pl t pl' -> proper_place pl'.
Proof. induction 1; cbn; auto. Qed.

Section Read.
Variables (p q : parser_data).
Hypothesis H : finish_parser p = Val q.
Let cfg := d_settings q.
Let top := d_command q.
Hypothesis Ci : s_case_insensitive cfg = false.

Lemma dep : forall c t, dependable cfg c t.
Proof. intros c t. split; intros X; rewrite X in Ci; discriminate. Qed.

Lemma read_sound : forall n only c pl ws subs e, within top c -> proper_place pl ->
  read n cfg only c pl = Some (ws, subs, e) -> reading cfg only c pl ws subs e.
Proof.
  induction n as [|n IH]; intros only c pl ws subs e W Pp E; [discriminate|]. cbn [read] in E.
  destruct (next_plain cfg only pl) as [(t & pl')|] eqn:Np.
  - apply next_plain_sound in Np.
    assert (Pp' : proper_place pl').
    { destruct only; [eapply text_proper; exact Np|]. destruct Np as (T & _). eapply next_token_proper; exact T. }
    destruct (c_commands c) as [|d0 ds] eqn:C.
    + destruct (read n cfg only c pl') as [((ws' & subs') & e')|] eqn:R; [|discriminate].
      injection E as <- <- <-. eapply rd_positional; [exact Np|exact C|]. apply IH; assumption.
    + destruct (find_command c t (s_case_insensitive cfg)) as [d|] eqn:F.
      * destruct (read n cfg false d pl') as [((ws' & subs') & e')|] eqn:R; [|discriminate].
        injection E as <- <- <-.
        assert (Fd : first_named cfg c t d).
        { destruct (found_first q c t d F) as (d1 & X). pose proof (first_found q c t d1 X) as Y. fold cfg in Y.
          rewrite Y in F. injection F as ->. exact X. }
        eapply rd_command; [exact Np|exact Fd|]. apply IH; [exact (named_within q c t d W Fd)|exact Pp'|exact R].
      * injection E as <- <- <-. eapply rd_no_command; [exact Np|congruence|]. intros d Fd.
        apply (first_found q) in Fd. fold cfg in Fd. rewrite Fd in F. discriminate.
  - destruct only.
    { injection E as <- <- <-. apply rd_end_only. cbn [next_plain] in Np. eapply next_text_none. exact Np. }
    destruct (next_token (s_style cfg) pl) as [(t & pl')|] eqn:T.
    2:{ injection E as <- <- <-. apply rd_end. eapply next_token_none; [exact T|]. intros r ->. contradiction. }
    cbn [next_plain] in Np. rewrite T in Np. pose proof (like_option_spec (s_style cfg) t) as L.
    destruct (like_option (s_style cfg) t); [|discriminate]. apply next_token_sound in T.
    pose proof (finished_index_proof p q c H W) as B. fold cfg in B. destruct (dep c t) as (D1 & D2).
    destruct (find_option c t (s_abbreviations cfg) (s_case_insensitive cfg)) as [o|] eqn:F.
    2:{ injection E as <- <- <-. eapply rd_unknown; [exact T|exact L|split; assumption|]. intros o Se.
        apply (lookup_proof _ _ _ t (s_abbreviations cfg) o D1 D2 B) in Se. unfold find_option in F. rewrite Se in F. discriminate. }
    assert (Fl : flag cfg c pl t o pl').
    { split; [exact T|]. split; [exact L|]. split; [split; assumption|].
      apply (lookup_proof _ _ _ t (s_abbreviations cfg) o D1 D2 B). exact F. }
    pose proof (needs_value_spec o) as Nv.
    pose proof (next_token_proper _ _ _ _ T) as Pp'.
    assert (V : forall v pl'', (if needs_value o then next_text (s_style cfg) pl' else Some ([], pl')) = Some (v, pl'') ->
              takes (s_style cfg) o pl' v pl'' /\ proper_place pl'').
    { intros v pl'' X. destruct (needs_value o).
      - apply next_text_sound in X. split; [left; auto|]. eapply text_proper; exact X.
      - injection X as <- <-. split; [right; auto|exact Pp']. }
    destruct (if needs_value o then _ else _) as [(v & pl'')|] eqn:Vt.
    2:{ injection E as <- <- <-. eapply rd_no_value; [exact Fl| |]; destruct (needs_value o); try discriminate; [exact Nv|].
        eapply next_text_none. exact Vt. }
    destruct (V v pl'' eq_refl) as (Tk & Pp''). clear V.
    destruct (o_type o) eqn:Ty.
    + destruct (read n cfg false c pl'') as [((ws' & subs') & e')|] eqn:R; [|discriminate].
      injection E as <- <- <-. eapply rd_option; eauto.
    + injection E as <- <- <-. eapply rd_stop; eauto.
    + injection E as <- <- <-. eapply rd_stop; eauto.
    + injection E as <- <- <-. eapply rd_stop; eauto.
    + injection E as <- <- <-. eapply rd_last_argument; eauto.
    + destruct (read n cfg true c pl'') as [((ws' & subs') & e')|] eqn:R; [|discriminate].
      injection E as <- <- <-. eapply rd_last_option; eauto.
Qed.

Lemma read_line : forall n args ws subs e, read n cfg false top (Fresh args) = Some (ws, subs, e) ->
  reading cfg false top (Fresh args) ws subs e.
Proof. intros. eapply read_sound; [constructor|exact Logic.I|eassumption]. Qed.
End Read.

(* ------------------------------------------------------------------------ *)
(** ** Checks of the other conditions *)

Fixpoint single_check (fuel : nat) (c : cmd_data) : bool :=
  match fuel with
  | O => false
  | S n => negb (c_multi c) && forallb (single_check n) (c_commands c)
  end.
Lemma single_check_within : forall top c, within top c -> forall n, single_check n top = true ->
  exists m, single_check m c = true.
Proof.
  intros top c W. induction W as [|c d W IH I]; intros n E; [eauto|].
  destruct (IH n E) as ([|m] & Em); [discriminate|]. simpl in Em.
  apply andb_prop in Em. destruct Em as (_ & Em). rewrite forallb_forall in Em. eauto.
Qed.
Lemma single_check_sound : forall n top, single_check n top = true -> one_at_a_time top.
Proof.
  intros n top E c W. destruct (single_check_within top c W n E) as ([|m] & Em); [discriminate|]. simpl in Em.
  apply andb_prop in Em. destruct Em as (Em & _). destruct (c_multi c); [discriminate|reflexivity].
Qed.

Definition regular_check (cfg : settings) (top : cmd_data) : bool :=
  sound_check 9 top && no_callbacks 9 top && single_check 9 top && negb (s_ignore_arguments cfg) &&
  match s_option_callback cfg, s_argument_callback cfg with None, None => true | _, _ => false end.
Lemma regular_check_sound : forall cfg top, regular_check cfg top = true -> regular cfg top.
Proof.
  intros cfg top E. unfold regular_check in E.
  do 4 (apply andb_prop in E; let X := fresh "X" in destruct E as (E & X)).
  assert (N : forall f, ~ callback_of cfg top f).
  { destruct (s_option_callback cfg) eqn:E1; [discriminate|]. destruct (s_argument_callback cfg) eqn:E2; [discriminate|].
    eapply no_callbacks_sound; eassumption. }
  split; [eapply sound_check_sound; eassumption|]. split; [intros f C; destruct (N f C)|].
  split; [intros f C; destruct (N f C)|]. split; [destruct (s_ignore_arguments cfg); [discriminate|reflexivity]|].
  eapply single_check_sound; eassumption.
Qed.

Definition foreseen_check (cfg : settings) (c : cmd_data) (w : word) : bool :=
  match w with
  | Optional o _ => is_empty (o_argument o) || needs_value o
  | Positional t => negb (s_abbreviations cfg) || (1 <? length t)
  end.
Lemma foreseen_check_sound : forall cfg c w, foreseen_check cfg c w = true -> foreseen cfg c w.
Proof.
  intros cfg c [o v|t] E; cbn [foreseen_check foreseen] in *.
  - intros Na. apply orb_prop in E. destruct E as [E|E]; [destruct (o_argument o); [contradiction|discriminate]|].
    pose proof (needs_value_spec o) as X. rewrite E in X. exact X.
  - apply orb_prop in E. destruct E as [E|E].
    + left. destruct (s_abbreviations cfg); [discriminate|reflexivity].
    + right. left. apply Nat.ltb_lt in E. split; intros ->; cbn in E; lia.
Qed.
Lemma all_foreseen_check : forall cfg segs,
  forallb (fun sg => forallb (foreseen_check cfg (fst sg)) (snd sg)) segs = true -> all_foreseen cfg segs.
Proof.
  intros cfg segs E. rewrite forallb_forall in E. apply Forall_forall. intros sg I. apply E in I.
  rewrite forallb_forall in I. apply Forall_forall. intros w Iw. apply foreseen_check_sound. auto.
Qed.

(** A number of arguments for every definition. *)
Fixpoint fair_check (args : list arg_data) (ks : list N) : bool :=
  match args, ks with
  | [], [] => true
  | a :: r, k :: l =>
      (a_min a <=? k)%N && (k <=? a_max a)%N && fair_check r l &&
      ((k =? a_max a)%N || forallb (fun x => (snd x <=? a_min (fst x))%N) (combine r l))
  | _, _ => false
  end.
Lemma fair_check_sound : forall args ks, fair_check args ks = true -> fair args (sum ks) ks.
Proof.
  induction args as [|a r IH]; intros [|k l] E; try discriminate.
  - split; [reflexivity|]. split; [reflexivity|]. split; [intros [|i] ? ? X; discriminate X|].
    intros [|i] j ? ? ? ? _ X; discriminate X.
  - cbn [fair_check] in E. apply andb_prop in E. destruct E as (E & F). apply andb_prop in E. destruct E as (E & G).
    apply andb_prop in E. destruct E as (A & B). apply N.leb_le in A, B. destruct (IH _ G) as (I1 & _ & I3 & I4).
    split; [cbn [length]; congruence|]. split; [reflexivity|]. split.
    + intros [|i] a' k' X Y; [injection X as <-; injection Y as <-; split; assumption|exact (I3 i a' k' X Y)].
    + intros i j a' b' k' m L X Y Z U Lt. destruct j as [|j]; [lia|]. destruct i as [|i].
      2:{ exact (I4 i j a' b' k' m ltac:(lia) X Y Z U Lt). }
      injection X as <-. injection Y as <-. apply orb_prop in F. destruct F as [F|F]; [apply N.eqb_eq; exact F|].
      exfalso. rewrite forallb_forall in F. cbn in Z, U.
      assert (I : In (b', m) (combine r l)).
      { clear - Z U. revert r l Z U. induction j as [|j IHj]; intros [|x r] [|y l] Z U; try discriminate; cbn in *.
        - injection Z as ->. injection U as ->. left. reflexivity.
        - right. apply IHj; assumption. }
      apply F in I. cbn in I. apply N.leb_le in I. lia.
Qed.

Definition accept_check (init : list change) (c : cmd_data) (ws : list word) (ks : list N) : bool :=
  match c_require c with Some true => false | _ => true end &&
  fair_check (c_arguments c) ks && (sum ks =? N.of_nat (length (positionals ws)))%N &&
  (is_empty (c_arguments c) || negb (last ks 0 =? 0)%N) &&
  forallb (fun o => o_optional o ||
    negb (is_empty (history (init ++ meant (order (combine ks (c_arguments c))) ws) (o_value_id o)))) (c_options c).
Lemma accept_check_sound : forall init c ws ks, accept_check init c ws ks = true ->
  acceptable init c ws (init ++ meant (order (combine ks (c_arguments c))) ws).
Proof.
  intros init c ws ks E. unfold accept_check in E.
  do 4 (apply andb_prop in E; let X := fresh "X" in destruct E as (E & X)).
  apply fair_check_sound in X2. apply N.eqb_eq in X1. rewrite X1 in X2. unfold acceptable.
  split; [intros R; rewrite R in E; discriminate|]. split; [|split].
  - apply orb_prop in X0. destruct X0 as [X0|X0].
    + left. intros front final Ea. destruct (c_arguments c); [destruct front; discriminate|discriminate].
    + right. exists ks. split; [exact X2|]. intros Z. rewrite Z in X0. discriminate.
  - exists ks. auto.
  - intros o Io Op. rewrite forallb_forall in X. apply X in Io. rewrite Op in Io. cbn in Io. intros Z. rewrite Z in Io. discriminate.
Qed.
