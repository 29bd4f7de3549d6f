(** Command lines with several sub-commands: what the parser does (C73). *)
From Verif Require Import Base BaseProofs MStrings MOptIter MData MCounter MValues MParser
  SStrings STok SIndex SDef SValues SCounter SParser SStep SLook SEquiv SApi SLine SMulti
  StrProofs TokProofs IndexProofs DefProofs FinishProofs ValuesProofs CounterProofs CounterInv
  MonadProofs FrameProofs InvProofs NextProofs ParseProofs StepProofs StepProofs2
  SimProofs3 EquivProofs LookProofs AcceptProofs ItemProofs LineProofs MultiProofs.
Open Scope nat_scope.

(* ------------------------------------------------------------------------ *)
(** ** Levels *)

Definition level_at (x : open) (h : list change) (rc : result_code) (stop : option opt_data)
  (left : list str) (l : level) : Prop :=
  l_command l = op_command x /\ l_values l = fold_left apply_change h [] /\
  Forall2 shows (op_subs x) (l_subs l) /\ l_unprocessed l = left /\ l_result l = rc /\ l_stop l = stop.

Definition now (x : open) (got : list arg_data) : list change := op_init x ++ meant got (op_words x).
Arguments now : simpl never.
Definition open_at (x : open) (got : list arg_data) (l : level) : Prop :=
  level_at x (now x got) (op_result x) None [] l.
Definition above_at (y : open) (l : level) : Prop :=
  open_at y [] l /\ positionals (op_words y) = [] /\ c_arguments (op_command y) = [] /\ c_commands (op_command y) <> [].

Lemma level_shows : forall x h rc stop left l, level_at x h rc stop left l ->
  shows (Node (op_command x) h rc stop left (op_subs x)) l.
Proof.
  intros x h rc stop left l (A & B & C & D & E & F). constructor; try assumption.
  intros id. rewrite B. apply history_proof.
Qed.

Definition closed_at (rc : option result_code) (y : open) (l : level) : Prop :=
  level_at y (now y []) (match rc with Some r => r | None => op_result y end) None [] l.

Lemma add_sub_at : forall y h rc stop left l n cur, level_at y h rc stop left l -> shows n cur ->
  level_at (with_sub y n) h rc stop left (add_sub l cur).
Proof.
  intros y h rc stop left l n cur (A & B & C & D & E & F) S0. destruct l. cbn in *.
  repeat split; try assumption. cbn. apply Forall2_app; [exact C|]. constructor; [exact S0|constructor].
Qed.

Lemma shows_whole : forall rc z parents n cur, Forall2 (closed_at rc) z parents -> shows n cur ->
  shows (whole rc n z) (fst (pop_levels (length parents) cur parents)).
Proof.
  intros rc z parents n cur F. revert n cur. induction F as [|y l z parents X F IH]; intros n cur S0; [exact S0|].
  cbn [length pop_levels whole]. apply IH. exact (level_shows _ _ _ _ _ _ (add_sub_at _ _ _ _ _ _ _ _ X S0)).
Qed.

Lemma closed_results : forall rc z ls, Forall2 above_at z ls ->
  Forall2 (closed_at (Some rc)) z (map (set_result rc) ls).
Proof.
  intros rc z ls F. induction F as [|y l z ls ((A & B & C & D & E & G) & _) F IH]; cbn [map]; constructor; [|exact IH].
  destruct l. cbn in *. repeat split; assumption.
Qed.

Lemma closed_open : forall z ls, Forall2 above_at z ls -> Forall2 (closed_at None) z ls.
Proof. intros z ls F. induction F as [|y l z ls (X & _) F IH]; constructor; [exact X|exact IH]. Qed.

Lemma successful_above : forall z ls, Forall2 above_at z ls ->
  Forall2 above_at (map successful z) (map (set_result RC_SUCCESS) ls).
Proof.
  intros z ls F. induction F as [|y l z ls ((A & B & C & D & E & G) & P1 & P2 & P3) F IH]; cbn [map]; constructor; [|exact IH].
  destruct l, y. cbn in *. repeat split; assumption.
Qed.

(* ------------------------------------------------------------------------ *)
(** ** Ending commands *)

Lemma settled_unique : forall x h h', settled x h -> settled x h' -> h = h'.
Proof.
  intros x h h' (ks & F & ->) (ks' & F' & ->). rewrite (fair_unique_proof _ _ _ _ F F'). reflexivity.
Qed.

Lemma settled_none : forall y, positionals (op_words y) = [] -> c_arguments (op_command y) = [] ->
  settled y (now y []).
Proof.
  intros y Pn Ca. exists []. unfold given. rewrite Pn, Ca. split; [|reflexivity].
  split; [reflexivity|]. split; [reflexivity|]. split.
  - intros i a x E. destruct i; discriminate E.
  - intros i j a b x y0 _ E. destruct i; discriminate E.
Qed.

Lemma leaves_pops : forall x z m z', leaves x z m z' -> forall got cur parents, open_at x got cur ->
  settled x (now x got) -> Forall2 above_at z parents ->
  exists i l ls, (forall j, multi_parent_loop parents j = Some (j + i)) /\
    pop_levels (S i) cur parents = (l, ls) /\ above_at m l /\ Forall2 above_at z' ls.
Proof.
  intros x z m z' Lv. induction Lv as [x h p z St Ml|x h p z m z' St Ml Lv IH];
    intros got cur parents Oc St0 F; inversion F as [|? l ? ls X F']; subst;
    unfold open_at in Oc; rewrite <- (settled_unique _ _ _ St St0) in Oc; pose proof (level_shows _ _ _ _ _ _ Oc) as Sh;
    destruct X as (X & P1 & P2 & P3); pose proof (add_sub_at _ _ _ _ _ _ _ _ X Sh) as X'; fold (ended_as x h) in X'.
  - exists 0, (add_sub l cur), ls. split.
    + intros j. cbn [multi_parent_loop]. destruct X as (-> & _). rewrite Ml. f_equal. lia.
    + split; [reflexivity|]. split; [|exact F']. split; [exact X'|]. split; [exact P1|]. split; [exact P2|exact P3].
  - destruct (IH [] (add_sub l cur) ls) as (i & l2 & ls2 & Lp & Pp & Am & F2).
    + exact X'.
    + apply settled_none; [exact P1|exact P2].
    + exact F'.
    + exists (S i), l2, ls2. split.
      * intros j. cbn [multi_parent_loop]. destruct X as (-> & _). rewrite Ml, Lp. f_equal. lia.
      * split; [exact Pp|]. split; [exact Am|exact F2].
Qed.

Lemma resumable_loop : forall z m, resumable z m -> forall parents, Forall2 above_at z parents ->
  exists i, (forall j, multi_parent_loop parents j = Some (j + i)) /\
    option_map l_command (nth_error parents i) = Some m.
Proof.
  intros z m Rs. induction Rs as [p z Ml|p z m Ml Rs IH]; intros parents F; inversion F as [|? l ? ls X F']; subst;
    destruct X as ((X & _) & _).
  - exists 0. split; [|cbn; rewrite X; reflexivity]. intros j. cbn [multi_parent_loop]. rewrite X, Ml. f_equal. lia.
  - destruct (IH ls F') as (i & Lp & En). exists (S i). split; [|exact En].
    intros j. cbn [multi_parent_loop]. rewrite X, Ml, Lp. f_equal. lia.
Qed.

Lemma loop_resumable : forall z parents, Forall2 above_at z parents -> forall j k,
  multi_parent_loop parents j = Some k -> exists m, resumable z m.
Proof.
  intros z parents F. induction F as [|y l z parents X F IH]; intros j k E; [discriminate|].
  cbn [multi_parent_loop] in E. destruct X as ((X & _) & _). rewrite X in E.
  destruct (c_multi (op_command y)) eqn:Ml; [exists (op_command y); constructor; exact Ml|].
  destruct (IH _ _ E) as (m & Rs). exists m. constructor; assumption.
Qed.

Lemma resumable_one : forall z m m', resumable z m -> resumable z m' -> m = m'.
Proof.
  intros z m m' Rs. induction Rs as [p z Ml|p z m Ml Rs IH]; intros Rs'; inversion Rs'; subst; try congruence. auto.
Qed.

Section Multi.
Variables (p q : parser_data).
Hypothesis H : finish_parser p = Val q.
Let cfg := d_settings q.
Let top := d_command q.
Hypothesis Sd : sound top.
Hypothesis Hn : no_insertions cfg top.
Hypothesis Hi : no_interference cfg top.
Hypothesis Ig : s_ignore_arguments cfg = false.

Lemma another_above : forall x z parents t d, Forall2 above_at z parents -> another cfg x z t d ->
  exists i, (forall j, multi_parent_loop parents j = Some (j + i)) /\ above cfg parents t = Some (d, S i).
Proof.
  intros x z parents t d F (_ & m & Rs & Fn). destruct (resumable_loop z m Rs parents F) as (i & Lp & En).
  exists i. split; [exact Lp|]. unfold above. rewrite Lp. cbn [Nat.add]. rewrite En.
  pose proof (first_found q m t d Fn) as X. fold cfg in X. rewrite X. reflexivity.
Qed.

Lemma none_above : forall x z parents t, Forall2 above_at z parents -> (forall d, ~ another cfg x z t d) ->
  (minima (c_arguments (op_command x)) <= given x)%N -> above cfg parents t = None.
Proof.
  intros x z parents t F Na Mn. destruct (above cfg parents t) as [(d, k)|] eqn:E; [|reflexivity]. exfalso.
  unfold above in E. destruct (multi_parent_loop parents 1) as [[|i]|] eqn:Lp; try discriminate.
  destruct (loop_resumable z parents F _ _ Lp) as (m & Rs).
  destruct (resumable_loop z m Rs parents F) as (i' & Lp' & En). rewrite Lp' in Lp. injection Lp as <-.
  rewrite En in E. destruct (find_command m t (s_case_insensitive cfg)) as [d'|] eqn:Fc; [|discriminate].
  destruct (found_first q m t d' Fc) as (d1 & Fn). apply (Na d1). split; [exact Mn|]. exists m. split; assumption.
Qed.

(* ------------------------------------------------------------------------ *)
(** ** The invariant *)

Definition tracks (args : list str) (c : cmd_data) (got : list arg_data) (st : pstate) : Prop :=
  exists st0 rs, entered cfg top args st0 /\ ps_command st0 = c /\ proceeds cfg st0 rs st /\
    Forall (foreseeable cfg c) rs /\ received rs = got.

Definition back (c : cmd_data) (only : bool) (got : list arg_data) (st : pstate) : Prop :=
  ps_counter st = empty_counter /\ c_commands c <> [] /\ c_arguments c = [] /\ got = [] /\ only = true.

Record multi_inv (args : list str) (x : open) (z : list open) (only : bool) (pl : place) (got : list arg_data)
  (st : pstate) : Prop := {
  mi_reached : exists m, reached cfg top args st m;
  mi_tracks : tracks args (op_command x) got st \/ back (op_command x) only got st;
  mi_count : length got = length (positionals (op_words x));
  mi_room : (given x <= maxima (c_arguments (op_command x)))%N;
  mi_mode : ps_mode st = if only then ARGUMENTS_ONLY else ARGUMENTS_AND_OPTIONS;
  mi_place : stands q st pl;
  mi_above : Forall2 above_at z (ps_parents st);
  mi_level : open_at x got (ps_cur st);
  mi_calm : Forall quiet (ps_events st);
  mi_plain : c_commands (op_command x) <> [] -> positionals (op_words x) = [];
  mi_from : ends_with (it_args (ps_iter st)) args
}.

Lemma mi_facts : forall args x z only pl got st, multi_inv args x z only pl got st ->
  shape cfg top st /\ ps_command st = op_command x /\ within top (op_command x) /\
  N.of_nat (length got) = given x /\ (c_commands (op_command x) <> [] -> c_arguments (op_command x) = []).
Proof.
  intros args x z only pl got st [(m & Rc) Tr Cn Rm Md Pl Ab Le Ca Pn Fr].
  pose proof (reached_shape p q H args st m Rc) as Sh. destruct Le as (Lc & _).
  assert (Ec : ps_command st = op_command x) by (rewrite (sh_command _ _ _ Sh); exact Lc).
  assert (Wi : within top (op_command x)) by (rewrite <- Lc; eapply chain_within; apply (sh_chain _ _ _ Sh)).
  split; [exact Sh|]. split; [exact Ec|]. split; [exact Wi|]. split; [unfold given; rewrite Cn; reflexivity|].
  intros X. destruct (Sd _ Wi) as (_ & _ & [Y|Y]); [exact Y|contradiction].
Qed.

Lemma parent_within : forall st, shape cfg top st -> forall l, In l (ps_parents st) -> within top (l_command l).
Proof.
  intros st Sh. pose proof (sh_chain _ _ _ Sh) as Ch. revert Ch. generalize (ps_cur st). clear.
  induction (ps_parents st) as [|x ls IH]; intros cur Ch l Il; [contradiction|].
  destruct Ch as (_ & Ch). destruct Il as [->|Il]; [exact (chain_within _ _ _ Ch)|exact (IH x Ch l Il)].
Qed.

Lemma back_words : forall o v x, positionals (op_words (with_word x (Optional o v))) = positionals (op_words x).
Proof. intros o v x. cbn. rewrite positionals_app. cbn. apply app_nil_r. Qed.

Lemma now_option : forall x got o v, length got = length (positionals (op_words x)) ->
  now (with_word x (Optional o v)) got = now x got ++ match option_change o v with Some ch => [ch] | None => [] end.
Proof.
  intros x got o v Cn. unfold now. cbn [op_init op_words with_word].
  pose proof (meant_app (op_words x) [Optional o v] got [] Cn) as X. rewrite app_nil_r in X. rewrite X.
  cbn [meant]. rewrite app_nil_r. apply app_assoc.
Qed.

Lemma now_positional : forall x got a t, length got = length (positionals (op_words x)) ->
  now (with_word x (Positional t)) (got ++ [a]) = now x got ++ meant [a] [Positional t].
Proof.
  intros x got a t Cn. unfold now. cbn [op_init op_words with_word].
  rewrite (meant_app (op_words x) [Positional t] got [a] Cn). apply app_assoc.
Qed.

(* ------------------------------------------------------------------------ *)
(** ** Going on *)

Lemma mi_option : forall args x z pl got st t o pl' v pl'', multi_inv args x z false pl got st ->
  flag cfg (op_command x) pl t o pl' -> takes (s_style cfg) o pl' v pl'' ->
  o_type o = OT_NORMAL \/ o_type o = OT_LAST_OPTION -> foreseen cfg (op_command x) (Optional o v) ->
  exists st', next cfg st = Ret (mk_ir IC_OPTION (ItOption o) v) st' /\
    multi_inv args (with_word x (Optional o v)) z (match o_type o with OT_LAST_OPTION => true | _ => false end) pl'' got st'.
Proof.
  intros args x z pl got st t o pl' v pl'' I0 Fl Ta Ty Fo.
  destruct (mi_facts _ _ _ _ _ _ _ I0) as (Sh & Ec & Wi & _). destruct I0 as [(m & Rc) Tr Cn Rm Md Pl Ab Le Ca Pn Fr].
  rewrite <- Ec in Fl.
  destruct (flag_next p q H Hn Hi st pl t o pl' v pl'' Sh Md Pl Fl Ta) as (it & it' & n & evs & Nx & _ & _ & Io & Rv & A2 & Fe & E).
  fold cfg in E.
  assert (G : exists st', next cfg st = Ret (mk_ir IC_OPTION (ItOption o) v) st' /\
    st' = set_mode (noted (started o st v it') n evs)
            (match o_type o with OT_LAST_OPTION => ARGUMENTS_ONLY | _ => ARGUMENTS_AND_OPTIONS end)).
  { eexists. split; [|reflexivity]. rewrite E. destruct Ty as [Ty|Ty]; unfold apply_type; rewrite Ty; cbn; [|reflexivity].
    rewrite <- Md. destruct st. reflexivity. }
  destruct G as (st' & Es & Est). exists st'. split; [exact Es|].
  assert (Md' : ps_mode st' = if match o_type o with OT_LAST_OPTION => true | _ => false end then ARGUMENTS_ONLY else ARGUMENTS_AND_OPTIONS).
  { rewrite Est. cbn. destruct Ty as [Ty|Ty]; rewrite Ty; reflexivity. }
  constructor.
  - eexists. eapply reached_next; eassumption.
  - left. destruct Tr as [(st0 & rs & En & Ec0 & Pc & Fs & Er)|(_ & _ & _ & _ & X)]; [|discriminate X].
    exists st0, (rs ++ [mk_ir IC_OPTION (ItOption o) v]). split; [exact En|]. split; [exact Ec0|]. split; [|split].
    + apply (proceeds_app q st0 rs st); [exact Pc|exact Es|discriminate|].
      intros [D|[D|(o2 & D & T)]].
      * rewrite Md' in D. destruct (o_type o); discriminate D.
      * discriminate D.
      * cbn in D. injection D as <-. destruct Ty as [X|X]; rewrite X in T; discriminate T.
    + apply Forall_app. split; [exact Fs|]. constructor; [|constructor]. cbn. split; [|exact Fo].
      destruct Ty as [X|X]; rewrite X; discriminate.
    + unfold received in *. rewrite flat_map_app. cbn. rewrite app_nil_r. exact Er.
  - rewrite back_words. exact Cn.
  - unfold given. rewrite back_words. exact Rm.
  - exact Md'.
  - unfold stands. rewrite Est. exact A2.
  - rewrite Est. exact Ab.
  - rewrite Est. destruct Le as (L1 & L2 & L3). unfold open_at, level_at. cbn [ps_cur set_mode noted started].
    cbn. split; [exact L1|]. split; [|exact L3].
    rewrite op_values_fold, L2, <- fold_left_app, now_option by exact Cn. reflexivity.
  - rewrite Est. cbn. apply Forall_app. auto.
  - intros X. rewrite back_words. exact (Pn X).
  - rewrite Est. exact (ends_tran _ _ _ (reads_args _ _ _ _ Rv) (ends_tran _ _ _ (next_args _ _ _ Nx) Fr)).
Qed.

(** Nothing begins another command here. *)
Lemma stay_here : forall args x z only pl got st t it, multi_inv args x z only pl got st ->
  c_commands (op_command x) = [] -> (forall d, ~ another cfg x z t d) ->
  find_sibling_command cfg (set_iter st it) t = None /\
  ((N.of_nat (length got) < minima (c_arguments (op_command x)))%N \/ above cfg (ps_parents st) t = None).
Proof.
  intros args x z only pl got st t it I0 Cm Na.
  destruct (mi_facts _ _ _ _ _ _ _ I0) as (Sh & Ec & Wi & Eg & _). destruct I0 as [_ Tr Cn Rm Md Pl Ab Le Ca Pn Fr].
  rewrite sibling_above. change (ps_counter (set_iter st it)) with (ps_counter st).
  change (ps_parents (set_iter st it)) with (ps_parents st). rewrite Eg.
  destruct (N.lt_ge_cases (given x) (minima (c_arguments (op_command x)))) as [Ln|Ln].
  - split; [|left; exact Ln].
    destruct Tr as [(st0 & rs & En & Ec0 & Pc & Fs & Er)|(_ & X & _)]; [|contradiction].
    rewrite <- Ec0 in Fs.
    assert (X : (N.of_nat (length (received rs)) < minima (c_arguments (ps_command st0)))%N) by (rewrite Er, Ec0, Eg; exact Ln).
    rewrite (short_incomplete p q H Sd Hn Ig args st0 rs st En Pc Fs X). reflexivity.
  - pose proof (none_above x z (ps_parents st) t Ab Na Ln) as X. split; [|right; exact X].
    rewrite X. destruct (is_complete _); reflexivity.
Qed.

Lemma mi_positional : forall args x z only pl got st t pl', multi_inv args x z only pl got st ->
  plain cfg only pl t pl' -> c_commands (op_command x) = [] -> no_beginning cfg (op_command x) t ->
  (forall d, ~ another cfg x z t d) -> (given x < maxima (c_arguments (op_command x)))%N ->
  exists a st', next cfg st = Ret (mk_ir IC_ARGUMENT (ItArgument a) t) st' /\
    multi_inv args (with_word x (Positional t)) z only pl' (got ++ [a]) st'.
Proof.
  intros args x z only pl got st t pl' I0 Pt Cm Nb Na Lt.
  pose proof (fun it => stay_here _ _ _ _ _ _ _ t it I0 Cm Na) as Sib.
  destruct (mi_facts _ _ _ _ _ _ _ I0) as (Sh & Ec & Wi & Eg & _). destruct I0 as [(m & Rc) Tr Cn Rm Md Pl Ab Le Ca Pn Fr].
  destruct Tr as [(st0 & rs & En & Ec0 & Pc & Fs & Er)|(_ & X & _)]; [|contradiction].
  destruct (plain_reads q only st pl t pl' Md Pl Pt) as (it & R & A' & Nl & Io).
  destruct (Sib it) as (Ns & Sh2). clear Sib.
  destruct (ready p q H Sd Hn Ig args st0 rs st t it En Pc) as (a & ac & Nx); rewrite ?Ec0, ?Er, ?Eg; try assumption.
  { rewrite <- Eg. exact Sh2. }
  assert (Ia : In a (c_arguments (op_command x))).
  { rewrite <- Ec. pose proof (next_from (ps_counter st)) as (_ & X). rewrite Nx in X. apply (sh_from _ _ _ Sh). apply X. reflexivity. }
  set (s1 := set_values (set_counter (set_iter st it) ac)
               (append_value (l_values (ps_cur st)) (a_value_id a) t (a_argument_id a))).
  destruct (two_run q Hn Hi (a_callback a) (argument_cb cfg a) (EvArgumentCallback false (a_argument_id a) t)
    (EvArgumentCallback true (a_argument_id a) t) t s1) as (n & evs & Rn & Fe).
  { intros f E. eapply cb_argument_own; eassumption. }
  { intros f E. eapply cb_argument_global; eassumption. }
  { exact Logic.I. } { exact Logic.I. }
  fold cfg in Rn.
  assert (Es : next cfg st = Ret (mk_ir IC_ARGUMENT (ItArgument a) t) (noted s1 n evs)).
  { rewrite (next_eq cfg _ _ _ R). unfold process_token. rewrite bind_gets. fold cfg in Io. rewrite Io.
    change (ps_command (set_iter st it)) with (ps_command st). rewrite Ec, Cm. cbn [is_empty].
    unfold process_argument. rewrite bind_gets, Ns.
    unfold bind at 1, m_next_argument. change (ps_counter (set_iter st it)) with (ps_counter st). rewrite Nx.
    rewrite bind_modify. change (set_values _ _) with s1. unfold bind in Rn |- *.
    destruct (run_callback cfg (a_callback a) _ t s1) as [[] s2| | | |]; try discriminate Rn. rewrite Rn. reflexivity. }
  exists a, (noted s1 n evs). split; [exact Es|].
  constructor.
  - eexists. eapply reached_next; eassumption.
  - left. exists st0, (rs ++ [mk_ir IC_ARGUMENT (ItArgument a) t]). split; [exact En|]. split; [exact Ec0|]. split; [|split].
    + apply (proceeds_app q st0 rs st); [exact Pc|exact Es|discriminate|].
      intros [D|[D|(o2 & D & T)]]; [|discriminate D|discriminate D].
      cbn in D. rewrite Md in D. destruct only; discriminate D.
    + apply Forall_app. split; [exact Fs|]. constructor; [exact Nb|constructor].
    + unfold received in *. rewrite flat_map_app, Er. reflexivity.
  - cbn [op_words with_word]. rewrite positionals_app, !app_length. cbn. rewrite Cn. reflexivity.
  - unfold given in *. cbn [op_words op_command with_word]. rewrite positionals_app, app_length. cbn. lia.
  - exact Md.
  - exact A'.
  - exact Ab.
  - destruct Le as (L1 & L2 & L3). unfold open_at, level_at. cbn. split; [exact L1|]. split; [|exact L3].
    rewrite now_positional, fold_left_app, <- L2 by exact Cn. reflexivity.
  - cbn. apply Forall_app. auto.
  - intros X. contradiction.
  - exact (ends_tran _ _ _ (read_args _ _ _ R) Fr).
Qed.

(** Entering a sub-command. *)
Lemma enter : forall args st m d s0 x z pl cur0, reached cfg top args st m -> within top d ->
  Forall2 above_at (x :: z) (ps_cur s0 :: ps_parents s0) -> at_place (s_style cfg) (ps_iter s0) pl ->
  it_current (ps_iter s0) = Some cur0 -> Forall quiet (ps_events s0) -> ends_with (it_args (ps_iter s0)) args ->
  next cfg st = process_command cfg d s0 ->
  exists st', next cfg st = Ret (mk_ir IC_COMMAND (ItCommand d) cur0) st' /\
    multi_inv args (opened d) (x :: z) false pl [] st'.
Proof.
  intros args st m d s0 x z pl cur0 Rc Wd Ab A' Ecur Ca Fr En.
  set (s1 := mk_ps d (new_level d) (ps_cur s0 :: ps_parents s0) (ps_iter s0) (ps_counter s0) (ps_mode s0) (ps_calls s0) (ps_events s0)).
  destruct (start_counter_post cfg top s1 Wd (place_wf _ _ _ A')) as (ac & E1 & _).
  exists (set_mode (set_counter s1 ac) ARGUMENTS_AND_OPTIONS).
  assert (Es : next cfg st = Ret (mk_ir IC_COMMAND (ItCommand d) cur0) (set_mode (set_counter s1 ac) ARGUMENTS_AND_OPTIONS)).
  { rewrite En. unfold process_command. rewrite bind_modify. change (mk_ps _ _ _ _ _ _ _ _) with s1.
    unfold bind at 1. rewrite E1, bind_modify. unfold bind, m_current. cbn [ps_iter set_mode set_counter].
    change (ps_iter s1) with (ps_iter s0). rewrite Ecur. reflexivity. }
  split; [exact Es|]. constructor.
  - eexists. eapply reached_next; eassumption.
  - left. exists (set_mode (set_counter s1 ac) ARGUMENTS_AND_OPTIONS), []. split; [eapply entered_command; [exact Rc|exact Es|reflexivity]|].
    split; [reflexivity|]. split; [constructor|]. split; [constructor|reflexivity].
  - reflexivity.
  - unfold given. cbn. apply N.le_0_l.
  - reflexivity.
  - exact A'.
  - exact Ab.
  - unfold open_at, level_at. cbn. repeat split. constructor.
  - exact Ca.
  - reflexivity.
  - exact Fr.
Qed.

Lemma mode_current : forall only st t it, ps_mode st = (if only : bool then ARGUMENTS_ONLY else ARGUMENTS_AND_OPTIONS) ->
  reads st (Some t) it -> exists cur, it_current it = Some cur.
Proof.
  intros only st t it Md R. unfold reads in R. destruct only; rewrite Md in R; apply current_some.
  - eapply next_value_head. exact R.
  - eapply next_head. exact R.
Qed.

Lemma mi_command : forall args x z only pl got st t pl' d, multi_inv args x z only pl got st ->
  plain cfg only pl t pl' -> first_named cfg (op_command x) t d ->
  exists cur st', next cfg st = Ret (mk_ir IC_COMMAND (ItCommand d) cur) st' /\
    multi_inv args (opened d) (x :: z) false pl' [] st'.
Proof.
  intros args x z only pl got st t pl' d I0 Pt Fn.
  destruct (mi_facts _ _ _ _ _ _ _ I0) as (Sh & Ec & Wi & Eg & Cc). destruct I0 as [(m & Rc) Tr Cn Rm Md Pl Ab Le Ca Pn Fr].
  destruct (plain_reads q only st pl t pl' Md Pl Pt) as (it & R & A' & Nl & Io).
  pose proof (first_found q (op_command x) t d Fn) as Fc.
  assert (Nc : c_commands (op_command x) <> []) by (destruct Fn as (b & e & -> & _); destruct b; discriminate).
  assert (Wd : within top d).
  { eapply within_sub; [exact Wi|]. destruct Fn as (b & e & -> & _). apply in_or_app. right. left. reflexivity. }
  destruct (mode_current only st t it Md R) as (cur & Ecur). exists cur.
  apply (enter args st m d (set_iter st it) x z pl' cur Rc Wd); try assumption.
  - cbn. constructor; [|exact Ab]. assert (Eg0 : got = []) by (apply length_zero_iff_nil; rewrite Cn, (Pn Nc); reflexivity).
    rewrite Eg0 in Le. split; [exact Le|]. split; [exact (Pn Nc)|]. split; [exact (Cc Nc)|exact Nc].
  - exact (ends_tran _ _ _ (read_args _ _ _ R) Fr).
  - rewrite (next_eq cfg _ _ _ R). unfold process_token. rewrite bind_gets. fold cfg in Io. rewrite Io.
    change (ps_command (set_iter st it)) with (ps_command st). rewrite Ec.
    destruct (c_commands (op_command x)) as [|y l] eqn:Ex; [contradiction|]. cbn [is_empty]. fold cfg in Fc. rewrite Fc. reflexivity.
Qed.

(** What is known where another sub-command begins. *)
Lemma mi_before : forall args x z only pl got st t pl' d it, multi_inv args x z only pl got st ->
  plain cfg only pl t pl' -> reads st (Some t) it -> c_commands (op_command x) = [] ->
  no_beginning cfg (op_command x) t -> another cfg x z t d ->
  ((is_complete (ps_counter st) = true /\ last_used (c_arguments (op_command x)) (given x)) \/
   (~ last_used (c_arguments (op_command x)) (given x) /\ is_complete (ps_counter st) = false /\
    exists ac, next_argument (ps_counter st) = (None, ac))) /\ settled x (now x got).
Proof.
  intros args x z only pl got st t pl' d it I0 Pt R Cm Nb An.
  destruct (mi_facts _ _ _ _ _ _ _ I0) as (Sh & Ec & Wi & Eg & Cc). destruct I0 as [(m & Rc) Tr Cn Rm Md Pl Ab Le Ca Pn Fr].
  destruct Tr as [(st0 & rs & En & Ec0 & Pc & Fs & Er)|(_ & X & _)]; [|contradiction].
  destruct (another_above x z (ps_parents st) t d Ab An) as (i & _ & Av).
  assert (Nl : ps_mode st = ARGUMENTS_ONLY \/ ~ looks_like_option (s_style cfg) t).
  { destruct (plain_reads q only st pl t pl' Md Pl Pt) as (_ & _ & _ & Nl & _). exact Nl. }
  rewrite <- Ec0 in *.
  destruct (before_cases p q H Sd Hn Ig args st0 rs st t it (d, S i) En Pc Fs R Nl Cm Nb Av) as (A & ks & Fk & Eo).
  { rewrite Er, Eg. split; [destruct An as (An & _); rewrite <- Ec0 in An; exact An|exact Rm]. }
  rewrite Er, Eg in A. rewrite Er, Eg in Fk. split; [exact A|].
  exists ks. rewrite <- Ec0. split; [exact Fk|]. unfold now. rewrite <- Er, Eo. reflexivity.
Qed.

Lemma mi_another : forall args x z only pl got st t pl' d m z', multi_inv args x z only pl got st ->
  plain cfg only pl t pl' -> c_commands (op_command x) = [] -> no_beginning cfg (op_command x) t ->
  another cfg x z t d -> last_used (c_arguments (op_command x)) (given x) -> leaves x z m z' ->
  exists cur st', next cfg st = Ret (mk_ir IC_COMMAND (ItCommand d) cur) st' /\
    multi_inv args (opened d) (m :: z') false pl' [] st'.
Proof.
  intros args x z only pl got st t pl' d m z' I0 Pt Cm Nb An Lu Lv. pose proof I0 as I1.
  destruct (mi_facts _ _ _ _ _ _ _ I0) as (Sh & Ec & Wi & Eg & Cc). destruct I0 as [(mm & Rc) Tr Cn Rm Md Pl Ab Le Ca Pn Fr].
  destruct (plain_reads q only st pl t pl' Md Pl Pt) as (it & R & A' & Nl & Io).
  destruct (mi_before _ _ _ _ _ _ _ _ _ _ it I1 Pt R Cm Nb An) as ([(Cp & _)|(X & _)] & St); [|contradiction].
  destruct (another_above x z (ps_parents st) t d Ab An) as (i & Lp & Av).
  destruct (leaves_pops x z m z' Lv got (ps_cur st) (ps_parents st) Le St Ab) as (i' & l & ls & Lp' & Pp & Am & F2).
  assert (i' = i) as ->. { pose proof (Lp 1) as Q1. pose proof (Lp' 1) as Q2. rewrite Q1 in Q2. injection Q2 as Q2. congruence. }
  assert (Wd : within top d).
  { destruct An as (_ & c & Rs & Fn). destruct (resumable_loop z c Rs (ps_parents st) Ab) as (j & _ & En).
    destruct (nth_error (ps_parents st) j) as [lj|] eqn:Ej; [|discriminate]. cbn in En. injection En as <-.
    eapply within_sub; [apply (parent_within st Sh lj); eapply nth_error_In; exact Ej|].
    destruct Fn as (b & e & -> & _). apply in_or_app. right. left. reflexivity. }
  destruct (mode_current only st t it Md R) as (cur & Ecur). exists cur.
  set (s0 := mk_ps (l_command l) l ls it empty_counter ARGUMENTS_ONLY (ps_calls st) (ps_events st)).
  apply (enter args st mm d s0 m z' pl' cur Rc Wd); try assumption.
  - cbn. constructor; assumption.
  - exact (ends_tran _ _ _ (read_args _ _ _ R) Fr).
  - rewrite (next_eq cfg _ _ _ R). unfold process_token. rewrite bind_gets. fold cfg in Io. rewrite Io.
    change (ps_command (set_iter st it)) with (ps_command st). rewrite Ec, Cm. cbn [is_empty].
    unfold process_argument. rewrite bind_gets, sibling_above.
    change (ps_counter (set_iter st it)) with (ps_counter st). change (ps_parents (set_iter st it)) with (ps_parents st).
    rewrite Cp, Av. unfold reactivate. rewrite bind_modify. cbn [ps_cur ps_parents set_iter]. rewrite Pp. reflexivity.
Qed.

(* ------------------------------------------------------------------------ *)
(** ** What the user sees *)

Definition told (run : nat -> MParser.outcome unit) (args : list str) (out : SMulti.outcome) : Prop :=
  let fails c m n :=
    exists evs st, Forall quiet evs /\ ps_events st = evs ++ [EvError c m] /\
    if s_auto_exit cfg then exists fuel, run fuel = Exits (s_error_exit cfg) st
    else (exists fuel, run fuel = Ret tt st) /\ shows n (toplevel st) in
  let failed x z rest h :=
    whole (Some RC_FAILURE) (Node (op_command x) h RC_FAILURE None rest (op_subs x)) z in
  match out with
  | Complete x z rest => exists h, faultless x h /\
      exists st, (exists fuel, run fuel = Ret tt st) /\ Forall quiet (ps_events st) /\
        shows (whole (Some RC_SUCCESS) (Node (op_command x) h RC_SUCCESS None rest (op_subs x)) z) (toplevel st)
  | Incomplete x z rest => exists h m, unsettled x h /\ defect x h m /\
      fails (op_command x) m (failed x z rest h)
  | Surplus x z t rest => exists h, unsettled x h /\
      fails (op_command x) (MsgTooManyArguments t) (failed x z rest h)
  | Faulty x z e => exists h m rest, unsettled x h /\ complaint args e m rest /\
      fails (op_command x) m (failed x z rest h)
  | Stopped x z o rest => exists h, unsettled x h /\
      exists evs st, Forall quiet evs /\
        ps_events st = evs ++ match o_type o with OT_HELP => [EvHelp (op_command x)] | _ => [] end /\
        if s_auto_exit cfg && match o_type o with OT_STOP => false | _ => true end
        then exists fuel, run fuel = Exits (s_normal_exit cfg) st
        else (exists fuel, run fuel = Ret tt st) /\
             shows (whole None (Node (op_command x) h RC_STOP (Some o) rest (op_subs x)) z) (toplevel st)
  end.

Lemma told_same : forall run run' args out, (forall k, exists k', run' k' = run k) -> told run args out -> told run' args out.
Proof.
  intros run run' args out E T.
  assert (G : forall r, (exists k, run k = r) -> exists k, run' k = r).
  { intros r (k & <-). apply E. }
  destruct out; cbn [told] in *.
  - destruct T as (h & F & st & R & X). exists h. split; [exact F|]. exists st. auto.
  - destruct T as (h & m & U & D & evs & st & Q & Ev & X). exists h, m. split; [exact U|]. split; [exact D|]. exists evs, st.
    split; [exact Q|]. split; [exact Ev|]. destruct (s_auto_exit cfg); [auto|]. destruct X as (X & Y). auto.
  - destruct T as (h & U & evs & st & Q & Ev & X). exists h. split; [exact U|]. exists evs, st.
    split; [exact Q|]. split; [exact Ev|]. destruct (s_auto_exit cfg); [auto|]. destruct X as (X & Y). auto.
  - destruct T as (h & U & evs & st & Q & Ev & X). exists h. split; [exact U|]. exists evs, st.
    split; [exact Q|]. split; [exact Ev|]. destruct (_ && _); [auto|]. destruct X as (X & Y). auto.
  - destruct T as (h & m & rest & U & D & evs & st & Q & Ev & X). exists h, m, rest. split; [exact U|]. split; [exact D|].
    exists evs, st. split; [exact Q|]. split; [exact Ev|]. destruct (s_auto_exit cfg); [auto|]. destruct X as (X & Y). auto.
Qed.

Notation from st := (fun fuel => parse_loop cfg fuel st).

Lemma told_more : forall st st' r args out, next cfg st = Ret r st' -> ir_code r <> IC_ERROR -> ir_code r <> IC_DONE ->
  told (from st') args out -> told (from st) args out.
Proof.
  intros st st' r args out E N1 N2. apply told_same. intros k. exists (S k). cbn [parse_loop]. unfold bind. rewrite E.
  destruct (ir_code r); try congruence; reflexivity.
Qed.

Lemma parents_shown : forall rc x h rrc stop left z st, Forall2 (closed_at rc) z (ps_parents st) ->
  level_at x h rrc stop left (ps_cur st) ->
  shows (whole rc (Node (op_command x) h rrc stop left (op_subs x)) z) (toplevel st).
Proof.
  intros rc x h rrc stop left z st F L. unfold toplevel. apply shows_whole; [exact F|]. apply level_shows. exact L.
Qed.

(** Errors. *)
Lemma error_told : forall st s1 m x h z pl (A : Type) (a : A) (k : A -> M iter_result),
  level_at x h (op_result x) None [] (ps_cur s1) -> Forall2 above_at z (ps_parents s1) -> ps_command s1 = op_command x ->
  at_place (s_style cfg) (ps_iter s1) pl -> Forall quiet (ps_events s1) ->
  next cfg st = bind (bind (error cfg m) (fun _ => ret a)) k s1 ->
  (forall s, exists r, k a s = Ret r s /\ ir_code r = IC_ERROR) ->
  exists evs st', Forall quiet evs /\ ps_events st' = evs ++ [EvError (op_command x) m] /\
    if s_auto_exit cfg then exists fuel, parse_loop cfg fuel st = Exits (s_error_exit cfg) st'
    else (exists fuel, parse_loop cfg fuel st = Ret tt st') /\
      shows (whole (Some RC_FAILURE) (Node (op_command x) h RC_FAILURE None (left_at pl) (op_subs x)) z) (toplevel st').
Proof.
  intros st s1 m x h z pl A a k (L1 & L2 & L3 & L4 & L5 & L6) Ou Ec Pl Ca En Kr.
  pose proof (error_eq cfg m s1 (place_wf _ _ _ Pl)) as Er. rewrite bind_assoc in En.
  destruct (s_auto_exit cfg) eqn:Au.
  - exists (ps_events s1), (add_event s1 (EvError (ps_command s1) m)). split; [exact Ca|].
    split; [cbn; rewrite Ec; reflexivity|]. exists 1. cbn [parse_loop]. unfold bind at 1. rewrite En. unfold bind. rewrite Er. reflexivity.
  - destruct Er as (l & it & Rm & _ & _ & Er). destruct (left_ok _ _ _ Pl) as (it2 & Rm2). rewrite Rm2 in Rm.
    injection Rm as <- <-. exists (ps_events s1), (after_error s1 m (left_at pl) it2). split; [exact Ca|].
    split; [cbn; rewrite Ec; reflexivity|]. split.
    + exists 1. cbn [parse_loop]. unfold bind at 1. rewrite En. unfold bind at 1. rewrite Er. cbn [ret]. unfold bind, ret.
      destruct (Kr (after_error s1 m (left_at pl) it2)) as (r & -> & Cr). rewrite Cr. reflexivity.
    + apply parents_shown; [cbn; apply closed_results; exact Ou|].
      unfold level_at. cbn. rewrite L4. auto 10.
Qed.

Lemma got_in : forall args x z only pl got st, multi_inv args x z only pl got st ->
  forall a, In a got -> In a (c_arguments (op_command x)).
Proof.
  intros args x z only pl got st [Rc Tr Cn Rm Md Pl Ab Le Ca Pn Fr] a Ia.
  destruct Tr as [(st0 & rs & En & Ec & Pc & Fs & Er)|(_ & _ & _ & -> & _)]; [|contradiction]. rewrite <- Ec in Fs |- *. subst got.
  destruct (counters_full p q H Sd Hn Ig args st0 rs st En Pc Fs) as (_ & _ & _ & Wi & Cs).
  destruct (Sd _ Wi) as (Pr & _).
  assert (X : exists l, map snd l = c_arguments (ps_command st0) /\ In a (order l)).
  { destruct Cs as [(_ & _ & L)|(_ & _ & n & s0 & _ & _ & _ & _ & _ & _ & L)].
    - exists (map (fun a => (a_max a, a)) (c_arguments (ps_command st0))). split; [rewrite map_map; apply map_id|].
      unfold left_over, plain_counter in L. simpl in L.
      rewrite make_counters_order in L by (intros y Hy; apply Pr in Hy; lia).
      rewrite L. apply in_or_app. left. exact Ia.
    - exists (make_counters_n (c_arguments (ps_command st0)) n). split; [apply counted_args|].
      rewrite counted_left in L. cbn in L. rewrite L. apply in_or_app. left. exact Ia. }
  destruct X as (l & <- & Il). exact (order_incl l a Il).
Qed.

Lemma unsettled_now : forall args x z only pl got st, multi_inv args x z only pl got st -> unsettled x (now x got).
Proof.
  intros args x z only pl got st I0. exists got. split; [apply (mi_count _ _ _ _ _ _ _ I0)|].
  split; [exact (got_in _ _ _ _ _ _ _ I0)|reflexivity].
Qed.

Lemma unsettled_option : forall args x z only pl got st o v, multi_inv args x z only pl got st ->
  unsettled (with_word x (Optional o v)) (now (with_word x (Optional o v)) got).
Proof.
  intros args x z only pl got st o v I0. exists got. rewrite back_words. split; [apply (mi_count _ _ _ _ _ _ _ I0)|].
  split; [exact (got_in _ _ _ _ _ _ _ I0)|reflexivity].
Qed.

Lemma counter_given : forall args x z only pl got st, multi_inv args x z only pl got st ->
  ac_counter (ps_counter st) = given x.
Proof.
  intros args x z only pl got st I0. destruct (mi_facts _ _ _ _ _ _ _ I0) as (_ & _ & _ & Eg & _).
  destruct I0 as [Rc Tr Cn Rm Md Pl Ab Le Ca Pn Fr]. rewrite <- Eg.
  destruct Tr as [(st0 & rs & En & Ec & Pc & Fs & Er)|(E & _ & _ & -> & _)]; [|rewrite E; reflexivity]. rewrite <- Ec in Fs. subst got.
  destruct (counters_full p q H Sd Hn Ig args st0 rs st En Pc Fs) as (_ & _ & _ & _ & [(_ & E & L)|(_ & _ & n & s0 & _ & _ & _ & E & Ll & _ & _)]);
    rewrite E, calls_count.
  - reflexivity.
  - rewrite L, app_length. lia.
  - unfold counted_counter, consume_initial. cbn. reflexivity.
  - exact Ll.
Qed.

(** The counter where the arguments end. *)
Lemma full : forall args x z only pl got st, multi_inv args x z only pl got st ->
  (forall s0 n, ps_command s0 = op_command x -> ahead cfg s0 n (length got) st -> N.of_nat (length got) = n) ->
  (is_complete (ps_counter st) = true <->
     (minima (c_arguments (op_command x)) <= given x)%N /\ last_used (c_arguments (op_command x)) (given x)) /\
  ((minima (c_arguments (op_command x)) <= given x)%N -> exists ks,
     fair (c_arguments (op_command x)) (given x) ks /\ got = order (combine ks (c_arguments (op_command x)))).
Proof.
  intros args x z only pl got st I0 Ak. destruct (mi_facts _ _ _ _ _ _ _ I0) as (_ & _ & _ & Eg & _).
  destruct I0 as [Rc Tr Cn Rm Md Pl Ab Le Ca Pn Fr].
  destruct Tr as [(st0 & rs & En & Ec & Pc & Fs & Er)|(E & Nc & Ea & -> & _)].
  - subst got. rewrite <- Ec in *. rewrite <- Eg in *. split; [split|].
    + intros Cp. apply (complete_then p q H Sd Hn Ig args st0 rs st En Pc Fs Ak Rm Cp).
    + intros (Mn & Lu). apply (complete_when p q H Sd Hn Ig args st0 rs st En Pc Fs Ak); [split; assumption|exact Lu].
    + intros Mn. destruct (distributed_when p q H Sd Hn Ig args st0 rs st En Pc Fs Ak) as (ks & Fk & Eo); [split; assumption|].
      exists ks. split; [exact Fk|exact Eo].
  - rewrite E, Ea. pose proof (Pn Nc) as Pz. split; [split|].
    + intros _. split; [apply N.le_0_l|]. left. apply requires_count_false. reflexivity.
    + intros _. reflexivity.
    + intros _. exists []. unfold given. rewrite Pz. split; [|reflexivity].
      split; [reflexivity|]. split; [reflexivity|]. split.
      * intros i a y E1. destruct i; discriminate E1.
      * intros i j a b y y0 _ E1. destruct i; discriminate E1.
Qed.

Lemma judged_multi : forall args x z only pl got st x' s1, multi_inv args x z only pl got st ->
  (forall s0 n, ps_command s0 = op_command x -> ahead cfg s0 n (length got) st -> N.of_nat (length got) = n) ->
  op_command x' = op_command x -> op_subs x' = op_subs x -> op_init x' = op_init x ->
  positionals (op_words x') = positionals (op_words x) ->
  ps_command s1 = op_command x -> ps_counter s1 = ps_counter st -> l_subs (ps_cur s1) = l_subs (ps_cur st) ->
  l_values (ps_cur s1) = fold_left apply_change (now x' got) [] ->
  (check_counts cfg s1 = Ret true (after_success s1) /\ faultless x' (now x' got)) \/
  exists m, check_counts cfg s1 = bind (error cfg m) (fun _ => ret false) s1 /\ defect x' (now x' got) m /\
    forall h, ~ faultless x' h.
Proof.
  intros args x z only pl got st x' s1 I0 Ak Ec' Es' Ei' Ep' Ec1 Cn1 Su Ev.
  destruct (mi_facts _ _ _ _ _ _ _ I0) as (Sh & Ec & Wi & Eg & _).
  destruct (full _ _ _ _ _ _ _ I0 Ak) as (Fc & Fs). pose proof (counter_given _ _ _ _ _ _ _ I0) as Cg.
  assert (Eg' : given x' = given x) by (unfold given; rewrite Ep'; reflexivity).
  assert (Fs' : (minima (c_arguments (op_command x)) <= given x)%N -> settled x' (now x' got)).
  { intros X. destruct (Fs X) as (ks & Fk & Eo). exists ks. rewrite Ec', Eg'. split; [exact Fk|].
    unfold now. rewrite <- Eo. reflexivity. }
  assert (Su' : l_subs (ps_cur s1) = [] <-> op_subs x' = []).
  { rewrite Su, Es'. pose proof (mi_level _ _ _ _ _ _ _ I0) as (_ & _ & L3 & _).
    inversion L3; split; intros X; try reflexivity; discriminate X. }
  set (h := now x' got) in *. clearbody h. set (c := op_command x) in *.
  unfold check_counts. rewrite bind_gets, Ec1.
  destruct (mandatory_cases q h (c_options c) s1 Ev) as [(A & E)|(b & o & a & Eo & L & B & E)]; fold cfg in E.
  2:{ right. exists (MsgMandatoryMissing (commas (o_flags o))). split; [|split].
      - unfold bind in E |- *. rewrite E. destruct (error cfg _ s1); reflexivity.
      - left. rewrite Ec'. exists b, o, a. auto.
      - intros h' (_ & _ & St & Mn). assert (h' = h) as ->.
        { apply (settled_unique x'); [exact St|]. apply Fs'. destruct St as (ks & Fk & _). apply fair_between in Fk.
          rewrite Ec', Eg' in Fk. apply Fk. }
        destruct L as (L1 & L2). apply (Mn o); [|exact L1|exact L2]. rewrite Ec', Eo. apply in_or_app. right. left. reflexivity. }
  rewrite !(bind_ret_eq _ _ _ _ _ _ _ E). cbn [negb]. destruct (c_require c) as [req|] eqn:Er.
  2:{ destruct (finish_parser_prepared p q H _ Wi) as (N0 & _). contradiction. }
  rewrite bind_gets. destruct (req && is_empty (l_subs (ps_cur s1))) eqn:Rq.
  { right. exists MsgNoCommand. apply andb_prop in Rq. destruct Rq as (-> & Rq).
    assert (X : op_subs x' = []) by (apply Su'; destruct (l_subs (ps_cur s1)); [reflexivity|discriminate]).
    split; [reflexivity|]. split; [right; left; rewrite Ec'; auto|].
    intros h' (Rq' & _). rewrite Ec' in Rq'. exact (Rq' Er X). }
  assert (Rq' : c_require (op_command x') = Some true -> op_subs x' <> []).
  { rewrite Ec'. intros X Y. apply Su' in Y. fold c in X. rewrite X in Er. injection Er as <-. rewrite Y in Rq. discriminate Rq. }
  rewrite bind_gets, Cn1. destruct (is_complete (ps_counter st)) eqn:Cp.
  { left. split; [reflexivity|]. destruct (proj1 Fc eq_refl) as (Mn & Lu). split; [exact Rq'|]. rewrite Ec', Eg'.
    split; [exact Lu|]. split; [exact (Fs' Mn)|]. intros o Io Op Hh. apply (A o Io). split; assumption. }
  right. destruct (Sd _ Wi) as (Pr & Mx & _). fold c in Pr, Mx. rewrite min_max_proof. eexists. split; [reflexivity|]. split.
  - rewrite Ec' in Rq'. right. right. rewrite Ec', Eg'. split; [exact A|]. split; [exact Rq'|]. split; [intros X; apply Fc in X; discriminate X|].
    rewrite N.min_r by lia. rewrite Cg. reflexivity.
  - intros h' (_ & Lu & (ks & Fk & _) & _). apply fair_between in Fk. rewrite Ec', Eg' in *.
    assert (X : false = true); [apply Fc; split; [apply Fk|exact Lu]|discriminate].
Qed.

(* ------------------------------------------------------------------------ *)
(** ** The endings *)

Lemma at_the_end : forall args x z only pl got st, multi_inv args x z only pl got st ->
  (if only : bool then no_text pl else no_token pl) ->
  exists it, reads st None it /\ at_place (s_style cfg) it (Fresh []) /\
    forall s0 n, ps_command s0 = op_command x -> ahead cfg s0 n (length got) st -> N.of_nat (length got) = n.
Proof.
  intros args x z only pl got st I0 Np. destruct (mi_facts _ _ _ _ _ _ _ I0) as (_ & Ec & _).
  destruct I0 as [Rc Tr Cn Rm Md Pl Ab Le Ca Pn Fr].
  assert (R : exists it, reads st None it /\ at_place (s_style cfg) it (Fresh [])).
  { unfold reads. rewrite Md. destruct only.
    - destruct (no_text_ok _ _ _ Pl Np) as (it & E & A). eauto.
    - eexists. split; [exact (no_token_ok _ _ _ Pl Np)|apply ap_fresh]. }
  destruct R as (it & R & A). exists it. split; [exact R|]. split; [exact A|].
  intros s0 n E1. apply (count_at_end q st st it _ R). rewrite E1. symmetry. exact Ec.
Qed.

Lemma end_told : forall args x z only pl got st, multi_inv args x z only pl got st ->
  (if only : bool then no_text pl else no_token pl) ->
  ((exists h, faultless x h) -> told (from st) args (Complete x z [])) /\
  ((forall h, ~ faultless x h) -> told (from st) args (Incomplete x z [])).
Proof.
  intros args x z only pl got st I0 Np. destruct (at_the_end _ _ _ _ _ _ _ I0 Np) as (it & R & A & Ak).
  pose proof (unsettled_now _ _ _ _ _ _ _ I0) as Un. pose proof I0 as I1.
  destruct (mi_facts _ _ _ _ _ _ _ I0) as (Sh & Ec & Wi & Eg & _). destruct I0 as [Rc Tr Cn Rm Md Pl Ab Le Ca Pn Fr].
  destruct (judged_multi args x z only pl got st x (set_iter st it) I1 Ak) as [(E & Ac)|(m & E & Df & Nf)]; try reflexivity; try assumption.
  { apply Le. }
  - split; [|intros X; exfalso; exact (X _ Ac)]. intros _. exists (now x got). split; [exact Ac|].
    exists (after_success (set_iter st it)). split; [|split; [exact Ca|]].
    + exists 1. cbn [parse_loop]. unfold bind. rewrite (next_eq cfg _ _ _ R). unfold bind. rewrite E. reflexivity.
    + apply parents_shown; [cbn; apply closed_results; exact Ab|].
      destruct Le as (L1 & L2 & L3 & L4 & L5 & L6). unfold level_at. cbn. auto 10.
  - split; [intros (h & X); exfalso; exact (Nf h X)|]. intros _. exists (now x got), m. split; [exact Un|]. split; [exact Df|].
    apply (error_told st (set_iter st it) m x (now x got) z (Fresh []) bool false
      (fun ok => ret (mk_ir (if ok then IC_DONE else IC_ERROR) ItNone []))); try assumption.
    + rewrite (next_eq cfg _ _ _ R). unfold bind in E |- *. rewrite E. reflexivity.
    + intros s. eexists. split; reflexivity.
Qed.

(** A LAST_ARGUMENT option. *)
Lemma last_told : forall args x z pl got st t o pl' v pl'', multi_inv args x z false pl got st ->
  flag cfg (op_command x) pl t o pl' -> takes (s_style cfg) o pl' v pl'' -> o_type o = OT_LAST_ARGUMENT ->
  let x' := with_word x (Optional o v) in
  ((exists h, faultless x' h) -> (forall m, ~ resumable z m) -> told (from st) args (Complete x' z (left_at pl''))) /\
  ((forall h, ~ faultless x' h) -> told (from st) args (Incomplete x' z (left_at pl''))) /\
  (forall m z', (exists h, faultless x' h) -> leaves (successful x') (map successful z) m z' ->
    exists st', next cfg st = Ret (mk_ir IC_OPTION (ItOption o) v) st' /\ multi_inv args m z' true pl'' [] st').
Proof.
  intros args x z pl got st t o pl' v pl'' I0 Fl Ta Ty x'. pose proof I0 as I1.
  pose proof (unsettled_option _ _ _ _ _ _ _ o v I0) as Un. fold x' in Un.
  destruct (mi_facts _ _ _ _ _ _ _ I0) as (Sh & Ec & Wi & Eg & _). destruct I0 as [(m0 & Rc) Tr Cn Rm Md Pl Ab Le Ca Pn Fr].
  rewrite <- Ec in Fl.
  destruct (flag_next p q H Hn Hi st pl t o pl' v pl'' Sh Md Pl Fl Ta) as (it & it' & n & evs & Nx & W1 & Fo & Io & Rv & A2 & Fe & E).
  fold cfg in E. rewrite Ec in Fo.
  pose proof Le as (L1 & L2 & L3 & L4 & L5 & L6).
  set (s1 := set_mode (noted (started o st v it') n evs) ST_DONE).
  assert (V1 : l_values (ps_cur s1) = fold_left apply_change (now x' got) []).
  { cbn. rewrite op_values_fold, L2, <- fold_left_app. unfold x'. rewrite now_option by exact Cn. reflexivity. }
  assert (Q1 : Forall quiet (ps_events s1)) by (cbn; apply Forall_app; auto).
  assert (Lx : level_at x' (now x' got) (op_result x') None [] (ps_cur s1)).
  { unfold level_at. split; [exact L1|]. split; [exact V1|]. cbn. auto 10. }
  assert (Er : forall st' r, bind (check_counts cfg) (fun ok : bool => if negb ok then ret (mk_ir IC_ERROR ItNone [])
      else k <- gets find_first_multi_command_parent ;;
           match k with
           | Some k => reactivate k ;;; ret (mk_ir IC_OPTION (ItOption o) v)
           | None => copy_remaining ;;; ret (mk_ir IC_OPTION (ItOption o) v)
           end) s1 = Ret r st' -> next cfg st = Ret r st').
  { intros st' r X. rewrite E. unfold apply_type. rewrite Ty. unfold bind at 1. unfold bind at 1. rewrite bind_modify.
    cbn [ret]. cbv beta iota. exact X. }
  destruct (judged_multi args x z false pl got st x' s1 I1) as [(E1 & Ac)|(m & E1 & Df & Nf)]; try reflexivity; try assumption.
  { intros s0 n0 X. apply (count_at_last q s0 st t it o _ Md Nx W1); [rewrite X; exact Fo|left; exact Ty|reflexivity]. }
  { apply back_words. }
  - set (s2 := after_success s1).
    assert (Ls : open_at (successful x') got (ps_cur s2)).
    { destruct Lx as (K1 & K2 & K3 & K4 & K5 & K6). unfold open_at, level_at. cbn. cbn in K1, K2, K3, K4, K6. auto 10. }
    assert (As : Forall2 above_at (map successful z) (ps_parents s2)) by (cbn; apply successful_above; exact Ab).
    split; [|split].
    + intros _ Nr. exists (now x' got). split; [exact Ac|]. destruct (left_ok _ _ _ A2) as (it2 & Rem).
      assert (Fm : find_first_multi_command_parent s2 = None).
      { unfold find_first_multi_command_parent. destruct (multi_parent_loop (ps_parents s2) 1) as [k|] eqn:Lp; [|reflexivity].
        exfalso. destruct (loop_resumable _ _ As _ _ Lp) as (m & Rs). apply (Nr m). clear - Rs.
        remember (map successful z) as zz eqn:Ez. revert z Ez. induction Rs as [y zz Ml|y zz m Ml Rs IH]; intros z Ez;
          (destruct z as [|y0 z]; [discriminate|]); cbn in Ez; injection Ez as -> Ez.
        - exact (rs_here y0 z Ml).
        - apply rs_further; [exact Ml|]. apply IH. exact Ez. }
      set (s3 := set_cur (set_iter s2 it2) (add_unprocessed (ps_cur s2) (left_at pl''))).
      assert (E3 : next cfg st = Ret (mk_ir IC_OPTION (ItOption o) v) s3).
      { apply Er. unfold bind at 1. rewrite E1. cbn [negb]. rewrite bind_gets. fold s2. rewrite Fm. unfold bind at 1, copy_remaining.
        change (ps_iter s2) with it'. rewrite Rem. reflexivity. }
      exists s3. split; [|split; [exact Q1|]].
      * exists 2. apply (loop_more q 1 s3 s3 (mk_ir IC_OPTION (ItOption o) v) st); [|exact E3|discriminate|discriminate].
        reflexivity.
      * apply parents_shown; [cbn; apply closed_results; exact Ab|].
        destruct Ls as (K1 & K2 & K3 & K4 & K5 & K6). unfold level_at. cbn. cbn in K1, K2, K3, K4, K6. rewrite K4. auto 10.
    + intros X. exfalso. exact (X _ Ac).
    + intros m z' _ Lv.
      assert (St : settled (successful x') (now (successful x') got)) by exact (proj1 (proj2 (proj2 Ac))).
      destruct (leaves_pops _ _ _ _ Lv got (ps_cur s2) (ps_parents s2) Ls St As) as (i & l & ls & Lp & Pp & Am & F2).
      set (s3 := mk_ps (l_command l) l ls (ps_iter s2) empty_counter ARGUMENTS_ONLY (ps_calls s2) (ps_events s2)).
      assert (E3 : next cfg st = Ret (mk_ir IC_OPTION (ItOption o) v) s3).
      { apply Er. unfold bind at 1. rewrite E1. cbn [negb]. rewrite bind_gets. fold s2.
        unfold find_first_multi_command_parent. rewrite Lp. cbn [Nat.add]. unfold reactivate. rewrite bind_modify, Pp. reflexivity. }
      exists s3. split; [exact E3|]. destruct Am as (Am & P1 & P2 & Nc).
      constructor.
      * eexists. eapply reached_next; eassumption.
      * right. split; [reflexivity|]. auto.
      * rewrite P1. reflexivity.
      * unfold given. rewrite P1. cbn. apply N.le_0_l.
      * reflexivity.
      * exact A2.
      * exact F2.
      * exact Am.
      * exact Q1.
      * intros _. exact P1.
      * exact (ends_tran _ _ _ (reads_args _ _ _ _ Rv) (ends_tran _ _ _ (next_args _ _ _ Nx) Fr)).
  - split; [intros (h & X); exfalso; exact (Nf h X)|]. split; [|intros m1 z' (h & X); exfalso; exact (Nf h X)].
    intros _. exists (now x' got), m. split; [exact Un|]. split; [exact Df|].
    apply (error_told st s1 m x' (now x' got) z pl'' bool false
      (fun ok : bool => if negb ok then ret (mk_ir IC_ERROR ItNone [])
      else k <- gets find_first_multi_command_parent ;;
           match k with
           | Some k => reactivate k ;;; ret (mk_ir IC_OPTION (ItOption o) v)
           | None => copy_remaining ;;; ret (mk_ir IC_OPTION (ItOption o) v)
           end)); try assumption.
    + rewrite E. unfold apply_type. rewrite Ty. unfold bind at 1. unfold bind at 1. rewrite bind_modify. cbn [ret]. cbv beta iota.
      unfold concludes, conclude. change (set_mode _ ST_DONE) with s1. unfold bind in E1 |- *. rewrite E1. reflexivity.
    + intros s. eexists. split; reflexivity.
Qed.

(** Too many arguments. *)
Lemma too_many : forall args x z only pl got st t pl' it ac, multi_inv args x z only pl got st ->
  plain cfg only pl t pl' -> reads st (Some t) it -> at_place (s_style cfg) it pl' ->
  c_commands (op_command x) = [] -> find_sibling_command cfg (set_iter st it) t = None ->
  next_argument (ps_counter st) = (None, ac) -> told (from st) args (Surplus x z t (left_at pl')).
Proof.
  intros args x z only pl got st t pl' it ac I0 Pt R A' Cm Ns Na. exists (now x got).
  split; [exact (unsettled_now _ _ _ _ _ _ _ I0)|].
  destruct (mi_facts _ _ _ _ _ _ _ I0) as (Sh & Ec & Wi & Eg & _). destruct I0 as [Rc Tr Cn Rm Md Pl Ab Le Ca Pn Fr].
  destruct (plain_reads q only st pl t pl' Md Pl Pt) as (_ & _ & _ & _ & Io). fold cfg in Io.
  apply (error_told st (set_counter (set_iter st it) ac) (MsgTooManyArguments t) x (now x got) z pl' iter_result
    (mk_ir IC_ERROR ItNone []) (fun r => ret r)); try assumption.
  - rewrite (next_eq cfg _ _ _ R). unfold process_token. rewrite bind_gets, Io.
    change (ps_command (set_iter st it)) with (ps_command st). rewrite Ec, Cm. cbn [is_empty].
    unfold process_argument. rewrite bind_gets, Ns.
    unfold bind at 1, m_next_argument. change (ps_counter (set_iter st it)) with (ps_counter st). rewrite Na, Ig.
    unfold bind. destruct (error cfg (MsgTooManyArguments t) (set_counter (set_iter st it) ac)); reflexivity.
  - intros s. eexists. split; reflexivity.
Qed.

Lemma surplus_told : forall args x z only pl got st t pl', multi_inv args x z only pl got st ->
  plain cfg only pl t pl' -> c_commands (op_command x) = [] -> (forall d, ~ another cfg x z t d) ->
  (maxima (c_arguments (op_command x)) <= given x)%N -> told (from st) args (Surplus x z t (left_at pl')).
Proof.
  intros args x z only pl got st t pl' I0 Pt Cm Na Mx. pose proof I0 as I1.
  destruct (mi_facts _ _ _ _ _ _ _ I0) as (Sh & Ec & Wi & Eg & _). destruct I0 as [Rc Tr Cn Rm Md Pl Ab Le Ca Pn Fr].
  destruct (plain_reads q only st pl t pl' Md Pl Pt) as (it & R & A' & _).
  destruct Tr as [(st0 & rs & En & Ec0 & Pc & Fs & Er)|(_ & X & _)]; [|contradiction]. rewrite <- Ec0 in Fs.
  destruct (exhausted p q H Sd Hn Ig args st0 rs st En Pc Fs) as (ac & Nx).
  { rewrite Er, Ec0, Eg. lia. }
  exact (too_many _ _ _ _ _ _ _ _ _ it ac I1 Pt R A' Cm (proj1 (stay_here _ _ _ _ _ _ _ t it I1 Cm Na)) Nx).
Qed.

Lemma unfair_told : forall args x z only pl got st t pl' d, multi_inv args x z only pl got st ->
  plain cfg only pl t pl' -> c_commands (op_command x) = [] -> no_beginning cfg (op_command x) t ->
  another cfg x z t d -> ~ last_used (c_arguments (op_command x)) (given x) ->
  told (from st) args (Surplus x z t (left_at pl')).
Proof.
  intros args x z only pl got st t pl' d I0 Pt Cm Nb An Lu.
  destruct (plain_reads q only st pl t pl' (mi_mode _ _ _ _ _ _ _ I0) (mi_place _ _ _ _ _ _ _ I0) Pt) as (it & R & A' & _).
  destruct (mi_before _ _ _ _ _ _ _ _ _ _ it I0 Pt R Cm Nb An) as ([(_ & X)|(_ & Cp & ac & Nx)] & _); [contradiction|].
  apply (too_many _ _ _ _ _ _ _ _ _ it ac I0 Pt R A' Cm); [|exact Nx].
  rewrite sibling_above. change (ps_counter (set_iter st it)) with (ps_counter st). rewrite Cp. reflexivity.
Qed.

Lemma no_command_told : forall args x z only pl got st t pl', multi_inv args x z only pl got st ->
  plain cfg only pl t pl' -> c_commands (op_command x) <> [] -> (forall d, ~ first_named cfg (op_command x) t d) ->
  told (from st) args (Faulty x z (AtNoCommand t (left_at pl'))).
Proof.
  intros args x z only pl got st t pl' I0 Pt Cm Nf. exists (now x got), (MsgUnknownCommand t), (left_at pl').
  split; [exact (unsettled_now _ _ _ _ _ _ _ I0)|]. split; [split; reflexivity|].
  destruct (mi_facts _ _ _ _ _ _ _ I0) as (Sh & Ec & Wi & Eg & _). destruct I0 as [Rc Tr Cn Rm Md Pl Ab Le Ca Pn Fr].
  destruct (plain_reads q only st pl t pl' Md Pl Pt) as (it & R & A' & _ & Io). fold cfg in Io.
  apply (error_told st (set_iter st it) (MsgUnknownCommand t) x (now x got) z pl' iter_result
    (mk_ir IC_ERROR ItNone []) (fun r => ret r)); try assumption.
  - rewrite (next_eq cfg _ _ _ R). unfold process_token. rewrite bind_gets, Io.
    change (ps_command (set_iter st it)) with (ps_command st). rewrite Ec.
    destruct (find_command (op_command x) t (s_case_insensitive cfg)) as [d|] eqn:Fc.
    { exfalso. destruct (found_first q _ _ _ Fc) as (d1 & F1). exact (Nf d1 F1). }
    destruct (c_commands (op_command x)) as [|y l] eqn:Ex; [contradiction|]. cbn [is_empty].
    unfold bind. destruct (error cfg (MsgUnknownCommand t) (set_iter st it)); reflexivity.
  - intros s. eexists. split; reflexivity.
Qed.

Lemma unknown_told : forall args x z pl got st t pl', s_ignore_options cfg = false -> multi_inv args x z false pl got st ->
  token (s_style cfg) pl t pl' -> looks_like_option (s_style cfg) t -> dependable cfg (op_command x) t ->
  unknown_option cfg (op_command x) t -> told (from st) args (Faulty x z (AtUnknown t (left_at pl'))).
Proof.
  intros args x z pl got st t pl' Io I0 Tk Lk Dp Un. pose proof (unsettled_now _ _ _ _ _ _ _ I0) as Us.
  destruct (mi_facts _ _ _ _ _ _ _ I0) as (Sh & Ec & Wi & Eg & _). destruct I0 as [(m & Rc) Tr Cn Rm Md Pl Ab Le Ca Pn Fr].
  destruct (token_ok _ _ _ _ _ Pl Tk) as (it & Nx & A1).
  destruct (current_some it (next_head _ _ _ Nx)) as (cur & Ecur).
  exists (now x got), (MsgUnknownOption cur), (left_at pl'). split; [exact Us|]. split.
  { split; [reflexivity|]. exists cur. split; [|reflexivity].
    destruct (ends_tran _ _ _ (next_args _ _ _ Nx) Fr) as (pre & ->).
    unfold it_current in Ecur. destruct (it_args it) as [|a r] eqn:Ea; [discriminate|].
    cbn in Ecur. injection Ecur as <-. exists pre, r. split; [reflexivity|].
    exact (left_head _ _ _ _ _ _ _ Tk A1 Ea). }
  apply (error_told st (set_iter st it) (MsgUnknownOption cur) x (now x got) z pl' iter_result
    (mk_ir IC_ERROR ItNone []) (fun r => ret r)); try assumption.
  - rewrite (next_option_eq cfg st t it Md Nx Lk). unfold process_option. rewrite bind_gets.
    change (ps_command (set_iter st it)) with (ps_command st). rewrite <- Ec in Dp, Un.
    pose proof (unknown_none p q H args st m t Rc Dp Un) as Fn. fold cfg in Fn. rewrite Fn, Io. cbn [negb].
    unfold bind, m_current. cbn [ps_iter set_iter]. rewrite Ecur.
    destruct (error cfg (MsgUnknownOption cur) (set_iter st it)); reflexivity.
  - intros s. eexists. split; reflexivity.
Qed.

Lemma no_value_told : forall args x z pl got st t o pl', multi_inv args x z false pl got st ->
  flag cfg (op_command x) pl t o pl' -> takes_value o -> no_text pl' -> told (from st) args (Faulty x z (AtNoValue t)).
Proof.
  intros args x z pl got st t o pl' I0 (Tk & Lk & Ch) Tv Nt. exists (now x got), (MsgNoValue t), [].
  split; [exact (unsettled_now _ _ _ _ _ _ _ I0)|]. split; [split; reflexivity|].
  destruct (mi_facts _ _ _ _ _ _ _ I0) as (Sh & Ec & Wi & Eg & _). destruct I0 as [(m & Rc) Tr Cn Rm Md Pl Ab Le Ca Pn Fr].
  destruct (token_ok _ _ _ _ _ Pl Tk) as (it & Nx & A1). destruct (no_text_ok _ _ _ A1 Nt) as (it' & Nv & A2).
  rewrite <- Ec in Ch. pose proof (shape_lookups p q H st Sh t o Ch) as Fo. fold cfg in Fo.
  apply (error_told st (set_iter (set_iter st it) it') (MsgNoValue t) x (now x got) z (Fresh []) (option str) None
    (fun _ => ret (mk_ir IC_ERROR (ItOption o) []))); try assumption.
  - rewrite (next_option_eq cfg st t it Md Nx Lk). unfold process_option. rewrite bind_gets.
    change (ps_command (set_iter st it)) with (ps_command st). rewrite Fo. unfold process_known_option.
    rewrite !bind_assoc. unfold apply_operation. destruct Tv as (Eo & Ek).
    assert (X : m_next_value (set_iter st it) = Ret None (set_iter (set_iter st it) it')).
    { unfold m_next_value. cbn [ps_iter set_iter]. rewrite Nv. reflexivity. }
    destruct Eo as [Eo|Eo]; rewrite Eo, Ek; cbn [is_empty negb]; rewrite bind_assoc; rewrite (bind_ret_eq _ _ _ _ _ _ _ X);
      cbv beta iota; unfold bind; destruct (error cfg (MsgNoValue t) (set_iter (set_iter st it) it')); reflexivity.
  - intros s. eexists. split; reflexivity.
Qed.

Lemma stop_told : forall args x z pl got st t o pl' v pl'', multi_inv args x z false pl got st ->
  flag cfg (op_command x) pl t o pl' -> takes (s_style cfg) o pl' v pl'' ->
  o_type o = OT_STOP \/ o_type o = OT_EXIT \/ o_type o = OT_HELP ->
  told (from st) args (Stopped (with_word x (Optional o v)) z o (left_at pl'')).
Proof.
  intros args x z pl got st t o pl' v pl'' I0 Fl Ta Ty. set (x' := with_word x (Optional o v)).
  exists (now x' got). split; [exact (unsettled_option _ _ _ _ _ _ _ o v I0)|].
  destruct (mi_facts _ _ _ _ _ _ _ I0) as (Sh & Ec & Wi & Eg & _). destruct I0 as [(m & Rc) Tr Cn Rm Md Pl Ab Le Ca Pn Fr].
  rewrite <- Ec in Fl.
  destruct (flag_next p q H Hn Hi st pl t o pl' v pl'' Sh Md Pl Fl Ta) as (it & it' & n & evs & Nx & W1 & Fo & Io & Rv & A2 & Fe & E).
  fold cfg in E. destruct Le as (L1 & L2 & L3 & L4 & L5 & L6).
  set (s0 := noted (started o st v it') n evs) in *.
  assert (V1 : l_values (ps_cur s0) = fold_left apply_change (now x' got) []).
  { cbn. rewrite op_values_fold, L2, <- fold_left_app. unfold x'. rewrite now_option by exact Cn. reflexivity. }
  destruct (left_ok _ _ _ A2) as (it2 & Rem). set (c := op_command x) in *.
  assert (Q : Forall quiet (ps_events s0)) by (cbn; apply Forall_app; auto).
  set (s1 := match o_type o with OT_HELP => add_event s0 (EvHelp c) | _ => s0 end).
  set (s2 := set_cur (set_mode s1 ST_DONE) (set_breaking_option o (ps_cur (set_mode s1 ST_DONE)))).
  assert (G : (r <- apply_type o ;; ret (r, v)) s0 = Ret ((match o_type o with OT_STOP => OR_STOP | _ => OR_EXIT end), v) s2).
  { unfold s2, s1, apply_type. destruct Ty as [Ty|[Ty|Ty]]; rewrite Ty; [reflexivity|reflexivity|].
    rewrite <- Ec. reflexivity. }
  assert (I2 : ps_iter s2 = it') by (unfold s2, s1; destruct (o_type o); reflexivity).
  assert (C2 : ps_cur s2 = set_breaking_option o (ps_cur s0)) by (unfold s2, s1; destruct (o_type o); reflexivity).
  assert (P2 : ps_parents s2 = ps_parents st) by (unfold s2, s1; destruct (o_type o); reflexivity).
  assert (E2 : ps_events s2 = ps_events s0 ++ match o_type o with OT_HELP => [EvHelp c] | _ => [] end).
  { unfold s2, s1. destruct (o_type o); cbn; rewrite ?app_nil_r; reflexivity. }
  assert (M2 : ps_mode s2 = ST_DONE) by (unfold s2, s1; destruct (o_type o); reflexivity).
  rewrite (bind_ret_eq _ _ _ _ _ _ _ G) in E. unfold concludes, conclude in E.
  set (s3 := set_cur (set_iter s2 it2) (add_unprocessed (ps_cur s2) (left_at pl''))).
  assert (E3 : (copy_remaining ;;; ret (mk_ir IC_OPTION (ItOption o) v)) s2 = Ret (mk_ir IC_OPTION (ItOption o) v) s3).
  { unfold bind, copy_remaining. rewrite I2, Rem. reflexivity. }
  assert (Dn : parse_loop cfg 1 s3 = Ret tt s3).
  { cbn [parse_loop]. unfold bind at 1. unfold next. rewrite bind_gets. change (ps_mode s3) with (ps_mode s2). rewrite M2. reflexivity. }
  assert (Cl : shows (whole None (Node (op_command x') (now x' got) RC_STOP (Some o) (left_at pl'') (op_subs x')) z) (toplevel s3)).
  { apply parents_shown.
    - change (ps_parents s3) with (ps_parents s2). rewrite P2. apply closed_open. exact Ab.
    - unfold level_at, s3. cbn [ps_cur set_cur]. rewrite C2. cbn. cbn in V1. rewrite L4. auto 10. }
  assert (Ex : (s_auto_exit cfg && match o_type o with OT_STOP => false | _ => true end = false /\ next cfg st = Ret (mk_ir IC_OPTION (ItOption o) v) s3) \/
    (s_auto_exit cfg && match o_type o with OT_STOP => false | _ => true end = true /\ next cfg st = Exits (s_normal_exit cfg) s2)).
  { destruct (s_auto_exit cfg); destruct Ty as [Ty|[Ty|Ty]]; rewrite Ty in E |- *; cbn [andb];
      [left|right|right|left|left|left]; (split; [reflexivity|]); rewrite E; try exact E3; reflexivity. }
  destruct Ex as [(X & N1)|(X & N1)]; rewrite X.
  - exists (ps_events s0), s3. split; [exact Q|]. split; [exact E2|]. split; [|exact Cl].
    exists 2. apply (loop_more q 1 s3 s3 (mk_ir IC_OPTION (ItOption o) v) st Dn N1); discriminate.
  - exists (ps_events s0), s2. split; [exact Q|]. split; [exact E2|].
    exists 1. cbn [parse_loop]. unfold bind at 1. rewrite N1. reflexivity.
Qed.

(* ------------------------------------------------------------------------ *)
(** ** The whole line *)

Hypothesis Iq : s_ignore_options cfg = false.

Lemma means_told : forall only x z pl out, means cfg only x z pl out -> forall args got st,
  multi_inv args x z only pl got st -> told (from st) args out.
Proof.
  intros only x z pl out Mn.
  induction Mn as [only x z pl Np Ok|only x z pl Np Bad|only x z pl t pl' out Pt Cm Nb Na Lt Mn IH|only x z pl t pl' Pt Cm Na Mx
    |only x z pl t pl' d Pt Cm Nb An Lu|only x z pl t pl' d m z' out Pt Cm Nb An Lu Lv Mn IH|only x z pl t pl' d out Pt Fn Mn IH
    |only x z pl t pl' Pt Nc Nn|x z pl t o pl' v pl'' out Fl Ta Fo Ty Mn IH|x z pl t o pl' v pl'' out Fl Ta Fo Ty Mn IH
    |x z pl t o pl' v pl'' Fl Ta Ty Ok Nr|x z pl t o pl' v pl'' Fl Ta Ty Bad|x z pl t o pl' v pl'' m z' out Fl Ta Ty Ok Lv Mn IH
    |x z pl t o pl' v pl'' Fl Ta Ty|x z pl t pl' Tk Lk Dp Un|x z pl t o pl' Fl Tv Nt]; intros args got st I0.
  - apply (end_told _ _ _ _ _ _ _ I0 Np). exact Ok.
  - apply (end_told _ _ _ _ _ _ _ I0 Np). exact Bad.
  - destruct (mi_positional _ _ _ _ _ _ _ _ _ I0 Pt Cm Nb Na Lt) as (a & s1 & E1 & I1).
    apply (told_more st s1 _ args out E1); [discriminate|discriminate|]. exact (IH _ _ _ I1).
  - exact (surplus_told _ _ _ _ _ _ _ _ _ I0 Pt Cm Na Mx).
  - exact (unfair_told _ _ _ _ _ _ _ _ _ _ I0 Pt Cm Nb An Lu).
  - destruct (mi_another _ _ _ _ _ _ _ _ _ _ _ _ I0 Pt Cm Nb An Lu Lv) as (cur & s1 & E1 & I1).
    apply (told_more st s1 _ args out E1); [discriminate|discriminate|]. exact (IH _ _ _ I1).
  - destruct (mi_command _ _ _ _ _ _ _ _ _ _ I0 Pt Fn) as (cur & s1 & E1 & I1).
    apply (told_more st s1 _ args out E1); [discriminate|discriminate|]. exact (IH _ _ _ I1).
  - exact (no_command_told _ _ _ _ _ _ _ _ _ I0 Pt Nc Nn).
  - destruct (mi_option _ _ _ _ _ _ _ _ _ _ _ I0 Fl Ta (or_introl Ty) Fo) as (s1 & E1 & I1). rewrite Ty in I1.
    apply (told_more st s1 _ args out E1); [discriminate|discriminate|]. exact (IH _ _ _ I1).
  - destruct (mi_option _ _ _ _ _ _ _ _ _ _ _ I0 Fl Ta (or_intror Ty) Fo) as (s1 & E1 & I1). rewrite Ty in I1.
    apply (told_more st s1 _ args out E1); [discriminate|discriminate|]. exact (IH _ _ _ I1).
  - apply (last_told _ _ _ _ _ _ _ _ _ _ _ I0 Fl Ta Ty); assumption.
  - apply (last_told _ _ _ _ _ _ _ _ _ _ _ I0 Fl Ta Ty). assumption.
  - destruct (last_told _ _ _ _ _ _ _ _ _ _ _ I0 Fl Ta Ty) as (_ & _ & X). destruct (X m z' Ok Lv) as (s1 & E1 & I1).
    apply (told_more st s1 _ args out E1); [discriminate|discriminate|]. exact (IH _ _ _ I1).
  - exact (stop_told _ _ _ _ _ _ _ _ _ _ _ I0 Fl Ta Ty).
  - exact (unknown_told _ _ _ _ _ _ _ _ Iq I0 Tk Lk Dp Un).
  - exact (no_value_told _ _ _ _ _ _ _ _ _ I0 Fl Tv Nt).
Qed.

Lemma multi_starts : forall args, exists st, start_counter cfg (initial_state cfg top args) = Ret tt st /\
  multi_inv args (outermost top) [] false (Fresh args) [] st.
Proof.
  intros args. assert (W : wf_iter (ps_iter (initial_state cfg top args))) by (cbn; destruct (s_style cfg); exact Logic.I).
  destruct (start_counter_post cfg top (initial_state cfg top args) (within_top _) W) as (ac & E & _).
  eexists. split; [exact E|]. constructor.
  - eexists. apply reached_start. exact E.
  - left. eexists _, []. split; [apply entered_start; exact E|]. split; [reflexivity|]. split; [constructor|].
    split; [constructor|reflexivity].
  - reflexivity.
  - unfold given. cbn. apply N.le_0_l.
  - reflexivity.
  - unfold stands. fold cfg. cbn. destruct (s_style cfg) eqn:Es; unfold make_option_iterator, it_start;
      [apply (ap_fresh STANDARD)|apply (ap_fresh SLASH)|apply (ap_fresh DASH)].
  - constructor.
  - cbn. unfold open_at, level_at, now. cbn. rewrite app_nil_r. split; [reflexivity|]. split; [apply initial_changes|]. auto 10.
  - constructor.
  - reflexivity.
  - cbn. destruct (s_style cfg); apply ends_refl.
Qed.

Lemma line_means : forall args out, means cfg false (outermost top) [] (Fresh args) out -> yields cfg top args out.
Proof.
  intros args out Mn. destruct (multi_starts args) as (st & E & I0).
  pose proof (means_told _ _ _ _ _ Mn args [] st I0) as T.
  change (told (fun fuel => run_parser cfg fuel top args) args out). revert T. apply told_same.
  intros k. exists k. unfold run_parser, bind. rewrite E. reflexivity.
Qed.

End Multi.
