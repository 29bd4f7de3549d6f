(** The invariant of the parser state. *)
From Coq Require Import Permutation.
From Verif Require Import Base BaseProofs MStrings MOptIter MData MCounter MValues MParser
  STok SIndex SDef SValues SCounter SParser
  TokProofs IndexProofs DefProofs FinishProofs ValuesProofs CounterProofs CounterInv
  MonadProofs FrameProofs.
Open Scope nat_scope.

(* ------------------------------------------------------------------------ *)
(** ** Finished definitions *)

Definition prepared (top : cmd_data) : Prop :=
  forall c, within top c -> c_require c <> None /\
    forall f o, In (f, o) (c_index c) -> In o (c_options c).

Lemma finish_parser_prepared : forall p q, finish_parser p = Val q -> prepared (d_command q).
Proof.
  intros p q H c W. pose proof (finished_index_proof p q c H W) as B.
  unfold finish_parser in H. cbv zeta in H.
  destruct (finish_command _ _ _ _ _) as [c2|] eqn:E; [|discriminate].
  injection H as <-. simpl in W.
  destruct (finished_within _ _ _ _ _ _ E c W) as (d0 & f & s & a & _ & E2).
  apply finish_finished in E2. destruct E2 as (opts1 & v & a' & _ & U & _).
  split.
  - unfold update_require in U. destruct (c_require d0) as [[|]|].
    + destruct (is_empty (c_commands d0)); [discriminate|]. injection U as <-. discriminate.
    + injection U as <-. discriminate.
    + injection U as <-. discriminate.
  - intros g o Hin. unfold build_option_index, check_index in B.
    destruct (adjacent_find _ _) as [(x & y)|] in B; [destruct (str_eqb _ _); discriminate|].
    injection B as B. rewrite <- B in Hin.
    apply (Permutation_in _ (Permutation_sym (sort_by_perm _ _))) in Hin.
    unfold index_entries in Hin. apply in_flat_map in Hin. destruct Hin as (o' & Ho & Hm).
    apply in_map_iff in Hm. destruct Hm as (g' & Eg & _). injection Eg as _ <-. exact Ho.
Qed.

Lemma find_option_impl_in : forall index flag abbrev ci o,
  find_option_impl index flag abbrev ci = Some o -> exists f, In (f, o) index.
Proof.
  intros index flag abbrev ci o. unfold find_option_impl.
  destruct (nth_error index _) as [(f, o')|] eqn:E; [|discriminate].
  apply nth_error_In in E. intros H. exists f.
  destruct (str_eqb f flag); [congruence|].
  destruct (ci && are_equal_ci f flag); [congruence|].
  destruct (negb abbrev); [discriminate|]. destruct (negb _); [discriminate|].
  destruct (nth_error index (S _)) as [(g, ?)|].
  - destruct (starts_with g flag ci); [discriminate|congruence].
  - congruence.
Qed.

Lemma find_option_in_options : forall top c flag abbrev ci o, prepared top -> within top c ->
  find_option c flag abbrev ci = Some o -> In o (c_options c).
Proof.
  intros top c flag abbrev ci o P W H. destruct (P c W) as (_ & I).
  unfold find_option, find_option_in in H.
  destruct (find_option_impl (c_index c) flag abbrev ci) as [o'|] eqn:E.
  - inversion H; subst o'. destruct (find_option_impl_in _ _ _ _ _ E) as (f & F). eapply I; exact F.
  - destruct ((2 <? length flag) && _); [|discriminate].
    destruct (find_option_impl (c_index c) (firstn (length flag - 1) flag) abbrev ci)
      as [o'|] eqn:E2; [|discriminate].
    destruct (is_empty (o_argument o')); [discriminate|]. inversion H; subst o'.
    destruct (find_option_impl_in _ _ _ _ _ E2) as (f & F). eapply I; exact F.
Qed.

Lemma find_command_in : forall c name ci d, find_command c name ci = Some d ->
  In d (c_commands c) /\ are_equal (c_name d) name ci = true.
Proof. intros c name ci d H. apply find_some in H. exact H. Qed.

(* ------------------------------------------------------------------------ *)
(** ** Levels *)

(** What holds of every result of a command. *)
Definition level_ok (x : level) : Prop :=
  (forall s, In s (l_subs x) -> In (l_command s) (c_commands (l_command x))) /\
  (length (l_subs x) <= 1 \/ c_multi (l_command x) = true) /\
  exists cs, l_values x = fold_left apply_change cs [].

(** What holds while it is being parsed. *)
Definition code_ok (x : level) : Prop :=
  l_stop x = None /\ (l_result x = RC_NONE \/ l_result x = RC_SUCCESS).

(** An open level: its finished sub-commands are fine, and there are any only if it
    allows several. *)
Definition subs_ok (x : level) : Prop :=
  forall s, In s (l_subs x) -> forall y, in_result s y -> level_ok y /\ code_ok y.
Definition open_ok (x : level) : Prop :=
  level_ok x /\ subs_ok x /\ (l_subs x = [] \/ c_multi (l_command x) = true).

Fixpoint chain (top : cmd_data) (cur : level) (parents : list level) : Prop :=
  match parents with
  | [] => l_command cur = top
  | p :: r => In (l_command cur) (c_commands (l_command p)) /\ chain top p r
  end.

Lemma chain_within : forall top parents cur, chain top cur parents ->
  within top (l_command cur).
Proof.
  induction parents as [|p r IH]; intros cur H; simpl in H.
  - rewrite H. constructor.
  - destruct H as (H & C). eapply within_sub; [apply IH; exact C|exact H].
Qed.

Lemma chain_command : forall top parents cur cur', l_command cur' = l_command cur ->
  chain top cur parents -> chain top cur' parents.
Proof. intros top [|p r] cur cur' E H; simpl in *; rewrite E; exact H. Qed.

Lemma in_result_inv : forall l x, in_result l x ->
  x = l \/ exists s, In s (l_subs l) /\ in_result s x.
Proof. intros l x H. destruct H as [|s x Hs Hx]; [left; reflexivity|right; eauto]. Qed.

(** Closing levels. *)
Definition closing_ok (x : level) : Prop := level_ok x /\ subs_ok x.

Lemma add_sub_ok : forall p c, open_ok p -> closing_ok c -> code_ok c ->
  In (l_command c) (c_commands (l_command p)) -> closing_ok (add_sub p c).
Proof.
  intros p c ((D & L & V) & S & M) ((D' & L' & V') & S') C' I. split.
  - split; [|split].
    + simpl. intros s H. apply in_app_or in H. destruct H as [H|[<-|[]]]; [apply D; exact H|exact I].
    + simpl. destruct M as [M|M]; [rewrite M; left; simpl; lia|right; exact M].
    + exact V.
  - intros s H y Hy. simpl in H. apply in_app_or in H. destruct H as [H|[<-|[]]].
    + eapply S; eassumption.
    + apply in_result_inv in Hy. destruct Hy as [->|(s & Hs & Hy)].
      * split; [split; [|split]; assumption|exact C'].
      * eapply S'; eassumption.
Qed.

Lemma pop_levels_ok : forall top k cur parents, chain top cur parents ->
  closing_ok cur -> code_ok cur -> Forall open_ok parents -> Forall code_ok parents ->
  let (cur', parents') := pop_levels k cur parents in
  chain top cur' parents' /\ closing_ok cur' /\ code_ok cur' /\
  Forall open_ok parents' /\ Forall code_ok parents'.
Proof.
  intros top. induction k as [|k IH]; intros cur parents C O K FO FK; simpl; [auto|].
  destruct parents as [|p r]; [auto|].
  destruct C as (I & C). inversion FO as [|? ? Op FO']; subst. inversion FK as [|? ? Kp FK']; subst.
  apply IH; auto.
  - eapply chain_command; [|exact C]. reflexivity.
  - apply add_sub_ok; assumption.
Qed.

Lemma pop_levels_command : forall k cur parents d,
  nth_error (cur :: parents) k = Some d ->
  l_command (fst (pop_levels k cur parents)) = l_command d /\
  length (snd (pop_levels k cur parents)) = length parents - k.
Proof.
  induction k as [|k IH]; intros cur parents d E; simpl.
  - injection E as <-. split; [reflexivity|]. lia.
  - destruct parents as [|p r]; simpl in E; [destruct k; discriminate|].
    specialize (IH (add_sub p cur) r).
    destruct k as [|k].
    + injection E as <-. simpl. split; [reflexivity|lia].
    + destruct (IH d E) as (-> & ->). split; [reflexivity|]. reflexivity.
Qed.

Lemma multi_parent_loop_spec : forall parents k j, multi_parent_loop parents k = Some j ->
  exists p, k <= j /\ nth_error parents (j - k) = Some p /\ c_multi (l_command p) = true.
Proof.
  induction parents as [|p r IH]; intros k j H; simpl in H; [discriminate|].
  destruct (c_multi (l_command p)) eqn:E.
  - injection H as <-. exists p. split; [lia|]. rewrite Nat.sub_diag. auto.
  - apply IH in H. destruct H as (q & L & N & M). exists q. split; [lia|].
    replace (j - k) with (S (j - S k)) by lia. auto.
Qed.

Lemma first_multi_spec : forall st j, find_first_multi_command_parent st = Some j ->
  exists p, 1 <= j /\ nth_error (ps_parents st) (j - 1) = Some p /\
    c_multi (l_command p) = true.
Proof. intros st j H. apply multi_parent_loop_spec in H. exact H. Qed.

(* ------------------------------------------------------------------------ *)
(** ** States *)

(** The structural part, valid in all states. *)
Record shape (cfg : settings) (top : cmd_data) (st : pstate) : Prop := {
  sh_command : ps_command st = l_command (ps_cur st);
  sh_chain : chain top (ps_cur st) (ps_parents st);
  sh_open : Forall open_ok (open_levels st);
  sh_wf : wf_iter (ps_iter st);
  sh_kind : it_kind (ps_iter st) = match s_style cfg with
                                   | SLASH => KPrefix c_slash
                                   | DASH => KPrefix c_dash
                                   | STANDARD => KStandard
                                   end;
  sh_from : counter_from (c_arguments (ps_command st)) (ps_counter st)
}.

(** A state in which parsing goes on; [k] arguments have been received. *)
Record running (cfg : settings) (top : cmd_data) (k : N) (st : pstate) : Prop := {
  ru_shape : shape cfg top st;
  ru_codes : Forall code_ok (open_levels st);
  ru_events : no_trouble (ps_events st);
  ru_counter : sound top -> counter_ok (c_arguments (ps_command st)) (ps_counter st) k
}.

(** After an error has been reported. *)
Record failed (cfg : settings) (top : cmd_data) (st : pstate) : Prop := {
  fa_shape : shape cfg top st;
  fa_mode : ps_mode st = ST_ERROR;
  fa_codes : forall l, In l (open_levels st) -> l_result l = RC_FAILURE /\ l_stop l = None;
  fa_events : exists evs m, ps_events st = evs ++ [EvError (ps_command st) m] /\
                no_trouble evs;
  fa_auto : s_auto_exit cfg = false
}.

(** After parsing has succeeded. *)
Record succeeded (cfg : settings) (top : cmd_data) (k : N) (st : pstate) : Prop := {
  su_shape : shape cfg top st;
  su_mode : ps_mode st = ST_DONE;
  su_codes : forall l, In l (open_levels st) -> l_result l = RC_SUCCESS /\ l_stop l = None;
  su_events : no_trouble (ps_events st);
  su_mandatory : forall o, In o (c_options (ps_command st)) -> o_optional o = false ->
    has_value (l_values (ps_cur st)) (o_value_id o) = true;
  su_subs : c_require (ps_command st) = Some true -> l_subs (ps_cur st) <> [];
  su_complete : is_complete (ps_counter st) = true;
  su_counter : sound top -> counter_ok (c_arguments (ps_command st)) (ps_counter st) k
}.

(** After a STOP, EXIT or HELP option. *)
Record stopped (cfg : settings) (top : cmd_data) (o : opt_data) (st : pstate) : Prop := {
  sp_shape : shape cfg top st;
  sp_mode : ps_mode st = ST_DONE;
  sp_code : l_result (ps_cur st) = RC_STOP;
  sp_option : l_stop (ps_cur st) = Some o;
  sp_in : In o (c_options (ps_command st));
  sp_type : o_type o = OT_HELP \/ o_type o = OT_EXIT \/ o_type o = OT_STOP;
  sp_parents : Forall code_ok (ps_parents st);
  sp_events : (o_type o <> OT_HELP /\ no_trouble (ps_events st)) \/
    (o_type o = OT_HELP /\ exists evs,
       ps_events st = evs ++ [EvHelp (ps_command st)] /\ no_trouble evs)
}.

Definition in_progress (m : pmode) : Prop := m = ARGUMENTS_AND_OPTIONS \/ m = ARGUMENTS_ONLY.

(** All states between two calls of [next]. *)
Inductive inv (cfg : settings) (top : cmd_data) (k : N) (st : pstate) : Prop :=
| inv_running : running cfg top k st -> in_progress (ps_mode st) -> inv cfg top k st
| inv_failed : failed cfg top st -> inv cfg top k st
| inv_succeeded : succeeded cfg top k st -> inv cfg top k st
| inv_stopped : forall o, stopped cfg top o st ->
    (s_auto_exit cfg = true -> o_type o = OT_STOP) -> inv cfg top k st.

(** Ways to end the program. *)
Definition ex_exit (cfg : settings) (c : Z) (st : pstate) : Prop :=
  s_auto_exit cfg = true /\
  ((c = s_error_exit cfg /\ error_last st) \/
   (c = s_normal_exit cfg /\ ~ reported_error st /\
    exists o, l_stop (ps_cur st) = Some o /\ In o (c_options (ps_command st)) /\
      (o_type o = OT_HELP \/ o_type o = OT_EXIT) /\
      ((o_type o <> OT_HELP /\ no_trouble (ps_events st)) \/
       (o_type o = OT_HELP /\ exists evs,
          ps_events st = evs ++ [EvHelp (ps_command st)] /\ no_trouble evs)))).

Lemma cb_exit_exit : forall cfg c st, cb_exit cfg c st -> ex_exit cfg c st.
Proof. intros cfg c st (A & B & C). split; [exact A|]. left. auto. Qed.

(* ------------------------------------------------------------------------ *)
(** ** Changes that keep the state in shape *)

Lemma shape_iter : forall cfg top st it, shape cfg top st -> wf_iter it ->
  it_kind it = it_kind (ps_iter st) -> shape cfg top (set_iter st it).
Proof.
  intros cfg top st it [A B C D E F] W K. constructor; try assumption.
  simpl. congruence.
Qed.

Lemma running_iter : forall cfg top k st it, running cfg top k st -> wf_iter it ->
  it_kind it = it_kind (ps_iter st) -> running cfg top k (set_iter st it).
Proof.
  intros cfg top k st it [A B C D] W K. constructor; try assumption.
  apply shape_iter; assumption.
Qed.

Lemma open_ok_same : forall l l', l_command l' = l_command l -> l_subs l' = l_subs l ->
  (exists cs, l_values l' = fold_left apply_change cs []) -> open_ok l -> open_ok l'.
Proof.
  intros l l' E1 E2 V ((A & B & _) & C & D). unfold open_ok, level_ok, subs_ok.
  rewrite E1, E2. exact (conj (conj A (conj B V)) (conj C D)).
Qed.

Lemma open_ok_values : forall l vs, open_ok l ->
  (exists cs, vs = fold_left apply_change cs (l_values l)) -> open_ok (set_l_values l vs).
Proof.
  intros l vs H (cs & ->). eapply open_ok_same; [| | |exact H]; try reflexivity.
  destruct H as ((_ & _ & (cs0 & E)) & _). exists (cs0 ++ cs). simpl.
  rewrite E, fold_left_app. reflexivity.
Qed.

Lemma no_trouble_app : forall a b, no_trouble a -> no_trouble b -> no_trouble (a ++ b).
Proof. intros a b A B e H. apply in_app_or in H. destruct H; auto. Qed.

Lemma running_frame : forall cfg top k st st', running cfg top k st -> cb_frame st st' ->
  running cfg top k st'.
Proof.
  intros cfg top k st st' [[A1 A2 A3 A4 A5 A6] B C D] [F1 F2 F3 (cs & F4) F5 F6 F7 Ff F8 (evs & F9 & F10)].
  assert (L : l_command (ps_cur st') = l_command (ps_cur st)) by (rewrite F4; reflexivity).
  unfold open_levels in *. inversion A3 as [|? ? O1 O2]; subst. inversion B as [|? ? K1 K2]; subst.
  constructor; [constructor| | |].
  - congruence.
  - rewrite F2. eapply chain_command; [exact L|exact A2].
  - unfold open_levels. rewrite F2. constructor; [|exact O2]. rewrite F4.
    apply open_ok_values; [exact O1|eauto].
  - auto.
  - congruence.
  - rewrite F1. auto.
  - unfold open_levels. rewrite F2. constructor; [|exact K2]. rewrite F4. exact K1.
  - rewrite F9. apply no_trouble_app; assumption.
  - intros Sd. rewrite F1. apply F8; [| |apply D; exact Sd].
    + rewrite A1. apply (Sd _ (chain_within _ _ _ A2)).
    + rewrite A1. apply (Sd _ (chain_within _ _ _ A2)).
Qed.

Lemma running_values : forall cfg top k st c, running cfg top k st ->
  running cfg top k (set_values st (apply_change (l_values (ps_cur st)) c)).
Proof.
  intros cfg top k st c H. eapply running_frame; [exact H|]. apply only_values_frame.
  apply only_values_one.
Qed.

Lemma running_mode : forall cfg top k st m, running cfg top k st ->
  running cfg top k (set_mode st m).
Proof. intros cfg top k st m [[A1 A2 A3 A4 A5 A6] B C D]. constructor; [constructor| | |]; assumption. Qed.

(** All open levels get the same result code. *)
Lemma open_levels_results : forall rc st,
  open_levels (set_all_results rc st) = map (set_result rc) (open_levels st).
Proof. reflexivity. Qed.

Lemma open_ok_result : forall rc l, open_ok l -> open_ok (set_result rc l).
Proof.
  intros rc l H. eapply open_ok_same; [| | |exact H]; try reflexivity.
  destruct H as ((_ & _ & V) & _). exact V.
Qed.

Lemma chain_result : forall top rc parents cur, chain top cur parents ->
  chain top (set_result rc cur) (map (set_result rc) parents).
Proof.
  intros top rc. induction parents as [|p r IH]; intros cur H; simpl in *; [exact H|].
  destruct H. split; [assumption|apply IH; assumption].
Qed.

Lemma shape_results : forall cfg top rc st, shape cfg top st ->
  shape cfg top (set_all_results rc st).
Proof.
  intros cfg top rc st [A1 A2 A3 A4 A5 A6]. constructor; try assumption.
  - apply chain_result. exact A2.
  - rewrite open_levels_results. apply Forall_map. eapply Forall_impl; [|exact A3].
    intros l. apply open_ok_result.
Qed.

Lemma codes_results : forall rc st, Forall code_ok (open_levels st) ->
  forall l, In l (open_levels (set_all_results rc st)) -> l_result l = rc /\ l_stop l = None.
Proof.
  intros rc st H l. rewrite open_levels_results. intros I. apply in_map_iff in I.
  destruct I as (l0 & <- & I). rewrite Forall_forall in H. destruct (H l0 I). simpl. auto.
Qed.
