(** Proofs for C67: values name the items that supplied them. *)
From Verif Require Import Base BaseProofs MStrings MOptIter MParseInt MData MCounter MValues MParser MText MHelp MResults
  SOutput OutputProofs SStrings SIndex SDef SValues SText SFormat SHelp SStep SParser SApi SResults FinishProofs DefProofs
  InvProofs NextProofs ParseProofs ValuesProofs ValueFlow HelpApi HelpApi2 PrintProofs IntProofs.
Open Scope nat_scope.

(** ** Finding items by their id *)

Lemma find_unique : forall {A} (k : A -> N) l x, NoDup (map k l) -> In x l ->
  find (fun a => (k a =? k x)%N) l = Some x.
Proof.
  intros A k l x Hn Hx. induction l as [|a l IH]; [destruct Hx|]. cbn [map] in Hn. inversion Hn; subst.
  cbn [find]. destruct Hx as [->|Hx]; [rewrite N.eqb_refl; reflexivity|].
  rewrite (proj2 (N.eqb_neq _ _)); [auto|]. intros E. apply H1. rewrite E. apply in_map. exact Hx.
Qed.

Lemma find_absent : forall {A} (k : A -> N) l n, ~ In n (map k l) -> find (fun a => (k a =? n)%N) l = None.
Proof.
  intros A k l n H. induction l as [|a l IH]; [reflexivity|]. cbn [find].
  rewrite (proj2 (N.eqb_neq _ _)); [apply IH|]; intros E; apply H; [right; exact E|left; exact E].
Qed.

Lemma nodup_app_apart : forall {A} (l1 l2 : list A), NoDup (l1 ++ l2) -> forall y, In y l1 -> ~ In y l2.
Proof.
  intros A l1 l2 H y H1 H2. induction l1 as [|a l1 IH]; [destruct H1|]. cbn [app] in H. inversion H; subst.
  destruct H1 as [->|H1]; [|auto]. apply H4. apply in_app_iff. right. exact H2.
Qed.

Lemma nodup_app_right : forall {A} (l1 l2 : list A), NoDup (l1 ++ l2) -> NoDup l2.
Proof. intros A l1 l2 H. induction l1 as [|a l1 IH]; [exact H|]. inversion H; auto. Qed.

Lemma view_of_id : forall c i, NoDup (all_argument_ids c) -> In i (listed c) ->
  get_argument_view c (view_argument_id i) = Some i.
Proof.
  intros c i Hn Hi. unfold all_argument_ids in Hn. unfold get_argument_view, listed in *.
  apply in_app_iff in Hi. destruct Hi as [Hi|Hi]; apply in_map_iff in Hi; destruct Hi as (x & <- & Hx); cbn [view_argument_id].
  - rewrite (find_unique a_argument_id); [reflexivity| |exact Hx]. eapply NoDup_app_left. exact Hn.
  - rewrite (find_absent a_argument_id).
    + rewrite (find_unique o_argument_id); [reflexivity| |exact Hx]. eapply nodup_app_right. exact Hn.
    + intros X. apply (nodup_app_apart _ _ Hn _ X). apply in_map. exact Hx.
Qed.

Lemma filter_find : forall {A} (f : A -> bool) l x, find f l = Some x -> exists r, filter f l = x :: r.
Proof.
  intros A f l x H. induction l as [|a l IH]; [discriminate|]. cbn [find filter] in *.
  destruct (f a); [injection H as ->; eexists; reflexivity|auto].
Qed.
Lemma filter_find_none : forall {A} (f : A -> bool) l, find f l = None -> filter f l = [].
Proof.
  intros A f l H. induction l as [|a l IH]; [reflexivity|]. cbn [find filter] in *.
  destruct (f a); [discriminate|auto].
Qed.

(** The name in error messages is that of the item. *)
Lemma item_name_view : forall c i, NoDup (all_argument_ids c) -> In i (listed c) ->
  item_name c (view_argument_id i) = view_label i.
Proof.
  intros c i Hn Hi. pose proof (view_of_id c i Hn Hi) as E. unfold get_argument_view in E. unfold item_name.
  destruct (find (fun a => (a_argument_id a =? view_argument_id i)%N) (c_arguments c)) as [a|] eqn:Ea.
  - injection E as <-. apply filter_find in Ea. destruct Ea as (r & ->). cbn. symmetry. apply app_nil_r.
  - destruct (find (fun o => (o_argument_id o =? view_argument_id i)%N) (c_options c)) as [o|] eqn:Eo; [|discriminate].
    injection E as <-. apply filter_find_none in Ea. rewrite Ea. apply filter_find in Eo. destruct Eo as (r & ->). reflexivity.
Qed.

Lemma item_name_none : forall c, ~ In 0%N (all_argument_ids c) -> item_name c 0 = [].
Proof.
  intros c H. unfold item_name, all_argument_ids in *.
  rewrite (filter_find_none _ (c_arguments c)), (filter_find_none _ (c_options c)); [reflexivity| |]; apply find_absent;
    intros X; apply H; apply in_app_iff; [right|left]; exact X.
Qed.

(** ** Items that share a value *)

Lemma views_iff : forall c vid i, In i (get_argument_views c vid) <-> In i (listed c) /\ view_value_id i = vid.
Proof.
  intros c vid i. unfold get_argument_views, listed. rewrite !in_app_iff, !in_map_iff. split.
  - intros [(x & <- & Hx)|(x & <- & Hx)]; apply filter_In in Hx; destruct Hx as (Hx & E); apply N.eqb_eq in E;
      (split; [|exact E]); [left|right]; exists x; auto.
  - intros ([(x & <- & Hx)|(x & <- & Hx)] & E); [left|right]; exists x; (split; [reflexivity|]);
      apply filter_In; (split; [exact Hx|]); apply N.eqb_eq; exact E.
Qed.

Lemma rightly_view : forall args top c id t aid, rightly args top c id t aid ->
  exists i, given_by args top c i t /\ view_argument_id i = aid /\ view_value_id i = id.
Proof.
  intros args top c id t aid [o E Ho -> -> E1 E2|o Ho -> -> E1 E2 E3|o Ho -> -> E1 E2|a Ha -> -> E1].
  - exists (OptionView o). split; [|split; reflexivity]. split; [apply in_app_iff; right; apply in_map; exact Ho|]. left. auto.
  - exists (OptionView o). split; [|split; reflexivity]. split; [apply in_app_iff; right; apply in_map; exact Ho|]. right. left. auto.
  - exists (OptionView o). split; [|split; reflexivity]. split; [apply in_app_iff; right; apply in_map; exact Ho|]. right. right. auto.
  - exists (ArgumentView a). split; [|split; reflexivity]. split; [apply in_app_iff; left; apply in_map; exact Ha|]. exact E1.
Qed.

Lemma get_value_values : forall vs vid, get_value vs vid =
  match get_values vs vid with [] => Val None | [v] => Val (Some v) | _ => Exn EMultipleValues end.
Proof.
  intros vs vid. unfold get_value, get_values. destruct (from_lower_bound vs vid) as [|(k & v) r]; [reflexivity|].
  cbn [take_key]. destruct (k =? vid)%N; cbn [negb]; [|reflexivity].
  destruct r as [|(k2 & v2) r]; [reflexivity|]. cbn [take_key]. destruct (k2 =? vid)%N; reflexivity.
Qed.

(** ** Results of parsing *)

Lemma results_within : forall p q args st n x, finish_parser p = Val q ->
  reached (d_settings q) (d_command q) args st n -> in_result (toplevel st) x ->
  within (d_command q) (l_command x).
Proof.
  intros p q args st n x Hq H Hx.
  assert (T : l_command (toplevel st) = d_command q).
  { pose proof (reached_inv _ _ (finish_parser_prepared p q Hq) _ _ _ H) as Iv. apply inv_shape in Iv.
    destruct (toplevel_pop (ps_parents st) (ps_cur st)) as (l & t & E1 & E2 & E3 & _).
    unfold toplevel. rewrite E2, E3, <- E1. replace (last (ps_cur st :: ps_parents st) (ps_cur st)) with (last (ps_parents st) (ps_cur st)) by (destruct (ps_parents st); reflexivity). apply chain_last. apply (sh_chain _ _ _ Iv). }
  assert (W : forall l x, in_result l x -> (forall y, in_result l y -> forall s, In s (l_subs y) -> In (l_command s) (c_commands (l_command y))) ->
     within (d_command q) (l_command l) -> within (d_command q) (l_command x)).
  { clear. intros l x Hx. induction Hx as [l|l s x Hs Hx IH]; intros Hsub Wl; [exact Wl|]. apply IH.
    - intros y Hy. apply Hsub. eapply in_result_sub; eassumption.
    - eapply within_sub; [exact Wl|]. apply (Hsub l (in_result_self _) s Hs). }
  apply (W _ _ Hx); [|rewrite T; constructor].
  intros y Hy s Hs. eapply (subcommands_proof _ _ (finish_parser_prepared p q Hq)); eassumption.
Qed.

Lemma argument_ids : forall p q c, finish_parser p = Val q -> within (d_command q) c ->
  NoDup (all_argument_ids c) /\ ~ In 0%N (all_argument_ids c).
Proof.
  intros p q c H W. destruct (command_ids_proof p q c H W) as (Hn & _). inversion Hn; subst. split; [assumption|].
  apply finish_parser_inv in H. destruct H as (_ & F).
  destruct (finished_within _ _ _ _ _ _ F c W) as (d0 & f & s & a & _ & E).
  destruct (finished_ids_ge _ _ _ _ _ _ E) as (G & _). intros X. specialize (G 0%N (or_intror X)). lia.
Qed.

Section Reached.
  Variables (p q : parser_data) (args : list str) (st : pstate) (n : N) (x : level).
  Hypothesis Hq : finish_parser p = Val q.
  Hypothesis Hins : no_insertions (d_settings q) (d_command q).
  Hypothesis Hint : no_interference (d_settings q) (d_command q).
  Hypothesis Hr : reached (d_settings q) (d_command q) args st n.
  Hypothesis Hx : in_result (toplevel st) x.

  Lemma supplied : forall id t aid, In (t, aid) (get_values (l_values x) id) ->
    exists i, given_by args (d_command q) (l_command x) i t /\ view_argument_id i = aid /\ view_value_id i = id /\
      get_argument_view (l_command x) aid = Some i /\ item_name (l_command x) aid = view_label i.
  Proof.
    intros id t aid H. apply (values_given_proof p q args st n x id t aid Hq Hins Hint Hr Hx) in H.
    apply rightly_view in H. destruct H as (i & G & <- & <-). exists i.
    destruct (argument_ids p q _ Hq (results_within _ _ _ _ _ _ Hq Hr Hx)) as (Nd & _).
    split; [exact G|]. split; [reflexivity|]. split; [reflexivity|].
    destruct G as (Hi & _). split; [apply view_of_id|apply item_name_view]; assumption.
  Qed.

  Lemma value_supplier_proof : forall name v t, value_by_name x name = VGot v -> av_value v = Some t ->
    exists i, av_argument v = VGot (Some i) /\ given_by args (d_command q) (l_command x) i t /\
      view_value_id i = av_value_id v.
  Proof.
    intros name v t H Ht. unfold value_by_name, vbind in H.
    destruct (get_value_id (l_command x) name) as [vid|e] eqn:Ev; [cbn [of_exc] in H|discriminate].
    rewrite get_value_values in H. destruct (get_values (l_values x) vid) as [|(s & aid) r] eqn:Eg; cbn [of_exc] in H.
    - injection H as <-. discriminate.
    - destruct r as [|b r]; [|discriminate]. injection H as <-. cbn [av_value] in Ht. injection Ht as <-.
      destruct (supplied vid s aid) as (i & G & _ & Ei & Ea & _); [rewrite Eg; left; reflexivity|].
      exists i. split; [unfold av_argument; cbn [av_args av_argument_id]; rewrite Ea; reflexivity|]. split; [exact G|exact Ei].
  Qed.

  Lemma values_supplier_proof : forall name vs v t, values_by_name x name = VGot vs -> In v (avs_list vs) ->
    av_value v = Some t ->
    exists i, av_argument v = VGot (Some i) /\ given_by args (d_command q) (l_command x) i t /\ In i (avs_arguments vs).
  Proof.
    intros name vs v t H Hv Ht. unfold values_by_name, vbind in H.
    destruct (get_value_id (l_command x) name) as [vid|e] eqn:Ev; [cbn [of_exc] in H|discriminate].
    injection H as <-. unfold avs_list in Hv. cbn [avs_values avs_args avs_value_id] in Hv.
    apply in_map_iff in Hv. destruct Hv as ((s & aid) & <- & Hs). cbn in Ht. injection Ht as <-.
    destruct (supplied vid s aid Hs) as (i & G & _ & Ei & Ea & _). exists i.
    split; [unfold av_argument; cbn; rewrite Ea; reflexivity|]. split; [exact G|].
    unfold avs_arguments. cbn [avs_args avs_value_id]. apply views_iff. split; [apply G|exact Ei].
  Qed.

  (** An error about an item. *)
  Lemma report_proof : forall console msg aid (A : Type), counts_ok (d_command p) -> help_ok console q -> labels_ok (l_command x) ->
    exists out, report (A := A) console q x msg aid = ends_with q out /\
      error_text console q (l_command x) (about (item_name (l_command x) aid) msg) out.
  Proof.
    intros console msg aid A Hc Ho Hl. pose proof (results_within _ _ _ _ _ _ Hq Hr Hx) as W.
    destruct (error_shown console p q (l_command x) (about (item_name (l_command x) aid) msg) Hq Hc Ho Hl W) as (f & E & X).
    exists (w_out (f_writer f)). unfold report. rewrite argument_error_eq. replace (match item_name (l_command x) aid with [] => msg | name => name ++ $": " ++ msg end)
      with (about (item_name (l_command x) aid) msg) by (unfold about; destruct (item_name (l_command x) aid); reflexivity).
    rewrite E. split; [reflexivity|exact X].
  Qed.

  Section Errors.
    Variable console : nat.
    Hypothesis Hc : counts_ok (d_command p).
    Hypothesis Ho : help_ok console q.
    Hypothesis Hl : labels_ok (l_command x).

    Lemma value_named : forall name v, value_by_name x name = VGot v ->
      av_args v = Some x /\
      match av_value v with
      | None => get_values (l_values x) (av_value_id v) = []
      | Some s => get_values (l_values x) (av_value_id v) = [(s, av_argument_id v)]
      end.
    Proof.
      intros name v H. unfold value_by_name, vbind in H.
      destruct (get_value_id (l_command x) name) as [vid|e] eqn:Ev; [cbn [of_exc] in H|discriminate].
      rewrite get_value_values in H. destruct (get_values (l_values x) vid) as [|(s & aid) r] eqn:Eg; cbn [of_exc] in H.
      - injection H as <-. cbn. auto.
      - destruct r as [|b r]; [|discriminate]. injection H as <-. cbn. auto.
    Qed.

    Lemma value_error_proof : forall T (parse : str -> option T) default name v s,
      value_by_name x name = VGot v -> av_value v = Some s -> parse s = None ->
      exists i out, given_by args (d_command q) (l_command x) i s /\
        av_get console q parse v default = ends_with q out /\
        error_text console q (l_command x) (about (view_label i) (invalid s)) out.
    Proof.
      intros T parse default name v s Hv Hs Hp. destruct (value_named name v Hv) as (E1 & E2). rewrite Hs in E2.
      destruct (supplied (av_value_id v) s (av_argument_id v)) as (i & G & _ & _ & _ & En); [rewrite E2; left; reflexivity|].
      destruct (report_proof console (invalid s) (av_argument_id v) T Hc Ho Hl) as (out & Er & Et).
      exists i, out. split; [exact G|]. rewrite <- En. split; [|exact Et].
      unfold av_get, av_error, av_error_msg. rewrite Hs, Hp, E1. exact Er.
    Qed.

    Lemma value_split_proof : forall name v s sep min max parts,
      value_by_name x name = VGot v -> av_value v = Some s -> split_in sep max s parts ->
      ((min <= N.of_nat (length parts))%N ->
       av_split console q v sep min max = VGot (map (fun t => (t, av_argument_id v)) parts)) /\
      ((N.of_nat (length parts) < min)%N ->
       exists i out, given_by args (d_command q) (l_command x) i s /\
         av_split console q v sep min max = ends_with q out /\
         error_text console q (l_command x) (about (view_label i) (too_few ($"have") s min sep)) out).
    Proof.
      intros name v s sep min max parts Hv Hs Hp. destruct (value_named name v Hv) as (E1 & E2). rewrite Hs in E2.
      assert (Ep : split_string s sep (max_parts_minus_1 max) = parts).
      { pose proof (split_proof s sep 0 max (split_string s sep (max_parts_minus_1 max))) as (X & _).
        eapply split_unique; [|exact Hp]. apply X. unfold value_split.
        rewrite (proj2 (N.ltb_ge _ _)); [reflexivity|lia]. }
      unfold av_split. rewrite E1, Hs, Ep. split; intros L.
      - rewrite (proj2 (N.ltb_ge _ _) L). reflexivity.
      - rewrite (proj2 (N.ltb_lt _ _) L).
        destruct (supplied (av_value_id v) s (av_argument_id v)) as (i & G & _ & _ & _ & En); [rewrite E2; left; reflexivity|].
        destruct (report_proof console (too_few ($"have") s min sep) (av_argument_id v) (list (str * N)) Hc Ho Hl) as (out & Er & Et).
        exists i, out. split; [exact G|]. rewrite <- En. split; [exact Er|exact Et].
    Qed.

    Lemma values_named : forall name vs, values_by_name x name = VGot vs ->
      avs_args vs = x /\ avs_values vs = get_values (l_values x) (avs_value_id vs).
    Proof.
      intros name vs H. unfold values_by_name, vbind in H.
      destruct (get_value_id (l_command x) name) as [vid|e] eqn:Ev; [cbn [of_exc] in H|discriminate].
      injection H as <-. cbn. auto.
    Qed.

    Lemma all_same_iff : forall l a, all_same a l = true <-> forall s b, In (s, b) l -> b = a.
    Proof.
      induction l as [|(s & b) l IH]; intros a; cbn [all_same].
      - split; [intros _ s b []|reflexivity].
      - rewrite andb_true_iff, N.eqb_eq, IH. split.
        + intros (-> & H) s' b' [E|E]; [injection E as _ <-; reflexivity|apply (H s' b' E)].
        + intros H. split; [apply (H s b); left; reflexivity|].
          intros s' b' E. rewrite (H s b) by (left; reflexivity). apply (H s' b'). right. exact E.
    Qed.

    (** An error about one of several values. *)
    Lemma values_report : forall name vs s aid msg (A : Type), values_by_name x name = VGot vs -> In (s, aid) (avs_values vs) ->
      exists out, avs_error (A := A) console q vs msg = ends_with q out /\
        ((exists i, (forall v, In v (avs_list vs) -> av_argument v = VGot (Some i)) /\
            given_by args (d_command q) (l_command x) i s /\
            error_text console q (l_command x) (about (view_label i) msg) out) \/
         ((exists v w, In v (avs_list vs) /\ In w (avs_list vs) /\ av_argument v <> av_argument w) /\
            error_text console q (l_command x) msg out)).
    Proof.
      intros name vs s aid msg A Hv Hs. destruct (values_named name vs Hv) as (E1 & E2).
      unfold avs_error. rewrite E1.
      destruct (report_proof console msg (values_argument_id (avs_values vs)) A Hc Ho Hl) as (out & Er & Et).
      exists out. split; [exact Er|].
      assert (Su : forall t b, In (t, b) (avs_values vs) -> exists i, given_by args (d_command q) (l_command x) i t /\
                 view_argument_id i = b /\ get_argument_view (l_command x) b = Some i /\ item_name (l_command x) b = view_label i).
      { intros t b Ht. rewrite E2 in Ht. destruct (supplied _ _ _ Ht) as (i & G & Ea & _ & Ev & En). exists i. auto. }
      assert (Arg : forall v, In v (avs_list vs) -> exists t b, In (t, b) (avs_values vs) /\
                 av_argument v = VGot (get_argument_view (l_command x) b)).
      { intros v Hi. unfold avs_list in Hi. apply in_map_iff in Hi. destruct Hi as ((t & b) & <- & Ht). exists t, b.
        split; [exact Ht|]. unfold av_argument. cbn [av_args av_argument_id fst snd]. rewrite E1. reflexivity. }
      destruct (avs_values vs) as [|(s0 & a0) r] eqn:Ed; [destruct Hs|]. cbn [values_argument_id] in Et.
      destruct (all_same a0 r) eqn:Es.
      - left. rewrite all_same_iff in Es.
        assert (Same : forall t b, In (t, b) ((s0, a0) :: r) -> b = a0).
        { intros t b [E|E]; [injection E as _ <-; reflexivity|apply (Es t b E)]. }
        destruct (Su s aid Hs) as (i & G & Ea & Ev & En). exists i. rewrite (Same _ _ Hs) in *.
        split; [|split; [exact G|rewrite <- En; exact Et]].
        intros v Hi. destruct (Arg v Hi) as (t & b & Ht & ->). rewrite (Same t b Ht), Ev. reflexivity.
      - right. split.
        + assert (Ne : exists t b, In (t, b) r /\ b <> a0).
          { clear - Es. revert a0 Es. induction r as [|(t & b) r IH]; intros a0 Es; [discriminate|]. cbn [all_same] in Es.
            destruct (b =? a0)%N eqn:E.
            - apply N.eqb_eq in E. subst b. cbn [andb] in Es. destruct (IH a0 Es) as (t' & b' & Hi & Ne). exists t', b'. split; [right; exact Hi|exact Ne].
            - apply N.eqb_neq in E. exists t, b. split; [left; reflexivity|exact E]. }
          destruct Ne as (t & b & Hi & Ne).
          exists (mk_av (Some s0) (Some (avs_args vs)) (avs_value_id vs) a0), (mk_av (Some t) (Some (avs_args vs)) (avs_value_id vs) b).
          unfold avs_list. rewrite Ed. split; [left; reflexivity|]. split.
          * apply in_map_iff. exists (t, b). split; [reflexivity|right; exact Hi].
          * unfold av_argument. cbn [av_args av_argument_id]. rewrite E1.
            destruct (Su s0 a0 (or_introl eq_refl)) as (i & _ & Ea & -> & _).
            destruct (Su t b (or_intror Hi)) as (j & _ & Eb & -> & _). intros E. injection E as ->. congruence.
        + destruct (argument_ids p q _ Hq (results_within _ _ _ _ _ _ Hq Hr Hx)) as (_ & Nz).
          rewrite (item_name_none _ Nz) in Et. exact Et.
    Qed.

    Lemma values_error_proof : forall T (parse : str -> option T) default name vs pre s aid post,
      values_by_name x name = VGot vs -> avs_values vs = pre ++ (s, aid) :: post ->
      (forall t b, In (t, b) pre -> parse t <> None) -> parse s = None ->
      exists out, avs_get console q parse vs default = ends_with q out /\
        ((exists i, (forall v, In v (avs_list vs) -> av_argument v = VGot (Some i)) /\
            given_by args (d_command q) (l_command x) i s /\
            error_text console q (l_command x) (about (view_label i) (invalid s)) out) \/
         ((exists v w, In v (avs_list vs) /\ In w (avs_list vs) /\ av_argument v <> av_argument w) /\
            error_text console q (l_command x) (invalid s) out)).
    Proof.
      intros T parse default name vs pre s aid post Hv Hd Hpre Hs.
      destruct (values_report name vs s aid (invalid s) (list T) Hv) as (out & Er & Et).
      { rewrite Hd. apply in_app_iff. right. left. reflexivity. }
      exists out. split; [|exact Et]. clear Et.
      unfold avs_get. destruct (avs_values vs) as [|y l] eqn:E; [destruct pre; discriminate|]. rewrite Hd. clear E Hd y l.
      induction pre as [|(t & b) pre IH]; cbn [app avs_parse_loop].
      - rewrite Hs. exact Er.
      - destruct (parse t) as [m|] eqn:Ep; [|destruct (Hpre t b (or_introl eq_refl) Ep)].
        rewrite IH; [|intros; eapply Hpre; right; eassumption]. unfold ends_with. destruct (s_auto_exit _); reflexivity.
    Qed.

    Lemma values_split_error_proof : forall name vs sep min max pre s aid post,
      values_by_name x name = VGot vs -> avs_values vs = pre ++ (s, aid) :: post ->
      (forall t b parts, In (t, b) pre -> split_in sep max t parts -> (min <= N.of_nat (length parts))%N) ->
      (forall parts, split_in sep max s parts -> (N.of_nat (length parts) < min)%N) ->
      exists out, avs_split console q vs sep min max = ends_with q out /\
        ((exists i, (forall v, In v (avs_list vs) -> av_argument v = VGot (Some i)) /\
            given_by args (d_command q) (l_command x) i s /\
            error_text console q (l_command x) (about (view_label i) (too_few ($"be") s min sep)) out) \/
         ((exists v w, In v (avs_list vs) /\ In w (avs_list vs) /\ av_argument v <> av_argument w) /\
            error_text console q (l_command x) (too_few ($"be") s min sep) out)).
    Proof.
      intros name vs sep min max pre s aid post Hv Hd Hpre Hs.
      destruct (values_report name vs s aid (too_few ($"be") s min sep) (list (str * N)) Hv) as (out & Er & Et).
      { rewrite Hd. apply in_app_iff. right. left. reflexivity. }
      exists out. split; [|exact Et]. clear Et.
      assert (Sp : forall t, split_in sep max t (split_string t sep (max_parts_minus_1 max))).
      { intros t. pose proof (split_proof t sep 0 max (split_string t sep (max_parts_minus_1 max))) as (X & _).
        apply X. unfold value_split. rewrite (proj2 (N.ltb_ge _ _)); [reflexivity|lia]. }
      assert (G : avs_split_loop console q vs sep min max (pre ++ (s, aid) :: post) = ends_with q out).
      { clear Hd. induction pre as [|(t & b) pre IH]; cbn [app avs_split_loop].
        - rewrite (proj2 (N.ltb_lt _ _) (Hs _ (Sp s))). exact Er.
        - rewrite (proj2 (N.ltb_ge _ _) (Hpre t b _ (or_introl eq_refl) (Sp t))).
          rewrite IH; [|intros; eapply Hpre; [right|]; eassumption]. unfold ends_with. destruct (s_auto_exit _); reflexivity. }
      unfold avs_split. rewrite Hd, G. unfold ends_with. destruct (s_auto_exit _); reflexivity.
    Qed.
  End Errors.
End Reached.

(** The parts of several values keep their items. *)
Lemma values_split_parts_proof : forall console q vs sep min max,
  (forall t b parts, In (t, b) (avs_values vs) -> split_in sep max t parts -> (min <= N.of_nat (length parts))%N) ->
  exists ws, avs_split console q vs sep min max = VGot ws /\ avs_arguments ws = avs_arguments vs /\
    exists pss, avs_values ws = concat pss /\
      Forall2 (fun v ps => exists parts, split_in sep max (fst v) parts /\ ps = map (fun t => (t, snd v)) parts)
        (avs_values vs) pss.
Proof.
  intros console q vs sep min max H.
  assert (Sp : forall t, split_in sep max t (split_string t sep (max_parts_minus_1 max))).
  { intros t. pose proof (split_proof t sep 0 max (split_string t sep (max_parts_minus_1 max))) as (X & _).
    apply X. unfold value_split. rewrite (proj2 (N.ltb_ge _ _)); [reflexivity|lia]. }
  assert (G : forall l, (forall t b parts, In (t, b) l -> split_in sep max t parts -> (min <= N.of_nat (length parts))%N) ->
    exists pss, avs_split_loop console q vs sep min max l = VGot (concat pss) /\
      Forall2 (fun v ps => exists parts, split_in sep max (fst v) parts /\ ps = map (fun t => (t, snd v)) parts) l pss).
  { induction l as [|(t & b) l IH]; intros Hl; [exists []; split; [reflexivity|constructor]|].
    destruct IH as (pss & E & F); [intros; eapply Hl; [right|]; eassumption|].
    exists (map (fun y => (y, b)) (split_string t sep (max_parts_minus_1 max)) :: pss). split.
    - cbn [avs_split_loop]. rewrite (proj2 (N.ltb_ge _ _) (Hl t b _ (or_introl eq_refl) (Sp t))), E. reflexivity.
    - constructor; [|exact F]. exists (split_string t sep (max_parts_minus_1 max)). split; [apply Sp|reflexivity]. }
  destruct (G (avs_values vs) H) as (pss & E & F). eexists. split; [unfold avs_split; rewrite E; reflexivity|].
  split; [reflexivity|]. exists pss. split; [reflexivity|exact F].
Qed.

(** ** Conversions that succeed *)

Lemma values_converted_proof : forall T console q (parse : str -> option T) vs default,
  (forall ys, avs_values vs <> [] -> Forall2 (fun v y => parse (fst v) = Some y) (avs_values vs) ys ->
     avs_get console q parse vs default = VGot ys) /\
  (avs_values vs = [] -> avs_get console q parse vs default = VGot default).
Proof.
  intros T console q parse vs default. unfold avs_get. split; [intros ys N0 H|intros ->; reflexivity].
  assert (G : avs_parse_loop console q parse vs (avs_values vs) = VGot ys).
  { clear N0. revert ys H. generalize (avs_values vs). intros l ys H. induction H as [|[s a] y l ys E H IH]; [reflexivity|].
    cbn [avs_parse_loop fst] in *. rewrite E, IH. reflexivity. }
  destruct (avs_values vs); [congruence|exact G].
Qed.

Lemma report_not_got : forall A console q l msg aid (y : A), report console q l msg aid <> VGot y.
Proof.
  intros A console q l msg aid y. unfold report. destruct (write_argument_error _ _ _ _ _); try discriminate.
  destruct (s_auto_exit _); discriminate.
Qed.

Lemma av_get_iff : forall T console q (parse : str -> option T) v default y,
  av_get console q parse v default = VGot y <->
  (av_value v = None /\ y = default) \/ exists s, av_value v = Some s /\ parse s = Some y.
Proof.
  intros T console q parse v default y. unfold av_get. destruct (av_value v) as [s|] eqn:E.
  - destruct (parse s) as [z|] eqn:P; split.
    + intros H. injection H as <-. right. eauto.
    + intros [(H & _)|(s' & H & P')]; [discriminate|]. injection H as <-. congruence.
    + intros H. unfold av_error in H. rewrite E in H. unfold av_error_msg in H. destruct (av_args v); [apply report_not_got in H; destruct H|discriminate].
    + intros [(H & _)|(s' & H & P')]; [discriminate|]. injection H as <-. congruence.
  - split; [intros H; injection H as <-; left; auto|]. intros [(_ & ->)|(s & H & _)]; [reflexivity|discriminate].
Qed.

Lemma value_int_proof : forall console q v default base y,
  av_get console q (fun s => parse_int s base) v default = VGot y <->
  (av_value v = None /\ y = default) \/
  exists s neg m, av_value v = Some s /\ integer_text base s neg m /\ y = signed neg m /\ (- 2 ^ 31 <= y < 2 ^ 31)%Z.
Proof.
  intros console q v default base y. rewrite av_get_iff. split; (intros [H|H]; [left; exact H|right]).
  - destruct H as (s & E & P). exists s. apply parse_int_spec in P. destruct P as (neg & m & P). exists neg, m. split; assumption.
  - destruct H as (s & neg & m & E & P). exists s. split; [exact E|]. apply parse_int_spec. exists neg, m. exact P.
Qed.

Lemma value_same_proof : forall x name v, value_by_name x name = VGot v ->
  exists vs, values_by_name x name = VGot vs /\
    ((av_value v = None /\ avs_list vs = []) \/ avs_list vs = [v]).
Proof.
  intros x name v H. unfold value_by_name, values_by_name, vbind in *.
  destruct (get_value_id (l_command x) name) as [vid|e]; [cbn [of_exc] in *|discriminate].
  eexists. split; [reflexivity|]. unfold avs_list. cbn [avs_values avs_args avs_value_id].
  rewrite get_value_values in H. destruct (get_values (l_values x) vid) as [|(s & aid) [|b r]]; cbn [of_exc] in H; [| |discriminate].
  - injection H as <-. left. split; reflexivity.
  - injection H as <-. right. reflexivity.
Qed.

Lemma values_at_proof : forall vs k v, avs_values vs <> [] ->
  (avs_at vs k = VGot v <-> nth_error (avs_list vs) k = Some v) /\
  (nth_error (avs_list vs) k = None -> avs_at vs k = VThrow XOutOfRange []).
Proof.
  intros vs k v N0. unfold avs_at, avs_list. rewrite nth_error_map. destruct (avs_values vs) as [|a l]; [congruence|].
  destruct (nth_error (a :: l) k) as [(s & aid)|]; cbn [option_map fst snd]; split; try discriminate; try reflexivity.
  - split; intros H; injection H as <-; reflexivity.
  - split; discriminate.
Qed.
