(** Proofs about finished parser definitions (C09, C10, C14, C17). *)
From Verif Require Import Base BaseProofs MStrings MData SStrings StrProofs SIndex
  IndexProofs SDef DefProofs.

(** ** Induction over the command tree *)

Lemma cmd_nested_ind : forall (P : cmd_data -> Prop),
  (forall c, Forall P (c_commands c) -> P c) -> forall c, P c.
Proof.
  intros P H.
  fix IH 1. intros c. apply H. destruct c as [args opts cmds].
  simpl. induction cmds as [|d cmds IHc]; constructor; [apply IH|exact IHc].
Qed.

(** ** Inversion of [finish_command] *)

Definition finish_subs (st : settings) (name : str) (vid aid : N) :=
  fix go (l : list cmd_data) : exc (list cmd_data) :=
    match l with
    | [] => Val []
    | d :: r =>
        match finish_command st (name ++ c_space :: c_name d) vid aid d with
        | Exn e => Exn e
        | Val d' => match go r with
                    | Exn e => Exn e
                    | Val r' => Val (d' :: r')
                    end
        end
    end.

Lemma finish_command_eq : forall st full sid aid c,
  finish_command st full sid aid c =
  match validate_all (s_style st) (c_options c) with
  | Exn e => Exn e
  | Val opts1 =>
      match update_require (c_require c) (c_commands c) with
      | Exn e => Exn e
      | Val require' =>
          let opts2 := add_help_option opts1 (c_current_section c) st in
          let '(args', opts', vid', aid') :=
            set_internal_ids (c_arguments c) opts2 sid (aid + 1) in
          match build_option_index (s_case_insensitive st) opts' with
          | Exn e => Exn e
          | Val index =>
              match finish_subs st (c_name c) vid' aid' (c_commands c) with
              | Exn e => Exn e
              | Val cmds' =>
                  Val (mk_cmd args' opts' cmds' (c_current_section c) (c_name c) full
                         (c_texts c) (c_visibility c) require' (c_multi c) (c_section c)
                         (aid + 1) index)
              end
          end
      end
  end.
Proof. intros st full sid aid []. reflexivity. Qed.

Lemma finish_subs_forall2 : forall st name vid aid l l',
  finish_subs st name vid aid l = Val l' <->
  Forall2 (fun d d' => finish_command st (name ++ c_space :: c_name d) vid aid d = Val d') l l'.
Proof.
  induction l as [|d l IH]; intros l'; simpl.
  - split; intros H; inversion H; subst; constructor.
  - destruct (finish_command st (name ++ c_space :: c_name d) vid aid d) as [d'|e] eqn:E.
    + split.
      * destruct (finish_subs st name vid aid l) as [r'|]; [|discriminate].
        intros H. inversion H; subst. constructor; [exact E|]. apply IH. reflexivity.
      * intros H. inversion H; subst. apply IH in H4. rewrite H4. congruence.
    + split; [discriminate|]. intros H. inversion H; subst. congruence.
Qed.

(** ** Ids *)

Lemma im_find_emplace : forall m n id x,
  im_find (im_emplace m n id) x =
  match im_find m x with
  | Some v => Some v
  | None => if str_eqb n x then Some id else None
  end.
Proof.
  intros m n id x. unfold im_emplace. destruct (im_find m n) as [v|] eqn:E.
  - destruct (im_find m x) eqn:Ex; [reflexivity|].
    destruct (str_eqb_spec n x) as [->|]; [congruence|reflexivity].
  - unfold im_find in *. simpl. destruct (str_eqb_spec n x) as [->|N].
    + rewrite E. reflexivity.
    + destruct (find (fun p => str_eqb (fst p) x) (im_map m)); reflexivity.
Qed.

Lemma im_id_emplace : forall m n id, im_id (im_emplace m n id) = im_id m.
Proof. intros. unfold im_emplace. destruct (im_find m n); reflexivity. Qed.

Lemma im_id_emplace_all : forall names m id, im_id (im_emplace_all m names id) = im_id m.
Proof.
  unfold im_emplace_all. induction names as [|n names IH]; intros m id; simpl; [reflexivity|].
  rewrite IH. apply im_id_emplace.
Qed.

Lemma im_find_emplace_all : forall names m id x,
  im_find (im_emplace_all m names id) x =
  match im_find m x with
  | Some v => Some v
  | None => if existsb (fun n => str_eqb n x) names then Some id else None
  end.
Proof.
  unfold im_emplace_all. induction names as [|n names IH]; intros m id x; simpl.
  - destruct (im_find m x); reflexivity.
  - rewrite IH, im_find_emplace. destruct (im_find m x); [reflexivity|].
    destruct (str_eqb n x); reflexivity.
Qed.

(** One allocation of a value id [v] for an item with names [names]. *)
Definition alloc (m : id_maker) (names : list str) (v : N) (m' : id_maker) : Prop :=
  (forall x w, im_find m x = Some w -> im_find m' x = Some w) /\
  (forall x w, im_find m' x = Some w -> im_find m x = Some w \/ (In x names /\ w = v)) /\
  ((v = (im_id m + 1)%N /\ im_id m' = v) \/
   (im_id m' = im_id m /\ exists x, In x names /\ im_find m x = Some v)).

Lemma im_find_setid : forall m id x, im_find (mk_ids (im_map m) id) x = im_find m x.
Proof. reflexivity. Qed.

Lemma in_existsb : forall (x : str) names,
  existsb (fun n => str_eqb n x) names = true <-> In x names.
Proof.
  intros. rewrite existsb_exists. split.
  - intros (y & Hy & E). apply str_eqb_eq in E. congruence.
  - intros H. exists x. split; [exact H|apply str_eqb_refl].
Qed.

Lemma im_get_alloc : forall m name v m', im_get m name = (v, m') ->
  alloc m [name] v m' /\ im_find m' name = Some v /\
  (forall w, im_find m name = Some w -> v = w).
Proof.
  intros m name v m' H. unfold im_get in H. destruct (im_find m name) as [w|] eqn:E.
  - injection H as <- <-. split; [|split; [exact E|congruence]].
    split; [auto|]. split; [auto|]. right. split; [reflexivity|].
    exists name. split; [left; reflexivity|exact E].
  - injection H as <- <-. split; [|split; [|discriminate]].
    + split; [|split].
      * intros x w Hx. rewrite im_find_emplace, im_find_setid, Hx. reflexivity.
      * intros x w Hx. rewrite im_find_emplace, im_find_setid in Hx.
        destruct (im_find m x) as [u|]; [auto|].
        destruct (str_eqb_spec name x) as [->|]; [|discriminate].
        right. split; [left; reflexivity|congruence].
      * left. split; [reflexivity|]. rewrite im_id_emplace. reflexivity.
    + rewrite im_find_emplace, im_find_setid, E, str_eqb_refl. reflexivity.
Qed.

Lemma alloc_more : forall m names v m' more,
  alloc m names v m' -> alloc m (names ++ more) v (im_emplace_all m' more v).
Proof.
  intros m names v m' more (A & B & C). split; [|split].
  - intros x w Hx. rewrite im_find_emplace_all, (A x w Hx). reflexivity.
  - intros x w Hx. rewrite im_find_emplace_all in Hx.
    destruct (im_find m' x) as [u|] eqn:Eu.
    + injection Hx as ->. destruct (B x w Eu) as [?|(H1 & H2)]; [auto|].
      right. split; [apply in_or_app; auto|exact H2].
    + destruct (existsb (fun n => str_eqb n x) more) eqn:Ex; [|discriminate].
      apply in_existsb in Ex. right. split; [apply in_or_app; auto|congruence].
  - rewrite im_id_emplace_all. destruct C as [C|(C & x & Hx & Hf)]; [auto|].
    right. split; [exact C|]. exists x. split; [apply in_or_app; auto|exact Hf].
Qed.

Lemma im_find_any_some : forall m names v, im_find_any m names = Some v ->
  exists x, In x names /\ im_find m x = Some v.
Proof.
  induction names as [|n names IH]; intros v H; simpl in H; [discriminate|].
  destruct (im_find m n) eqn:E.
  - injection H as <-. exists n. split; [left; reflexivity|exact E].
  - destruct (IH v H) as (x & Hx & Hf). exists x. split; [right; exact Hx|exact Hf].
Qed.

Lemma im_find_any_none : forall m names, im_find_any m names = None ->
  forall x, In x names -> im_find m x = None.
Proof.
  induction names as [|n names IH]; intros H x Hx; simpl in *; [destruct Hx|].
  destruct (im_find m n) eqn:E; [discriminate|].
  destruct Hx as [<-|Hx]; auto.
Qed.

Lemma im_get_any_alloc : forall m names v m', im_get_any m names = (v, m') ->
  alloc m names v m' /\
  ((forall x, In x names -> im_find m x = None) \/
   exists x, In x names /\ im_find m x = Some v).
Proof.
  intros m names v m' H. unfold im_get_any in H.
  destruct (im_find_any m names) as [w|] eqn:E.
  - injection H as <- <-. pose proof (im_find_any_some _ _ _ E) as S.
    split; [|right; exact S]. split; [auto|]. split; [auto|]. right. auto.
  - injection H as <- <-. pose proof (im_find_any_none _ _ E) as N.
    split; [|left; exact N]. split; [|split].
    + intros x w Hx. rewrite im_find_emplace_all, im_find_setid, Hx. reflexivity.
    + intros x w Hx. rewrite im_find_emplace_all, im_find_setid in Hx.
      destruct (im_find m x); [auto|].
      destruct (existsb (fun n => str_eqb n x) names) eqn:Ex; [|discriminate].
      apply in_existsb in Ex. right. split; [exact Ex|congruence].
    + left. split; [reflexivity|]. rewrite im_id_emplace_all. reflexivity.
Qed.

(** Invariant after the items in [done]. *)
Record id_inv (start : N) (m : id_maker) (done : list (list str * N)) : Prop := {
  ii_start : (start <= im_id m)%N;
  ii_map : forall x w, im_find m x = Some w -> exists n, In (n, w) done /\ In x n;
  ii_range : forall n w, In (n, w) done -> (start < w <= im_id m)%N;
  ii_linked : forall n1 n2 w, In (n1, w) done -> In (n2, w) done -> linked done n1 n2
}.

Lemma linked_app : forall {A} (l l' : list (list str * A)) n1 n2,
  linked l n1 n2 -> linked (l ++ l') n1 n2.
Proof.
  intros A l l' n1 n2 H. induction H as [n|n1 n2 n3 x v H IH H2 H3 Hi]; [constructor|].
  eapply linked_step; [exact IH|exact H2|exact H3|]. apply in_or_app. left. exact Hi.
Qed.

Lemma linked_trans : forall {A} (l : list (list str * A)) n1 n2 n3,
  linked l n1 n2 -> linked l n2 n3 -> linked l n1 n3.
Proof.
  intros A l n1 n2 n3 H1 H. induction H as [n|n2 n3 n4 x v H IH H2 H3 Hi]; [exact H1|].
  eapply linked_step; [exact (IH H1)|exact H2|exact H3|exact Hi].
Qed.

Lemma id_inv_step : forall start m done names v m',
  id_inv start m done -> alloc m names v m' ->
  id_inv start m' (done ++ [(names, v)]) /\ (im_id m <= im_id m')%N.
Proof.
  intros start m done names v m' [I1 I2 I3 I4] (A & B & C). split.
  2:{ destruct C as [(-> & ->)|(-> & _)]; lia. }
  constructor.
  - destruct C as [(-> & ->)|(-> & _)]; lia.
  - intros x w Hx. destruct (B x w Hx) as [Hm|(Hn & ->)].
    + destruct (I2 x w Hm) as (n & Hn & Hin). exists n. split; [|exact Hin].
      apply in_or_app. auto.
    + exists names. split; [|exact Hn]. apply in_or_app. right. left. reflexivity.
  - intros n w Hn. apply in_app_or in Hn. destruct Hn as [Hn|[Hn|[]]].
    + specialize (I3 n w Hn). destruct C as [(-> & ->)|(-> & _)]; lia.
    + injection Hn as <- <-. destruct C as [(-> & E)|(E & x & Hx & Hf)].
      * lia.
      * destruct (I2 x v Hf) as (k & Hk & _). specialize (I3 k v Hk). lia.
  - intros n1 n2 w H1 H2. apply in_app_or in H1, H2.
    assert (Own : In (names, v) (done ++ [(names, v)])).
    { apply in_or_app. right. left. reflexivity. }
    destruct H1 as [H1|[H1|[]]], H2 as [H2|[H2|[]]].
    + apply linked_app. eapply I4; eassumption.
    + injection H2 as <- <-. destruct C as [(E & E2)|(E & x & Hx & Hf)].
      * exfalso. specialize (I3 n1 v H1). lia.
      * destruct (I2 x v Hf) as (k & Hk & Hxk).
        eapply linked_step; [apply linked_app, (I4 n1 k v); assumption|exact Hxk|exact Hx|exact Own].
    + injection H1 as <- <-. destruct C as [(E & E2)|(E & x & Hx & Hf)].
      * exfalso. specialize (I3 n2 v H2). lia.
      * destruct (I2 x v Hf) as (k & Hk & Hxk).
        eapply linked_trans; [|apply linked_app, (I4 k n2 v); assumption].
        eapply linked_step; [constructor|exact Hx|exact Hxk|]. apply in_or_app. left. exact Hk.
    + inversion H1; inversion H2; subst. constructor.
Qed.

Lemma with_alias_cons : forall x l names, with_alias (x :: l) names = (x :: l) :: names.
Proof. reflexivity. Qed.

Definition arg_alloc (m : id_maker) (a : arg_data) : N * id_maker :=
  if negb (is_empty (a_alias a)) then
    let (v, m1) := im_get m (a_alias a) in (v, im_emplace m1 (a_name a) v)
  else im_get m (a_name a).

Lemma arg_alloc_spec : forall m a v m', arg_alloc m a = (v, m') ->
  alloc m (arg_names a) v m' /\ im_find m' (arg_key a) = Some v /\
  (forall w, im_find m (arg_key a) = Some w -> v = w).
Proof.
  intros m a v m' H. unfold arg_alloc in H. unfold arg_names, arg_key.
  destruct (a_alias a) as [|x l]; simpl in H.
  - simpl. apply im_get_alloc. exact H.
  - destruct (im_get m (x :: l)) as (v1 & m1) eqn:E. injection H as <- <-.
    apply im_get_alloc in E. destruct E as (A & F & G). simpl. split; [|split].
    + change ((x :: l) :: [a_name a]) with ([x :: l] ++ [a_name a]).
      apply (alloc_more m [x :: l] v1 m1 [a_name a] A).
    + rewrite im_find_emplace, F. reflexivity.
    + exact G.
Qed.

Definition opt_alloc (m : id_maker) (o : opt_data) : N * id_maker :=
  if negb (is_empty (o_alias o)) then
    let (v, m1) := im_get m (o_alias o) in (v, im_emplace_all m1 (o_flags o) v)
  else im_get_any m (o_flags o).

Lemma opt_alloc_spec : forall m o v m', opt_alloc m o = (v, m') ->
  alloc m (opt_names o) v m' /\
  (o_alias o <> [] -> im_find m' (o_alias o) = Some v /\
     (forall w, im_find m (o_alias o) = Some w -> v = w)) /\
  (o_alias o = [] ->
     (forall x, In x (o_flags o) -> im_find m x = None) \/
     exists x, In x (o_flags o) /\ im_find m x = Some v).
Proof.
  intros m o v m' H. unfold opt_alloc in H. unfold opt_names.
  destruct (o_alias o) as [|x l]; simpl in H.
  - simpl. apply im_get_any_alloc in H. destruct H as (A & B).
    split; [exact A|]. split; [congruence|]. auto.
  - destruct (im_get m (x :: l)) as (v1 & m1) eqn:E. injection H as <- <-.
    apply im_get_alloc in E. destruct E as (A & F & G). split; [|split; [|discriminate]].
    + simpl. change ((x :: l) :: o_flags o) with ([x :: l] ++ o_flags o).
      apply alloc_more. exact A.
    + intros _. rewrite im_find_emplace_all, F. auto.
Qed.

Lemma set_argument_ids_cons : forall m aid a r,
  set_argument_ids m aid (a :: r) =
  let (vid, m') := arg_alloc m a in
  let '(r', m'', aid'') := set_argument_ids m' (aid + 1) r in
  (set_a_ids a (aid + 1) vid :: r', m'', aid'').
Proof. reflexivity. Qed.

Lemma set_option_ids_cons : forall m aid o r,
  set_option_ids m aid (o :: r) =
  let (vid, m') := match o_operation o with
                   | OP_NONE => (o_value_id o, m)
                   | _ => opt_alloc m o
                   end in
  let '(r', m'', aid'') := set_option_ids m' (aid + 1) r in
  (set_o_ids o (aid + 1) vid :: r', m'', aid'').
Proof. reflexivity. Qed.

Fixpoint count_up (aid : N) (n : nat) : list N :=
  match n with O => [] | S n' => (aid + 1)%N :: count_up (aid + 1) n' end.

Lemma count_up_gt : forall n aid x, In x (count_up aid n) -> (aid < x <= aid + N.of_nat n)%N.
Proof.
  induction n as [|n IH]; intros aid x H; [destruct H|].
  cbn [count_up] in H. destruct H as [<-|H]; [lia|]. apply IH in H. lia.
Qed.

Lemma count_up_nodup : forall n aid, NoDup (count_up aid n).
Proof.
  induction n as [|n IH]; intros aid; cbn [count_up]; constructor; [|apply IH].
  intros H. apply count_up_gt in H. lia.
Qed.

Lemma count_up_app : forall n m aid,
  count_up aid n ++ count_up (aid + N.of_nat n) m = count_up aid (n + m).
Proof.
  induction n as [|n IH]; intros m aid.
  - simpl. rewrite N.add_0_r. reflexivity.
  - cbn [count_up app plus]. f_equal. rewrite <- IH. f_equal. f_equal. lia.
Qed.

Definition same_arg (a a' : arg_data) : Prop :=
  exists aid vid, a' = set_a_ids a aid vid.
Definition same_opt (o o' : opt_data) : Prop :=
  exists aid vid, o' = set_o_ids o aid vid.

Lemma set_argument_ids_spec : forall start args m aid done args' m' aid',
  id_inv start m done -> set_argument_ids m aid args = (args', m', aid') ->
  id_inv start m' (done ++ named_values args' []) /\
  (im_id m <= im_id m')%N /\
  aid' = (aid + N.of_nat (length args))%N /\
  map a_argument_id args' = count_up aid (length args) /\
  Forall2 same_arg args args'.
Proof.
  unfold named_values. simpl.
  induction args as [|a args IH]; intros m aid done args' m' aid' I H.
  - injection H as <- <- <-. simpl. rewrite app_nil_r.
    split; [exact I|]. split; [lia|]. split; [lia|]. split; [reflexivity|constructor].
  - rewrite set_argument_ids_cons in H. destruct (arg_alloc m a) as (v & m1) eqn:E.
    destruct (set_argument_ids m1 (aid + 1) args) as ((r' & m2) & aid2) eqn:R.
    injection H as <- <- <-. apply arg_alloc_spec in E. destruct E as (A & _ & _).
    destruct (id_inv_step _ _ _ _ _ _ I A) as (I1 & L1).
    destruct (IH _ _ _ _ _ _ I1 R) as (I2 & L2 & E2 & M2 & F2).
    rewrite app_nil_r in *. split; [|split; [lia|split; [|split]]].
    + rewrite <- app_assoc in I2. exact I2.
    + rewrite E2. cbn [length]. lia.
    + cbn [map length count_up]. rewrite M2. reflexivity.
    + constructor; [|exact F2]. exists (aid + 1)%N, v. reflexivity.
Qed.

Definition opts_named (opts : list opt_data) : list (list str * N) :=
  map (fun o => (opt_names o, o_value_id o))
    (filter (fun o => match o_operation o with OP_NONE => false | _ => true end) opts).

Lemma set_option_ids_spec : forall start opts m aid done opts' m' aid',
  id_inv start m done -> set_option_ids m aid opts = (opts', m', aid') ->
  id_inv start m' (done ++ opts_named opts') /\
  (im_id m <= im_id m')%N /\
  aid' = (aid + N.of_nat (length opts))%N /\
  map o_argument_id opts' = count_up aid (length opts) /\
  Forall2 same_opt opts opts'.
Proof.
  unfold opts_named.
  induction opts as [|o opts IH]; intros m aid done opts' m' aid' I H.
  - injection H as <- <- <-. simpl. rewrite app_nil_r.
    split; [exact I|]. split; [lia|]. split; [lia|]. split; [reflexivity|constructor].
  - rewrite set_option_ids_cons in H.
    destruct (match o_operation o with OP_NONE => (o_value_id o, m) | _ => opt_alloc m o end)
      as (v & m1) eqn:E.
    destruct (set_option_ids m1 (aid + 1) opts) as ((r' & m2) & aid2) eqn:R.
    injection H as <- <- <-.
    assert (X : exists done1, id_inv start m1 (done ++ done1) /\ (im_id m <= im_id m1)%N /\
              done1 = match o_operation o with
                      | OP_NONE => [] | _ => [(opt_names o, v)] end).
    { eexists. split; [|split; [|reflexivity]];
      destruct (o_operation o);
        try (apply opt_alloc_spec in E; destruct E as (A & _ & _);
             apply (id_inv_step _ _ _ _ _ _ I A));
        injection E as <- <-; [rewrite app_nil_r; exact I|lia]. }
    destruct X as (done1 & I1 & L1 & Ed).
    destruct (IH _ _ _ _ _ _ I1 R) as (I2 & L2 & E2 & M2 & F2).
    split; [|split; [lia|split; [|split]]].
    + cbn [filter]. change (o_operation (set_o_ids o (aid + 1) v)) with (o_operation o).
      rewrite <- app_assoc in I2. subst done1.
      destruct (o_operation o); exact I2.
    + rewrite E2. cbn [length]. lia.
    + cbn [map length count_up]. rewrite M2. reflexivity.
    + constructor; [|exact F2]. exists (aid + 1)%N, v. reflexivity.
Qed.

Lemma id_inv_empty : forall start, id_inv start (mk_ids [] start) [].
Proof.
  intros. constructor; simpl.
  - lia.
  - intros x w H. discriminate.
  - intros n w [].
  - intros n1 n2 w [].
Qed.

Lemma set_internal_ids_spec : forall args opts vid aid args' opts' vid' aid',
  set_internal_ids args opts vid aid = (args', opts', vid', aid') ->
  (exists m, id_inv vid m (named_values args' opts') /\ im_id m = vid') /\
  aid' = (aid + N.of_nat (length args + length opts))%N /\
  map a_argument_id args' ++ map o_argument_id opts' =
    count_up aid (length args + length opts) /\
  Forall2 same_arg args args' /\ Forall2 same_opt opts opts'.
Proof.
  intros args opts vid aid args' opts' vid' aid' H. unfold set_internal_ids in H.
  destruct (set_argument_ids (mk_ids [] vid) aid args) as ((a1 & m1) & aid1) eqn:E1.
  destruct (set_option_ids m1 aid1 opts) as ((o2 & m2) & aid2) eqn:E2.
  injection H as <- <- <- <-.
  destruct (set_argument_ids_spec _ _ _ _ _ _ _ _ (id_inv_empty vid) E1)
    as (I1 & _ & X1 & M1 & F1).
  destruct (set_option_ids_spec _ _ _ _ _ _ _ _ I1 E2) as (I2 & _ & X2 & M2 & F2).
  split; [|split; [|split; [|split; assumption]]].
  - exists m2. split; [|reflexivity]. unfold named_values in *. simpl in I2.
    rewrite app_nil_r in I2. exact I2.
  - rewrite X2, X1. lia.
  - rewrite M1, M2, X1. apply count_up_app.
Qed.

Lemma same_opts_flags : forall opts opts', Forall2 same_opt opts opts' ->
  all_flags opts' = all_flags opts.
Proof.
  induction 1 as [|o o' l l' (aid & vid & ->) F IH]; simpl; [reflexivity|].
  rewrite IH. reflexivity.
Qed.

(** ** Inversion of a finished command *)

Lemma finish_finished : forall st full sid aid c c',
  finish_command st full sid aid c = Val c' ->
  exists opts1 vid' aid',
    validate_all (s_style st) (c_options c) = Val opts1 /\
    update_require (c_require c) (c_commands c) = Val (c_require c') /\
    set_internal_ids (c_arguments c)
      (add_help_option opts1 (c_current_section c) st) sid (aid + 1) =
      (c_arguments c', c_options c', vid', aid') /\
    build_option_index (s_case_insensitive st) (c_options c') = Val (c_index c') /\
    Forall2 (fun d d' => finish_command st (c_name c ++ c_space :: c_name d)
                           vid' aid' d = Val d') (c_commands c) (c_commands c') /\
    c_argument_id c' = (aid + 1)%N /\ c_name c' = c_name c /\ c_full_name c' = full /\
    c_multi c' = c_multi c.
Proof.
  intros st full sid aid c c' H. rewrite finish_command_eq in H.
  destruct (validate_all (s_style st) (c_options c)) as [opts1|] eqn:V; [|discriminate].
  destruct (update_require (c_require c) (c_commands c)) as [rq|] eqn:U; [|discriminate].
  cbv zeta in H.
  destruct (set_internal_ids (c_arguments c) (add_help_option opts1 (c_current_section c) st)
              sid (aid + 1)) as (((args' & opts') & vid') & aid') eqn:S.
  destruct (build_option_index (s_case_insensitive st) opts') as [index|] eqn:B; [|discriminate].
  destruct (finish_subs st (c_name c) vid' aid' (c_commands c)) as [cmds'|] eqn:F; [|discriminate].
  injection H as <-. apply finish_subs_forall2 in F. simpl.
  exists opts1, vid', aid'. repeat split; auto.
Qed.

Lemma forall2_in_right : forall {A B} (R : A -> B -> Prop) l l', Forall2 R l l' ->
  forall y, In y l' -> exists x, In x l /\ R x y.
Proof.
  induction 1 as [|x y l l' H F IH]; intros z Hz; [destruct Hz|].
  destruct Hz as [<-|Hz].
  - exists x. split; [left; reflexivity|exact H].
  - destruct (IH z Hz) as (w & Hw & R1). exists w. split; [right; exact Hw|exact R1].
Qed.

Lemma forall2_in_left : forall {A B} (R : A -> B -> Prop) l l', Forall2 R l l' ->
  forall x, In x l -> exists y, In y l' /\ R x y.
Proof.
  induction 1 as [|x y l l' H F IH]; intros z Hz; [destruct Hz|].
  destruct Hz as [<-|Hz].
  - exists y. split; [left; reflexivity|exact H].
  - destruct (IH z Hz) as (w & Hw & R1). exists w. split; [right; exact Hw|exact R1].
Qed.

(** Every command of a finished tree has itself been finished. *)
Lemma finished_within : forall st c full sid aid c',
  finish_command st full sid aid c = Val c' ->
  forall d, within c' d ->
    exists d0 full0 sid0 aid0, within c d0 /\ finish_command st full0 sid0 aid0 d0 = Val d.
Proof.
  intros st c full sid aid c' H d W. induction W as [|e d W IH Hd].
  - exists c, full, sid, aid. split; [constructor|exact H].
  - destruct IH as (e0 & f0 & s0 & a0 & We & He). apply finish_finished in He.
    destruct He as (opts1 & vid' & aid' & _ & _ & _ & _ & F & _).
    destruct (forall2_in_right _ _ _ F d Hd) as (d0 & Hd0 & E).
    exists d0. eexists. eexists. eexists. split; [|exact E].
    eapply within_sub; eassumption.
Qed.

(** ** Finished index *)

Lemma finish_parser_inv : forall p q, finish_parser p = Val q ->
  d_settings q = d_settings p /\
  finish_command (d_settings p)
    (if is_empty (c_full_name (d_command p)) then c_name (d_command p)
     else c_full_name (d_command p)) 0 0
    (set_c_items (d_command p) (c_arguments (d_command p))
       (add_version_option (c_options (d_command p)) (c_current_section (d_command p))
          (c_name (d_command p)) (d_version p) (d_settings p))
       (c_commands (d_command p))) = Val (d_command q).
Proof.
  intros p q H. unfold finish_parser in H. cbv zeta in H.
  destruct (finish_command _ _ _ _ _) as [c|e] eqn:E; [|discriminate].
  injection H as <-. split; reflexivity.
Qed.

Lemma finished_index_proof : forall p q c,
  finish_parser p = Val q -> within (d_command q) c ->
  build_option_index (s_case_insensitive (d_settings q)) (c_options c) = Val (c_index c).
Proof.
  intros p q c H W. apply finish_parser_inv in H. destruct H as (-> & H).
  destruct (finished_within _ _ _ _ _ _ H c W) as (d0 & f & s & a & _ & E).
  apply finish_finished in E. destruct E as (_ & _ & _ & _ & _ & _ & B & _). exact B.
Qed.

Lemma finished_own_flag_proof : forall p q c f o abbrev,
  finish_parser p = Val q -> s_case_insensitive (d_settings q) = false ->
  within (d_command q) c -> In o (c_options c) -> In f (o_flags o) ->
  find_option c f abbrev false = Some o.
Proof.
  intros p q c f o abbrev H Ci W Ho Hf. pose proof (finished_index_proof p q c H W) as B.
  rewrite Ci in B. eapply own_flag_proof; [exact B|]. split; assumption.
Qed.

Lemma finished_lookup_proof : forall p q c s abbrev o,
  finish_parser p = Val q -> s_case_insensitive (d_settings q) = false ->
  within (d_command q) c ->
  (find_option c s abbrev false = Some o <-> selects false abbrev (c_options c) s o).
Proof.
  intros p q c s abbrev o H Ci W. pose proof (finished_index_proof p q c H W) as B.
  rewrite Ci in B. apply lookup_proof; [intros X; discriminate|intros X; discriminate|exact B].
Qed.

(** ** Acceptance of definitions *)

Lemma update_require_iff : forall rq cmds,
  (exists r, update_require rq cmds = Val r) <-> (rq = Some true -> cmds <> []).
Proof.
  intros [[|]|] [|c cmds]; unfold update_require; simpl; split; intros H;
    try (eexists; reflexivity); try discriminate; try (intros; discriminate).
  - destruct H. discriminate.
  - exfalso. apply H; reflexivity.
Qed.

Lemma index_of_finished_options : forall st opts opts1 sec args sid aid args' opts' v a,
  safe_flags (s_case_insensitive st) opts ->
  validate_all (s_style st) opts = Val opts1 ->
  set_internal_ids args (add_help_option opts1 sec st) sid aid = (args', opts', v, a) ->
  ((exists i, build_option_index (s_case_insensitive st) opts' = Val i) <->
   NoDup (map (folded (s_case_insensitive st)) (all_flags opts))).
Proof.
  intros st opts opts1 sec args sid aid args' opts' v a S V I.
  apply set_internal_ids_spec in I. destruct I as (_ & _ & _ & _ & F).
  pose proof (validate_all_flags _ _ _ V) as E1. apply same_opts_flags in F.
  assert (S1 : safe_flags (s_case_insensitive st) opts1).
  { unfold safe_flags. rewrite E1. exact S. }
  rewrite duplicates_proof.
  - rewrite F, help_no_conflict_proof, E1. reflexivity.
  - unfold safe_flags. rewrite F. apply help_safe. exact S1.
Qed.

Lemma finish_command_iff : forall st c full sid aid,
  (forall d, within c d -> command_safe st d) ->
  ((exists c', finish_command st full sid aid c = Val c') <->
   forall d, within c d -> command_ok st d).
Proof.
  intros st c. induction c as [c IH] using cmd_nested_ind. intros full sid aid S.
  rewrite finish_command_eq. cbv zeta.
  assert (Sc : command_safe st c) by (apply S; constructor).
  assert (Ssub : forall d, In d (c_commands c) -> forall e, within d e -> command_safe st e).
  { intros d Hd e He. apply S. eapply within_trans; [|exact He].
    eapply within_sub; [constructor|exact Hd]. }
  assert (Split : (forall d, within c d -> command_ok st d) <->
            command_ok st c /\ forall d, In d (c_commands c) -> forall e, within d e ->
              command_ok st e).
  { split.
    - intros H. split; [apply H; constructor|]. intros d Hd e He. apply H.
      eapply within_trans; [|exact He]. eapply within_sub; [constructor|exact Hd].
    - intros (H1 & H2) d Hd. apply within_inv in Hd. destruct Hd as [->|(e & He & W)]; eauto. }
  rewrite Split. clear Split. unfold command_ok at 1.
  rewrite <- validate_all_iff, <- update_require_iff.
  destruct (validate_all (s_style st) (c_options c)) as [opts1|e] eqn:V.
  2:{ split; [intros (x & X); discriminate|]. intros (((x & X) & _) & _). discriminate. }
  destruct (update_require (c_require c) (c_commands c)) as [rq|e] eqn:U.
  2:{ split; [intros (x & X); discriminate|]. intros ((_ & _ & (x & X)) & _). discriminate. }
  destruct (set_internal_ids (c_arguments c) (add_help_option opts1 (c_current_section c) st)
              sid (aid + 1)) as (((args' & opts') & vid') & aid') eqn:I.
  rewrite <- (index_of_finished_options _ _ _ _ _ _ _ _ _ _ _ Sc V I).
  destruct (build_option_index (s_case_insensitive st) opts') as [index|e] eqn:B.
  2:{ split; [intros (x & X); discriminate|]. intros ((_ & (x & X) & _) & _). discriminate. }
  assert (Subs : (exists l', finish_subs st (c_name c) vid' aid' (c_commands c) = Val l') <->
            forall d, In d (c_commands c) -> forall e, within d e -> command_ok st e).
  { clear B I U V Sc S. induction (c_commands c) as [|d l IHl]; simpl.
    - split; [intros _ d []|]. intros _. eexists. reflexivity.
    - inversion IH; subst.
      specialize (H1 (c_name c ++ c_space :: c_name d) vid' aid').
      specialize (H1 (Ssub d (or_introl eq_refl))).
      assert (IHl' := IHl H2 (fun x Hx => Ssub x (or_intror Hx))). clear IHl.
      destruct (finish_command st (c_name c ++ c_space :: c_name d) vid' aid' d) as [d'|e].
      + destruct (finish_subs st (c_name c) vid' aid' l) as [l'|e].
        * split; [|intros _; eexists; reflexivity]. intros _ x [<-|Hx].
          -- apply H1. eexists. reflexivity.
          -- apply IHl'; [eexists; reflexivity|exact Hx].
        * split; [intros (x & X); discriminate|]. intros H.
          destruct (proj2 IHl') as (x & X); [|discriminate].
          intros x Hx. apply H. right. exact Hx.
      + split; [intros (x & X); discriminate|]. intros H.
        destruct (proj2 H1) as (x & X); [|discriminate]. apply H. left. reflexivity. }
  rewrite <- Subs.
  destruct (finish_subs st (c_name c) vid' aid' (c_commands c)) as [cmds'|e].
  - split; [|intros _; eexists; reflexivity]. intros _.
    repeat split; eexists; reflexivity.
  - split; [intros (x & X); discriminate|]. intros (_ & (x & X)). discriminate.
Qed.

Lemma finish_parser_iff_proof : forall p,
  (forall c, within (d_command p) c -> command_safe (d_settings p) c) ->
  ((exists q, finish_parser p = Val q) <->
   forall c, within (d_command p) c -> command_ok (d_settings p) c).
Proof.
  intros p S. set (st := d_settings p) in *. set (c := d_command p) in *.
  set (opts' := add_version_option (c_options c) (c_current_section c) (c_name c)
                  (d_version p) st).
  set (c1 := set_c_items c (c_arguments c) opts' (c_commands c)).
  assert (W1 : forall d, within c1 d -> d = c1 \/ (d <> c1 /\ within c d) \/ within c d).
  { intros d W. apply within_inv in W. destruct W as [|(e & He & W)]; [auto|].
    right. right. eapply within_trans; [|exact W]. eapply within_sub; [constructor|exact He]. }
  assert (S1 : forall d, within c1 d -> command_safe st d).
  { intros d W. destruct (W1 d W) as [->|[(_ & W')|W']]; auto.
    unfold command_safe. simpl. apply version_safe. apply S. constructor. }
  assert (OK : command_ok st c1 <-> command_ok st c).
  { unfold command_ok. simpl. unfold opts'. rewrite version_valid, version_no_conflict.
    reflexivity. }
  pose proof (finish_command_iff st c1
    (if is_empty (c_full_name c) then c_name c else c_full_name c) 0 0 S1) as FI.
  unfold finish_parser. cbv zeta. fold c st. fold opts'. fold c1.
  assert (X : (forall d, within c1 d -> command_ok st d) <->
              (forall d, within c d -> command_ok st d)).
  { split; intros H d W.
    - apply within_inv in W. destruct W as [->|(e & He & W)].
      + apply OK. apply H. constructor.
      + apply H. eapply within_trans; [|exact W]. eapply within_sub; [constructor|exact He].
    - destruct (W1 d W) as [->|[(_ & W')|W']]; auto. apply OK. apply H. constructor. }
  rewrite <- X, <- FI.
  destruct (finish_command st _ 0 0 c1) as [c2|e].
  - split; intros _; eexists; reflexivity.
  - split; intros (x & E); discriminate.
Qed.

(** ** C17 for finished commands *)

Lemma command_ids_proof : forall p q c, finish_parser p = Val q -> within (d_command q) c ->
  NoDup (c_argument_id c :: all_argument_ids c) /\
  (forall n1 n2 v,
     In (n1, v) (named_values (c_arguments c) (c_options c)) ->
     In (n2, v) (named_values (c_arguments c) (c_options c)) ->
     linked (named_values (c_arguments c) (c_options c)) n1 n2) /\
  (forall n v, In (n, v) (named_values (c_arguments c) (c_options c)) -> v <> 0%N).
Proof.
  intros p q c H W. apply finish_parser_inv in H. destruct H as (_ & H).
  destruct (finished_within _ _ _ _ _ _ H c W) as (d0 & f & s & a & _ & E).
  apply finish_finished in E.
  destruct E as (opts1 & vid' & aid' & _ & _ & I & _ & _ & Ea & _).
  apply set_internal_ids_spec in I. destruct I as ((m & I & _) & _ & M & _).
  split; [|split].
  - unfold all_argument_ids. rewrite M, Ea. constructor; [|apply count_up_nodup].
    intros X. apply count_up_gt in X. lia.
  - apply (ii_linked _ _ _ I).
  - intros n v Hn. apply (ii_range _ _ _ I) in Hn. lia.
Qed.

(** Bounds of the ids in a finished command. *)
Lemma finished_ids_ge : forall st c full sid aid c',
  finish_command st full sid aid c = Val c' ->
  (forall x, In x (c_argument_id c' :: all_argument_ids c') -> (aid < x)%N) /\
  (forall x, In x (all_value_ids c') -> (sid < x)%N) /\
  exists vid' aid',
    (sid <= vid')%N /\ (aid <= aid')%N /\
    (forall x, In x (c_argument_id c' :: all_argument_ids c') -> (x <= aid')%N) /\
    (forall x, In x (all_value_ids c') -> (x <= vid')%N) /\
    Forall2 (fun d d' => finish_command st (c_name c ++ c_space :: c_name d)
                           vid' aid' d = Val d') (c_commands c) (c_commands c').
Proof.
  intros st c full sid aid c' E. apply finish_finished in E.
  destruct E as (opts1 & vid' & aid' & _ & _ & I & _ & F & Ea & _).
  apply set_internal_ids_spec in I. destruct I as ((m & I & Em) & Ea' & M & _).
  unfold all_argument_ids, all_value_ids. rewrite M, Ea.
  assert (V : forall x, In x (map snd (named_values (c_arguments c') (c_options c'))) ->
            (sid < x <= vid')%N).
  { intros x Hx. apply in_map_iff in Hx. destruct Hx as ((n & w) & <- & Hn).
    apply (ii_range _ _ _ I) in Hn. simpl. lia. }
  split; [|split].
  - intros x [<-|Hx]; [lia|]. apply count_up_gt in Hx. lia.
  - intros x Hx. apply V in Hx. lia.
  - exists vid', aid'. pose proof (ii_start _ _ _ I). split; [lia|]. split; [lia|].
    split; [|split; [|exact F]].
    + intros x [<-|Hx]; [lia|]. apply count_up_gt in Hx. lia.
    + intros x Hx. apply V in Hx. lia.
Qed.

Lemma finished_ids_lower : forall st c full sid aid c',
  finish_command st full sid aid c = Val c' -> forall d, within c' d ->
  (forall x, In x (c_argument_id d :: all_argument_ids d) -> (aid < x)%N) /\
  (forall x, In x (all_value_ids d) -> (sid < x)%N) /\
  exists d0 full0 sid0 aid0, (sid <= sid0)%N /\ (aid <= aid0)%N /\
    finish_command st full0 sid0 aid0 d0 = Val d.
Proof.
  intros st c full sid aid c' H d W. induction W as [|e d W IH Hd].
  - destruct (finished_ids_ge _ _ _ _ _ _ H) as (A & B & _).
    split; [exact A|]. split; [exact B|].
    exists c, full, sid, aid. split; [lia|]. split; [lia|exact H].
  - destruct IH as (_ & _ & e0 & f0 & s0 & a0 & L1 & L2 & E).
    destruct (finished_ids_ge _ _ _ _ _ _ E) as (_ & _ & v & a & V & A & _ & _ & F).
    destruct (forall2_in_right _ _ _ F d Hd) as (d0 & _ & Ed).
    destruct (finished_ids_ge _ _ _ _ _ _ Ed) as (A1 & B1 & _).
    split; [intros x Hx; apply A1 in Hx; lia|].
    split; [intros x Hx; apply B1 in Hx; lia|].
    eexists d0, _, v, a. split; [lia|]. split; [lia|exact Ed].
Qed.

Lemma nested_ids_proof : forall p q c d e,
  finish_parser p = Val q -> within (d_command q) c -> In d (c_commands c) -> within d e ->
  (forall x y, In x (c_argument_id c :: all_argument_ids c) ->
     In y (c_argument_id e :: all_argument_ids e) -> (x < y)%N) /\
  (forall x y, In x (all_value_ids c) -> In y (all_value_ids e) -> (x < y)%N).
Proof.
  intros p q c d e H W Hd We. apply finish_parser_inv in H. destruct H as (_ & H).
  destruct (finished_within _ _ _ _ _ _ H c W) as (c0 & f & s & a & _ & E).
  destruct (finished_ids_ge _ _ _ _ _ _ E) as (_ & _ & v & aa & _ & _ & LA & LV & F).
  destruct (forall2_in_right _ _ _ F d Hd) as (d0 & _ & Ed).
  destruct (finished_ids_lower _ _ _ _ _ _ Ed e We) as (A & B & _).
  split; intros x y Hx Hy.
  - apply LA in Hx. apply A in Hy. lia.
  - apply LV in Hx. apply B in Hy. lia.
Qed.

(** ** Items with the same key share their value *)

Lemma alloc_find : forall m n v m' x w, alloc m n v m' -> im_find m x = Some w ->
  im_find m' x = Some w.
Proof. intros m n v m' x w (A & _) H. auto. Qed.

Lemma set_argument_ids_stable : forall args m aid args' m' aid' x w,
  set_argument_ids m aid args = (args', m', aid') -> im_find m x = Some w ->
  im_find m' x = Some w /\ (forall a', In a' args' -> arg_key a' = x -> a_value_id a' = w).
Proof.
  induction args as [|a args IH]; intros m aid args' m' aid' x w H F.
  - injection H as <- <- <-. split; [exact F|]. intros a' [].
  - rewrite set_argument_ids_cons in H. destruct (arg_alloc m a) as (v & m1) eqn:E.
    destruct (set_argument_ids m1 (aid + 1) args) as ((r' & m2) & aid2) eqn:R.
    injection H as <- <- <-. apply arg_alloc_spec in E. destruct E as (A & _ & K).
    destruct (IH _ _ _ _ _ x w R (alloc_find _ _ _ _ _ _ A F)) as (F2 & P).
    split; [exact F2|]. intros a' [<-|Ha] Hk; [|auto].
    simpl. apply K. rewrite <- Hk in F. exact F.
Qed.

Lemma set_argument_ids_keys : forall args m aid args' m' aid',
  set_argument_ids m aid args = (args', m', aid') ->
  forall a, In a args' -> im_find m' (arg_key a) = Some (a_value_id a).
Proof.
  induction args as [|a args IH]; intros m aid args' m' aid' H.
  - injection H as <- <- <-. intros a [].
  - rewrite set_argument_ids_cons in H. destruct (arg_alloc m a) as (v & m1) eqn:E.
    destruct (set_argument_ids m1 (aid + 1) args) as ((r' & m2) & aid2) eqn:R.
    injection H as <- <- <-. apply arg_alloc_spec in E. destruct E as (_ & K & _).
    intros a' [<-|Ha].
    + destruct (set_argument_ids_stable _ _ _ _ _ _ _ _ R K) as (F & _). exact F.
    + eapply IH; eassumption.
Qed.

Definition has_value_op (o : opt_data) : Prop := o_operation o <> OP_NONE.

Lemma option_step : forall m o v m1,
  match o_operation o with OP_NONE => (o_value_id o, m) | _ => opt_alloc m o end = (v, m1) ->
  (o_operation o = OP_NONE /\ v = o_value_id o /\ m1 = m) \/
  (has_value_op o /\ opt_alloc m o = (v, m1)).
Proof.
  intros m o v m1 H. unfold has_value_op. destruct (o_operation o).
  - injection H as <- <-. auto.
  - right. split; [discriminate|exact H].
  - right. split; [discriminate|exact H].
  - right. split; [discriminate|exact H].
Qed.

Lemma set_option_ids_stable : forall opts m aid opts' m' aid' x w,
  set_option_ids m aid opts = (opts', m', aid') -> im_find m x = Some w ->
  im_find m' x = Some w /\
  (forall o, In o opts' -> has_value_op o -> o_alias o <> [] -> o_alias o = x ->
     o_value_id o = w).
Proof.
  induction opts as [|o opts IH]; intros m aid opts' m' aid' x w H F.
  - injection H as <- <- <-. split; [exact F|]. intros o [].
  - rewrite set_option_ids_cons in H.
    destruct (match o_operation o with OP_NONE => (o_value_id o, m) | _ => opt_alloc m o end)
      as (v & m1) eqn:E.
    destruct (set_option_ids m1 (aid + 1) opts) as ((r' & m2) & aid2) eqn:R.
    injection H as <- <- <-. apply option_step in E.
    assert (F1 : im_find m1 x = Some w).
    { destruct E as [(_ & _ & ->)|(_ & E)]; [exact F|].
      apply opt_alloc_spec in E. destruct E as (A & _). eapply alloc_find; eassumption. }
    destruct (IH _ _ _ _ _ x w R F1) as (F2 & P).
    split; [exact F2|]. intros o' [<-|Ho] Hv Ha Hx; [|auto].
    simpl in *. destruct E as [(N & _)|(_ & E)]; [contradiction|].
    apply opt_alloc_spec in E. destruct E as (_ & K & _). destruct (K Ha) as (_ & K2).
    apply K2. rewrite Hx. exact F.
Qed.

Lemma set_option_ids_keys : forall opts m aid opts' m' aid',
  set_option_ids m aid opts = (opts', m', aid') ->
  forall o, In o opts' -> has_value_op o -> o_alias o <> [] ->
    im_find m' (o_alias o) = Some (o_value_id o).
Proof.
  induction opts as [|o opts IH]; intros m aid opts' m' aid' H.
  - injection H as <- <- <-. intros o [].
  - rewrite set_option_ids_cons in H.
    destruct (match o_operation o with OP_NONE => (o_value_id o, m) | _ => opt_alloc m o end)
      as (v & m1) eqn:E.
    destruct (set_option_ids m1 (aid + 1) opts) as ((r' & m2) & aid2) eqn:R.
    injection H as <- <- <-. apply option_step in E.
    intros o' [<-|Ho] Hv Ha.
    + simpl in *. destruct E as [(N & _)|(_ & E)]; [contradiction|].
      apply opt_alloc_spec in E. destruct E as (_ & K & _). destruct (K Ha) as (K1 & _).
      destruct (set_option_ids_stable _ _ _ _ _ _ _ _ R K1) as (F & _). exact F.
    + eapply IH; eassumption.
Qed.

(** A flag of an option without alias that has an id already. *)
Lemma set_option_ids_flags : forall opts m aid opts' m' aid' x w,
  set_option_ids m aid opts = (opts', m', aid') -> im_find m x = Some w ->
  forall o, In o opts' -> has_value_op o -> o_alias o = [] -> In x (o_flags o) ->
    exists y, In y (o_flags o) /\ im_find m' y = Some (o_value_id o).
Proof.
  induction opts as [|o opts IH]; intros m aid opts' m' aid' x w H F.
  - injection H as <- <- <-. intros o [].
  - rewrite set_option_ids_cons in H.
    destruct (match o_operation o with OP_NONE => (o_value_id o, m) | _ => opt_alloc m o end)
      as (v & m1) eqn:E.
    destruct (set_option_ids m1 (aid + 1) opts) as ((r' & m2) & aid2) eqn:R.
    injection H as <- <- <-. apply option_step in E.
    assert (F1 : im_find m1 x = Some w).
    { destruct E as [(_ & _ & ->)|(_ & E)]; [exact F|].
      apply opt_alloc_spec in E. destruct E as (A & _). eapply alloc_find; eassumption. }
    intros o' [<-|Ho] Hv Ha Hx.
    + simpl in *. destruct E as [(N & _)|(_ & E)]; [contradiction|].
      apply opt_alloc_spec in E. destruct E as (A & _ & K).
      destruct (K Ha) as [N|(y & Hy & Fy)].
      * specialize (N x Hx). congruence.
      * exists y. split; [exact Hy|].
        apply (set_option_ids_stable _ _ _ _ _ _ y v R). eapply alloc_find; eassumption.
    + eapply (IH _ _ _ _ _ x w R F1); eassumption.
Qed.

Lemma shared_keys : forall args opts vid aid args' opts' vid' aid',
  set_internal_ids args opts vid aid = (args', opts', vid', aid') ->
  (forall a b, In a args' -> In b args' -> arg_key a = arg_key b ->
     a_value_id a = a_value_id b) /\
  (forall a o, In a args' -> In o opts' -> has_value_op o -> o_alias o <> [] ->
     arg_key a = o_alias o -> a_value_id a = o_value_id o) /\
  (forall o1 o2, In o1 opts' -> In o2 opts' -> has_value_op o1 -> has_value_op o2 ->
     o_alias o1 <> [] -> o_alias o1 = o_alias o2 -> o_value_id o1 = o_value_id o2).
Proof.
  intros args opts vid aid args' opts' vid' aid' H. unfold set_internal_ids in H.
  destruct (set_argument_ids (mk_ids [] vid) aid args) as ((a1 & m1) & aid1) eqn:E1.
  destruct (set_option_ids m1 aid1 opts) as ((o2 & m2) & aid2) eqn:E2.
  injection H as <- <- <- <-.
  pose proof (set_argument_ids_keys _ _ _ _ _ _ E1) as K1.
  pose proof (set_option_ids_keys _ _ _ _ _ _ E2) as K2.
  split; [|split].
  - intros a b Ha Hb E. apply K1 in Ha, Hb. congruence.
  - intros a o Ha Ho Hv Hal E. apply K1 in Ha.
    destruct (set_option_ids_stable _ _ _ _ _ _ _ _ E2 Ha) as (_ & P).
    symmetry. apply P; auto.
  - intros x y Hx Hy Vx Vy Ax E. pose proof (K2 x Hx Vx Ax) as X.
    assert (Ay : o_alias y <> []) by congruence.
    pose proof (K2 y Hy Vy Ay) as Y. congruence.
Qed.

Lemma same_key_proof : forall p q c, finish_parser p = Val q -> within (d_command q) c ->
  (forall a b, In a (c_arguments c) -> In b (c_arguments c) -> arg_key a = arg_key b ->
     a_value_id a = a_value_id b) /\
  (forall a o, In a (c_arguments c) -> In o (c_options c) -> o_operation o <> OP_NONE ->
     o_alias o <> [] -> arg_key a = o_alias o -> a_value_id a = o_value_id o) /\
  (forall o1 o2, In o1 (c_options c) -> In o2 (c_options c) ->
     o_operation o1 <> OP_NONE -> o_operation o2 <> OP_NONE ->
     o_alias o1 <> [] -> o_alias o1 = o_alias o2 -> o_value_id o1 = o_value_id o2).
Proof.
  intros p q c H W. apply finish_parser_inv in H. destruct H as (_ & H).
  destruct (finished_within _ _ _ _ _ _ H c W) as (d0 & f & s & a & _ & E).
  apply finish_finished in E. destruct E as (opts1 & vid' & aid' & _ & _ & I & _).
  exact (shared_keys _ _ _ _ _ _ _ _ I).
Qed.

(** An option with a single flag that is the key of an argument. *)
Lemma flag_key_proof : forall p q c a o, finish_parser p = Val q -> within (d_command q) c ->
  In a (c_arguments c) -> In o (c_options c) -> o_operation o <> OP_NONE -> o_alias o = [] ->
  o_flags o = [arg_key a] -> a_value_id a = o_value_id o.
Proof.
  intros p q c a o H W Ha Ho Hv Hal Hf. apply finish_parser_inv in H. destruct H as (_ & H).
  destruct (finished_within _ _ _ _ _ _ H c W) as (d0 & f & s & aa & _ & E).
  apply finish_finished in E. destruct E as (opts1 & vid' & aid' & _ & _ & I & _).
  unfold set_internal_ids in I.
  destruct (set_argument_ids (mk_ids [] s) (aa + 1) (c_arguments d0)) as ((a1 & m1) & aid1) eqn:E1.
  destruct (set_option_ids m1 aid1 _) as ((o2 & m2) & aid2) eqn:E2.
  injection I as Ia Io <- <-. subst a1 o2.
  pose proof (set_argument_ids_keys _ _ _ _ _ _ E1 a Ha) as K.
  destruct (set_option_ids_flags _ _ _ _ _ _ _ _ E2 K o Ho Hv Hal) as (y & Hy & Fy).
  { rewrite Hf. left. reflexivity. }
  rewrite Hf in Hy. destruct Hy as [<-|[]].
  destruct (set_option_ids_stable _ _ _ _ _ _ _ _ E2 K) as (F & _). congruence.
Qed.

Lemma common_name_refuted_proof : exists p q o1 o2 x,
  finish_parser p = Val q /\
  In o1 (c_options (d_command q)) /\ In o2 (c_options (d_command q)) /\
  In x (opt_names o1) /\ In x (opt_names o2) /\
  o_operation o1 = OP_ASSIGN /\ o_operation o2 = OP_ASSIGN /\
  o_value_id o1 <> o_value_id o2.
Proof.
  pose (opt fl al := mk_opt fl [] [] al ($"V") [] [] None OP_ASSIGN OT_NORMAL vis_normal true 0 0).
  exists (mk_data (set_c_items (new_command ($"p")) []
            [opt [$"--foo"] ($"-x"); opt [$"-x"; $"-y"] []; opt [$"--bar"] ($"-y")] [])
            default_settings [] 80 []).
  eexists. eexists. eexists. exists ($"-y"). split; [vm_compute; reflexivity|].
  split; [right; left; reflexivity|]. split; [right; right; left; reflexivity|].
  vm_compute. repeat split; auto. discriminate.
Qed.
