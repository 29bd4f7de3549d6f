(** Proofs for PBuild.v. *)
From Verif Require Import Base BaseProofs MStrings MOptIter MData MCounter MValues MParser MText MHelp MApi
  SStrings SDef SApi SBuild StrProofs DefProofs FinishProofs ApiErase ApiProofs.
Open Scope nat_scope.

Lemma Some_inj : forall A (x y : A), Some x = Some y -> x = y.
Proof. intros A x y E. injection E as E. exact E. Qed.

(* ------------------------------------------------------------------------ *)
(** ** The last call *)

Lemma settled_run : forall (C T V : Type) (step : C -> T -> T) (prop : T -> V) (f : C -> option V) cs s,
  (forall c s, In c cs -> prop (step c s) = match f c with Some x => x | None => prop s end) ->
  settled f cs (prop s) (prop (fold_left (fun s c => step c s) cs s)).
Proof.
  intros C T V step prop f cs. induction cs as [|c cs IH] using rev_ind; intros s H.
  - right. split; [intros c []|reflexivity].
  - rewrite fold_left_app. cbn [fold_left]. rewrite H by (apply in_app_iff; right; left; reflexivity).
    destruct (f c) as [x|] eqn:E.
    + left. exists cs, c, []. split; [reflexivity|]. split; [exact E|]. intros c' [].
    + specialize (IH s (fun c s I => H c s (in_or_app _ _ _ (or_introl I)))).
      destruct IH as [(b & c0 & a & -> & E0 & N0)|(N0 & E0)].
      * left. exists b, c0, (a ++ [c]). split; [rewrite <- app_assoc; reflexivity|]. split; [exact E0|].
        intros c' I. apply in_app_iff in I. destruct I as [I|[<-|[]]]; auto.
      * right. split; [|exact E0]. intros c' I. apply in_app_iff in I. destruct I as [I|[<-|[]]]; auto.
Qed.

(** *** Arguments *)

Definition arg_step (c : arg_call) (a : arg_data) : arg_data :=
  match arg_precheck c with Some _ => a | None => arg_update c a end.

Lemma call_arguments_fold : forall cs a,
  call_arguments cs (Some a) = Some (fold_left (fun a c => arg_step c a) cs a).
Proof.
  induction cs as [|c cs IH]; intros a; [reflexivity|]. cbn [call_arguments fold_left]. rewrite <- IH. f_equal.
  unfold call_argument, arg_step. destruct (arg_precheck c); reflexivity.
Qed.

Ltac by_calls := intros c a _; unfold arg_step, arg_precheck, sets_limits; destruct c as [| | | | | | | |n|lo hi];
  [reflexivity..|destruct (n =? 0)%N; reflexivity|destruct ((hi =? 0)%N || (hi <? lo)%N); reflexivity].

Lemma least_proof : forall cs a, a_min a = 1%N -> least_after cs (a_min (fold_left (fun a c => arg_step c a) cs a)).
Proof.
  intros cs. induction cs as [|c cs IH] using rev_ind; intros a E.
  - exists 1%N, []. split; [right; auto|]. split; [intros c []|]. split; [intros (c & [] & _)|]. intros _. exact E.
  - rewrite fold_left_app. cbn [fold_left]. specialize (IH a E).
    set (a1 := fold_left (fun a c => arg_step c a) cs a) in *. clearbody a1.
    assert (R : (exists x, sets_least c = Some x /\ a_min (arg_step c a1) = x) \/
                (sets_least c = None /\ requires_one c /\ a_min (arg_step c a1) = N.max 1 (a_min a1)) \/
                (sets_least c = None /\ ~ requires_one c /\ a_min (arg_step c a1) = a_min a1)).
    { assert (X : forall n, (if (n =? 0)%N then 1 else n)%N = N.max 1 n).
      { intros n. destruct (N.eqb_spec n 0) as [->|]; [reflexivity|]. symmetry. apply N.max_r. lia. }
      unfold requires_one. destruct c; cbn; try (right; right; split; [reflexivity|]; split; [intros [Y|Y]; discriminate|reflexivity]).
      - destruct b; [left; eexists; split; reflexivity|]. right; left. split; [reflexivity|]. split; [auto|apply X].
      - destruct b; [|left; eexists; split; reflexivity]. right; left. split; [reflexivity|]. split; [auto|apply X].
      - unfold arg_step. cbn. destruct (n =? 0)%N; cbn; [right; right|left; eexists; split; reflexivity].
        split; [reflexivity|]. split; [intros [Y|Y]; discriminate|reflexivity].
      - unfold arg_step. cbn. destruct ((hi =? 0)%N || (hi <? lo)%N); cbn; [right; right|left; eexists; split; reflexivity].
        split; [reflexivity|]. split; [intros [Y|Y]; discriminate|reflexivity]. }
    destruct R as [(x & Sx & ->)|R].
    + exists x, []. split; [left; eauto|]. split; [intros ? []|]. split; [intros (? & [] & _)|reflexivity].
    + destruct IH as (b & af & B & N0 & P1 & P2). exists b, (af ++ [c]).
      assert (Sc : sets_least c = None) by (destruct R as [(? & _)|(? & _)]; assumption).
      split; [destruct B as [(be & c0 & -> & E0)|(-> & ->)]; [left; exists be, c0; rewrite <- app_assoc; auto|right; auto]|].
      split; [intros c' I; apply in_app_iff in I; destruct I as [I|[<-|[]]]; auto|].
      assert (D : (exists c0, In c0 af /\ requires_one c0) \/ ~ (exists c0, In c0 af /\ requires_one c0)).
      { clear. induction af as [|c af [IH|IH]]; [right; intros (? & [] & _)|left; destruct IH as (x & I & Q); exists x; split; [right; exact I|exact Q]|].
        assert (Q : requires_one c \/ ~ requires_one c).
        { unfold requires_one. destruct c; try (right; intros [X|X]; discriminate); destruct b; auto; right; intros [X|X]; discriminate. }
        destruct Q as [Q|Q]; [left; exists c; split; [left; reflexivity|exact Q]|].
        right. intros (x & [<-|I] & Y); [exact (Q Y)|]. apply IH. eauto. }
      assert (Em : a_min a1 = b \/ a_min a1 = N.max 1 b) by (destruct D; auto).
      destruct R as [(_ & Q & ->)|(_ & Q & ->)]; split.
      * intros _. destruct Em as [->| ->]; lia.
      * intros X. contradiction X. exists c. split; [apply in_app_iff; right; left; reflexivity|exact Q].
      * intros (c0 & I & Q0). apply in_app_iff in I. destruct I as [I|[<-|[]]]; [|contradiction]. apply P1. eauto.
      * intros X. apply P2. intros (c0 & I & Q0). apply X. exists c0. split; [apply in_app_iff; auto|exact Q0].
Qed.

Lemma argument_settled_proof : forall name cs a, call_arguments cs (Some (new_argument name)) = Some a ->
  settled (fun c => match c with A_name s => Some s | _ => None end) cs name (a_name a) /\
  settled (fun c => match c with A_help s => Some s | _ => None end) cs [] (a_help a) /\
  settled (fun c => match c with A_section s => Some s | _ => None end) cs [] (a_section a) /\
  settled (fun c => match c with A_alias s => Some s | _ => None end) cs [] (a_alias a) /\
  settled (fun c => match c with A_callback cb => Some cb | _ => None end) cs None (a_callback a) /\
  settled (fun c => match c with A_visibility v => Some v | _ => None end) cs vis_normal (a_visibility a) /\
  settled (fun c => option_map snd (sets_limits c)) cs 1%N (a_max a) /\
  least_after cs (a_min a).
Proof.
  intros name cs a E. rewrite call_arguments_fold in E. apply Some_inj in E. subst a.
  split; [apply (settled_run _ _ _ arg_step a_name); by_calls|].
  split; [apply (settled_run _ _ _ arg_step a_help); by_calls|].
  split; [apply (settled_run _ _ _ arg_step a_section); by_calls|].
  split; [apply (settled_run _ _ _ arg_step a_alias); by_calls|].
  split; [apply (settled_run _ _ _ arg_step a_callback); by_calls|].
  split; [apply (settled_run _ _ _ arg_step a_visibility); by_calls|].
  split; [apply (settled_run _ _ _ arg_step a_max); by_calls|].
  apply least_proof. reflexivity.
Qed.

(** *** Options *)

Lemma call_options_fold : forall cs o,
  call_options cs (Some o) = Some (fold_left (fun o c => opt_update c o) cs o).
Proof. induction cs as [|c cs IH]; intros o; [reflexivity|]. cbn [call_options fold_left call_option snd]. apply IH. Qed.

Lemma option_settled_proof : forall flags cs o, call_options cs (Some (new_option flags)) = Some o ->
  settled (fun c => match c with O_flags l => Some l | _ => None end) cs flags (o_flags o) /\
  settled (fun c => match c with O_help s => Some s | _ => None end) cs [] (o_help o) /\
  settled (fun c => match c with O_section s => Some s | _ => None end) cs [] (o_section o) /\
  settled (fun c => match c with O_alias s => Some s | _ => None end) cs [] (o_alias o) /\
  settled (fun c => match c with O_argument s => Some s | _ => None end) cs [] (o_argument o) /\
  settled (fun c => match c with O_constant s => Some s | _ => None end) cs [] (o_constant o) /\
  settled (fun c => match c with O_initial_value s => Some s | _ => None end) cs [] (o_initial_value o) /\
  settled (fun c => match c with O_callback cb => Some cb | _ => None end) cs None (o_callback o) /\
  settled (fun c => match c with O_operation x => Some x | _ => None end) cs OP_ASSIGN (o_operation o) /\
  settled (fun c => match c with O_type x => Some x | _ => None end) cs OT_NORMAL (o_type o) /\
  settled (fun c => match c with O_visibility v => Some v | _ => None end) cs vis_normal (o_visibility o) /\
  settled (fun c => match c with O_optional b => Some b | O_mandatory b => Some (negb b) | _ => None end) cs true (o_optional o).
Proof.
  intros flags cs o E. rewrite call_options_fold in E. apply Some_inj in E. subst o.
  split; [apply (settled_run _ _ _ opt_update o_flags); intros [] [] _; reflexivity|].
  split; [apply (settled_run _ _ _ opt_update o_help); intros [] [] _; reflexivity|].
  split; [apply (settled_run _ _ _ opt_update o_section); intros [] [] _; reflexivity|].
  split; [apply (settled_run _ _ _ opt_update o_alias); intros [] [] _; reflexivity|].
  split; [apply (settled_run _ _ _ opt_update o_argument); intros [] [] _; reflexivity|].
  split; [apply (settled_run _ _ _ opt_update o_constant); intros [] [] _; reflexivity|].
  split; [apply (settled_run _ _ _ opt_update o_initial_value); intros [] [] _; reflexivity|].
  split; [apply (settled_run _ _ _ opt_update o_callback); intros [] [] _; reflexivity|].
  split; [apply (settled_run _ _ _ opt_update o_operation); intros [] [] _; reflexivity|].
  split; [apply (settled_run _ _ _ opt_update o_type); intros [] [] _; reflexivity|].
  split; [apply (settled_run _ _ _ opt_update o_visibility); intros [] [] _; reflexivity|].
  apply (settled_run _ _ _ opt_update o_optional); intros [] [] _; reflexivity.
Qed.

(** *** Texts *)

Lemma text_eqb : forall a b, text_id_eqb a b = true <-> a = b.
Proof. intros a b. split; [destruct a, b; cbn; intros E; try discriminate E; reflexivity|intros ->; destruct b; reflexivity]. Qed.

Lemma find_text_in : forall ts t x, NoDup (map fst ts) -> find_text ts t = Some x <-> In (t, x) ts.
Proof.
  unfold find_text. induction ts as [|(i & y) r IH]; intros t x D; cbn; [split; [discriminate|intros []]|].
  inversion D as [|? ? Ni D']; subst. destruct (text_id_eqb i t) eqn:E; cbn.
  - apply text_eqb in E. subst i. split; [intros X; injection X as ->; left; reflexivity|].
    intros [X|X]; [injection X as ->; reflexivity|]. contradiction Ni. apply (in_map fst _ _ X).
  - rewrite IH by exact D'. split; [right; assumption|]. intros [X|X]; [|exact X]. injection X as -> _.
    rewrite (proj2 (text_eqb t t) eq_refl) in E. discriminate.
Qed.

Lemma find_text_none : forall ts t, find_text ts t = None <-> forall x, ~ In (t, x) ts.
Proof.
  unfold find_text. induction ts as [|(i & y) r IH]; intros t; cbn; [split; [intros _ x []|reflexivity]|].
  destruct (text_id_eqb i t) eqn:E; cbn.
  - apply text_eqb in E. subst i. split; [discriminate|]. intros X. contradiction (X y). left. reflexivity.
  - rewrite IH. split.
    + intros X x [Y|Y]; [|exact (X x Y)]. injection Y as -> _. rewrite (proj2 (text_eqb t t) eq_refl) in E. discriminate.
    + intros X x Y. apply (X x). right. exact Y.
Qed.

Lemma set_text_keys : forall ts t x, NoDup (map fst ts) -> NoDup (map fst (set_text ts t x)) /\
  (forall i, In i (map fst (set_text ts t x)) <-> i = t \/ In i (map fst ts)).
Proof.
  induction ts as [|(i & y) r IH]; intros t x D; cbn.
  - split; [constructor; [intros []|constructor]|]. intros j. split; [intros [->|[]]; auto|intros [->|[]]; auto].
  - inversion D as [|? ? Ni D']; subst. destruct (text_id_eqb i t) eqn:E; cbn.
    + apply text_eqb in E. subst i. split; [exact D|]. intros j. split; [intros [->|I]; auto|intros [->|[->|I]]; auto].
    + destruct (IH t x D') as (A & B). split.
      * constructor; [|exact A]. intros I. apply B in I. destruct I as [->|I]; [|exact (Ni I)].
        rewrite (proj2 (text_eqb t t) eq_refl) in E. discriminate.
      * intros j. rewrite B. split; [intros [->|[->|I]]; auto|intros [->|[->|I]]; auto].
Qed.

Lemma set_text_find : forall ts t x i, find_text (set_text ts t x) i = if same_text i t then Some x else find_text ts i.
Proof.
  unfold find_text. induction ts as [|(j & y) r IH]; intros t x i; cbn.
  - destruct (same_text i t) as [->|Ne]; cbn; [rewrite (proj2 (text_eqb t t) eq_refl); reflexivity|].
    destruct (text_id_eqb t i) eqn:E; [apply text_eqb in E; congruence|reflexivity].
  - destruct (text_id_eqb j t) eqn:E; cbn.
    + apply text_eqb in E. subst j. destruct (same_text i t) as [->|Ne]; [rewrite (proj2 (text_eqb t t) eq_refl); reflexivity|].
      destruct (text_id_eqb t i) eqn:E; [apply text_eqb in E; congruence|reflexivity].
    + destruct (text_id_eqb j i) eqn:E2; cbn; [|apply IH]. apply text_eqb in E2. subst j.
      destruct (same_text i t) as [->|Ne]; [|reflexivity]. rewrite (proj2 (text_eqb t t) eq_refl) in E. discriminate.
Qed.

Definition texts_ok (c : cmd_data) : Prop := NoDup (map fst (c_texts c)).

Lemma texts_ok_update : forall u c, texts_ok c -> texts_ok (cmd_update u c).
Proof. intros u [] H. destruct u; try exact H; unfold texts_ok; cbn; apply set_text_keys; exact H. Qed.

Lemma sets_text_update : forall t u c,
  find_text (c_texts (cmd_update u c)) t = match sets_text t u with Some x => x | None => find_text (c_texts c) t end.
Proof.
  intros t u []. destruct u; cbn; try reflexivity; rewrite set_text_find;
    destruct (same_text _ _); reflexivity.
Qed.

Lemma text_is_find : forall c t, texts_ok c -> text_is c t (find_text (c_texts c) t).
Proof.
  intros c t D. unfold text_is. destruct (find_text (c_texts c) t) as [x|] eqn:E.
  - intros y. rewrite <- (find_text_in _ _ _ D). rewrite E. split; [intros X; injection X as ->; reflexivity|intros ->; reflexivity].
  - apply find_text_none. exact E.
Qed.

Lemma copy_texts_proof : forall src ts ts' ok, NoDup (map fst ts) -> NoDup (map fst src) -> copy_texts ts src = (ts', ok) ->
  NoDup (map fst ts') /\ (forall t x, In (t, x) ts -> In (t, x) ts') /\
  (forall t x, In (t, x) ts' -> In (t, x) ts \/ In (t, x) src) /\
  ((exists t x y, In (t, x) src /\ In (t, y) ts) -> ok = false) /\
  ((forall t x y, In (t, x) src -> ~ In (t, y) ts) -> ok = true /\ forall t x, In (t, x) src -> In (t, x) ts').
Proof.
  induction src as [|(t & x) r IH]; intros ts ts' ok D Ds E; cbn in E.
  - injection E as <- <-. split; [exact D|]. split; [auto|]. split; [auto|]. split; [intros (? & ? & ? & [] & _)|].
    intros _. split; [reflexivity|]. intros ? ? [].
  - inversion Ds as [|? ? Ni D']; subst. destruct (find_text ts t) as [y|] eqn:F.
    + injection E as <- <-. split; [exact D|]. split; [auto|]. split; [auto|]. split; [reflexivity|].
      intros X. exfalso. apply (find_text_in _ _ _ D) in F. exact (X t x y (or_introl eq_refl) F).
    + pose proof (proj1 (find_text_none _ _) F) as F'.
      assert (D1 : NoDup (map fst (ts ++ [(t, x)]))).
      { rewrite map_app. cbn. apply NoDup_app_intro; [exact D|constructor; [intros []|constructor]|].
        intros i I [<-|[]]. apply in_map_iff in I. destruct I as ((j & z) & Ej & I). cbn in Ej. subst j. exact (F' z I). }
      destruct (IH _ _ _ D1 D' E) as (A & B & C & G & K). split; [exact A|].
      split; [intros i z I; apply B, in_app_iff; auto|].
      split. { intros i z I. apply C in I. destruct I as [I|I]; [|right; right; exact I].
               apply in_app_iff in I. destruct I as [I|[I|[]]]; [auto|]. right. left. exact I. }
      split.
      * intros (i & z & y & [I|I] & J); [injection I as -> ->; contradiction (F' y J)|].
        apply G. exists i, z, y. split; [exact I|]. apply in_app_iff. auto.
      * intros X. destruct K as (K1 & K2).
        { intros i z y I J. apply in_app_iff in J. destruct J as [J|[J|[]]]; [exact (X i z y (or_intror I) J)|].
          injection J as -> ->. apply Ni. apply (in_map fst _ _ I). }
        split; [exact K1|]. intros i z [I|I]; [|exact (K2 i z I)]. rewrite <- I. apply B, in_app_iff. right. left. reflexivity.
Qed.

(* ------------------------------------------------------------------------ *)
(** ** Copies *)

Lemma copied_proof : forall c, copied c (copy_command c).
Proof.
  induction c as [c IH] using cmd_nested_ind. destruct c as [args opts cmds cs nm fn tx vis rq mu sec aid ix]. cbn in IH.
  constructor; try reflexivity. cbn. induction IH as [|d l H _ IHl]; cbn; constructor; assumption.
Qed.

Lemma texts_ok_add : forall A checked add (x : option A) c r y c', texts_ok c ->
  (forall d', add c x = Val d' -> c_texts d' = c_texts c) ->
  add_to checked add x (Some c) = (r, y, Some c') -> texts_ok c'.
Proof.
  intros A checked add x c r y c' H Ha E. unfold add_to in E. unfold texts_ok in *.
  destruct x as [z|]; [|destruct checked; [injection E as _ _ <-; exact H|]];
    (destruct (add c _) as [d'|] eqn:Ed; injection E as _ _ <-; [|exact H]); rewrite (Ha d') by reflexivity; exact H.
Qed.

Lemma add_texts : forall c a o d,
  (forall c', add_argument c a = Val c' -> c_texts c' = c_texts c) /\
  (forall c', add_option c o = Val c' -> c_texts c' = c_texts c) /\
  (forall c', add_command c d = Val c' -> c_texts c' = c_texts c).
Proof.
  intros c a o d. split; [|split]; intros c' E.
  - destruct a as [a|]; cbn in E; [|discriminate]. destruct (negb _); [discriminate|]. destruct (is_empty (a_name a)); [discriminate|].
    injection E as <-. reflexivity.
  - destruct o as [o|]; cbn in E; [|discriminate]. destruct (is_empty (o_flags o)); [discriminate|]. injection E as <-. reflexivity.
  - destruct d as [d|]; cbn in E; [|discriminate]. destruct (negb _); [discriminate|]. destruct (is_empty (c_name d)); [discriminate|].
    injection E as <-. reflexivity.
Qed.

Lemma copy_into_proof : forall s c r c', texts_ok s -> texts_ok c -> copy_into c s = (r, c') ->
  copied_into s c r c' /\ texts_ok c'.
Proof.
  intros s c r c' Ds Dc E. unfold copy_into in E. destruct (copy_texts (c_texts c) (c_texts s)) as (ts & ok) eqn:T.
  destruct (copy_texts_proof _ _ _ _ Dc Ds T) as (A & B & C & G & K). injection E as <- <-. split; [|exact A].
  unfold copied_into. cbn [c_arguments c_options c_commands c_current_section c_name c_full_name c_texts c_visibility
    c_require c_multi c_section c_argument_id c_index].
  split; [reflexivity|]. split; [reflexivity|]. split.
  { exists (map copy_command (c_commands s)). split; [|reflexivity]. clear. induction (c_commands s) as [|d l IH]; cbn; constructor; [apply copied_proof|exact IH]. }
  do 8 (split; [reflexivity|]). split; [exact B|]. split; [exact C|]. split.
  - intros X. rewrite (G X). split; reflexivity.
  - intros X. destruct (K X) as (-> & K2). split; [reflexivity|]. split; [reflexivity|exact K2].
Qed.

Lemma made_texts : forall c, made_command c -> texts_ok c.
Proof.
  intros c H. induction H as [name|u c H IH|c H IH|a c r x c' Ma H IH E|o c r x c' Mo H IH E|d c r x c' Md IHd H IH E|s c r c' Hs IHs Hc IHc E].
  - constructor.
  - apply texts_ok_update, IH.
  - destruct c. exact IH.
  - eapply texts_ok_add; [exact IH| |exact E]. intros d' X. exact (proj1 (add_texts c (Some a) None None) d' X).
  - eapply texts_ok_add; [exact IH| |exact E]. intros d' X. exact (proj1 (proj2 (add_texts c None (Some o) None)) d' X).
  - eapply texts_ok_add; [exact IH| |exact E]. intros d' X. exact (proj2 (proj2 (add_texts c None None (Some d))) d' X).
  - cbn in E. destruct (copy_into c s) as (r' & d') eqn:Ec. injection E as _ <-. eapply copy_into_proof; [| |exact Ec]; assumption.
Qed.

Lemma copy_from_proof : forall s c r c', made_command s -> made_command c ->
  command_copy_from (Some s) (Some c) = (r, Some c') -> copied_into s c r c'.
Proof.
  intros s c r c' Hs Hc E. cbn in E. destruct (copy_into c s) as (r' & d') eqn:Ec. injection E as <- <-.
  eapply copy_into_proof; [| |exact Ec]; apply made_texts; assumption.
Qed.

(* ------------------------------------------------------------------------ *)
(** ** Parsers *)

Lemma settled_cons : forall (C V : Type) (f : C -> option V) c cs d d' v, settled f cs d' v ->
  d' = match f c with Some x => x | None => d end -> settled f (c :: cs) d v.
Proof.
  intros C V f c cs d d' v [(b & c0 & a & -> & E & Nx)|(Nx & ->)] Ed.
  - left. exists (c :: b), c0, a. auto.
  - destruct (f c) as [x|] eqn:Fc; subst.
    + left. exists [], c, cs. auto.
    + right. split; [|reflexivity]. intros c' [<-|I]; auto.
Qed.

Lemma settled_same : forall (C V : Type) (f g : C -> option V) cs d v, (forall c, In c cs -> f c = g c) ->
  settled f cs d v -> settled g cs d v.
Proof.
  intros C V f g cs d v H [(b & c0 & a & -> & E & Nx)|(Nx & ->)].
  - left. exists b, c0, a. split; [reflexivity|]. rewrite <- H by (apply in_app_iff; right; left; reflexivity). split; [exact E|].
    intros c' I. rewrite <- H by (apply in_app_iff; right; right; exact I). auto.
  - right. split; [|reflexivity]. intros c I. rewrite <- H by exact I. auto.
Qed.

Lemma call_none : forall fuel c r d, call_parser fuel c None <> (r, Some d).
Proof.
  intros fuel c r d E. destruct c as [| | | | | | | | | | | |argv| | | |argv|argv|]; try discriminate E; destruct argv; discriminate E.
Qed.

Lemma calls_none : forall fuel cs rs d, call_parsers fuel cs None <> (rs, Some d).
Proof.
  induction cs as [|c cs IH]; intros rs d E; cbn in E; [discriminate|].
  destruct (call_parser fuel c None) as (x & [p1|]) eqn:E1; [exact (call_none _ _ _ _ E1)|].
  destruct (call_parsers fuel cs None) as (xs & [p2|]) eqn:E2; [exact (IH _ _ eq_refl)|]. discriminate.
Qed.

Lemma settled_calls : forall fuel (V : Type) (g : parser_data -> V) (f : parser_call -> option V) cs d rs d',
  (forall c d r d', In c cs -> call_parser fuel c (Some d) = (r, Some d') -> g d' = match f c with Some x => x | None => g d end) ->
  call_parsers fuel cs (Some d) = (rs, Some d') -> settled f cs (g d) (g d').
Proof.
  intros fuel V g f. induction cs as [|c cs IH]; intros d rs d' H E; cbn in E.
  - injection E as _ <-. right. split; [intros ? []|reflexivity].
  - destruct (call_parser fuel c (Some d)) as (x & [d1|]) eqn:E1;
      destruct (call_parsers fuel cs _) as (xs & [d2|]) eqn:E2; try discriminate; [|destruct (calls_none _ _ _ _ E2)].
    injection E as _ <-. eapply settled_cons; [eapply IH; [|exact E2]|].
    + intros c0 e r e' I. apply H. right. exact I.
    + eapply H; [left; reflexivity|exact E1].
Qed.

(** What a call leaves alone. *)
Definition same_parts (d d' : parser_data) : Prop :=
  d_settings d' = d_settings d /\ d_version d' = d_version d /\ d_line_width d' = d_line_width d /\
  d_word_rules d' = d_word_rules d /\ c_name (d_command d') = c_name (d_command d) /\
  c_current_section (d_command d') = c_current_section (d_command d) /\ c_section (d_command d') = c_section (d_command d) /\
  c_visibility (d_command d') = c_visibility (d_command d) /\ c_require (d_command d') = c_require (d_command d).

Lemma add_to_same : forall A checked add (x : option A) d p r c',
  (forall d', add (d_command d) x = Val d' -> c_name d' = c_name (d_command d) /\ c_current_section d' = c_current_section (d_command d) /\
     c_section d' = c_section (d_command d) /\ c_visibility d' = c_visibility (d_command d) /\ c_require d' = c_require (d_command d) /\
     c_texts d' = c_texts (d_command d) /\ c_multi d' = c_multi (d_command d)) ->
  add_data checked add x (Some d) = (r, Some p) -> c' = d_command p ->
  same_parts d p /\ c_texts c' = c_texts (d_command d) /\ c_multi c' = c_multi (d_command d).
Proof.
  intros A checked add x d p r c' H E ->. unfold add_data, add_to in E.
  assert (Z : same_parts d d /\ c_texts (d_command d) = c_texts (d_command d) /\ c_multi (d_command d) = c_multi (d_command d)) by (repeat split).
  assert (Zc : same_parts d (set_d_command d (d_command d)) /\
     c_texts (d_command (set_d_command d (d_command d))) = c_texts (d_command d) /\
     c_multi (d_command (set_d_command d (d_command d))) = c_multi (d_command d)) by (repeat split).
  assert (G : forall d', add (d_command d) x = Val d' -> same_parts d (set_d_command d d') /\
     c_texts (d_command (set_d_command d d')) = c_texts (d_command d) /\ c_multi (d_command (set_d_command d d')) = c_multi (d_command d)).
  { intros d' X. destruct (H d' X) as (h1 & h2 & h3 & h4 & h5 & h6 & h7). repeat split; assumption. }
  destruct x as [z|].
  - destruct (add (d_command d) (Some z)) as [d'|] eqn:Ea; injection E as _ <-; auto.
  - destruct checked; [injection E as _ <-; auto|].
    destruct (add (d_command d) None) as [d'|] eqn:Ea; injection E as _ <-; auto.
Qed.

Lemma add_parts : forall c a o d,
  let same c' := c_name c' = c_name c /\ c_current_section c' = c_current_section c /\
     c_section c' = c_section c /\ c_visibility c' = c_visibility c /\ c_require c' = c_require c /\
     c_texts c' = c_texts c /\ c_multi c' = c_multi c in
  (forall c', add_argument c a = Val c' -> same c') /\
  (forall c', add_option c o = Val c' -> same c') /\
  (forall c', add_command c d = Val c' -> same c').
Proof.
  intros c a o d same. split; [|split]; intros c' E.
  - destruct a as [a|]; cbn in E; [|discriminate]. destruct (negb _); [discriminate|]. destruct (is_empty (a_name a)); [discriminate|].
    injection E as <-. repeat split.
  - destruct o as [o|]; cbn in E; [|discriminate]. destruct (is_empty (o_flags o)); [discriminate|]. injection E as <-. repeat split.
  - destruct d as [d|]; cbn in E; [|discriminate]. destruct (negb _); [discriminate|]. destruct (is_empty (c_name d)); [discriminate|].
    injection E as <-. repeat split.
Qed.

(** One call: the parts that it sets, and nothing else. *)
Definition step_ok (fuel : nat) (c : parser_call) (d d' : parser_data) : Prop :=
  match c with
  | P_command u => d' = set_d_command d (cmd_update u (d_command d))
  | P_setting u => d' = set_d_settings d (update_settings u (d_settings d))
  | P_style _ => exists s, d' = set_d_settings d (set_style (d_settings d) s)
  | P_version s => d' = mk_data (d_command d) (d_settings d) s (d_line_width d) (d_word_rules d)
  | P_line_width n => d' = mk_data (d_command d) (d_settings d) (d_version d) n (d_word_rules d)
  | P_word_rule s => d' = mk_data (d_command d) (d_settings d) (d_version d) (d_line_width d) (d_word_rules d ++ [s])
  | P_copy_from _ => same_parts d d'
  | _ => same_parts d d' /\ c_texts (d_command d') = c_texts (d_command d) /\ c_multi (d_command d') = c_multi (d_command d)
  end.

Lemma call_step : forall fuel c d r d', call_parser fuel c (Some d) = (r, Some d') -> step_ok fuel c d d'.
Proof.
  intros fuel c d r d' E.
  assert (Z : same_parts d d /\ c_texts (d_command d) = c_texts (d_command d) /\ c_multi (d_command d) = c_multi (d_command d)) by (repeat split).
  destruct c as [a|o|c|c|u|u|s|s|n|s|args|args|argv|argv|args|args|argv|argv|console path]; cbn [call_parser] in E; [| | |cbn in E..].
  - apply (add_to_same _ true add_argument a d d' r (d_command d')); [|exact E|reflexivity]. apply (proj1 (add_parts (d_command d) a None None)).
  - apply (add_to_same _ true add_option o d d' r (d_command d')); [|exact E|reflexivity]. apply (proj1 (proj2 (add_parts (d_command d) None o None))).
  - apply (add_to_same _ false add_command c d d' r (d_command d')); [|exact E|reflexivity]. apply (proj2 (proj2 (add_parts (d_command d) None None c))).
  - destruct c as [s|]; [|injection E as _ <-; apply Z]. destruct (copy_into (d_command d) s) as (r' & c') eqn:Ec. injection E as _ <-.
    unfold copy_into in Ec. destruct (copy_texts _ _). injection Ec as _ <-. repeat split.
  - injection E as _ <-. reflexivity.
  - injection E as _ <-. reflexivity.
  - destruct (style_eqb s (s_style (d_settings d))); cbn in E.
    + injection E as _ <-. exists (s_style (d_settings d)). destruct d as [c [] v w l]. reflexivity.
    + destruct (negb _); injection E as _ <-; [exists (s_style (d_settings d)); destruct d as [c [] v w l]; reflexivity|].
      exists s. reflexivity.
  - injection E as _ <-. reflexivity.
  - injection E as _ <-. reflexivity.
  - injection E as _ <-. reflexivity.
  - discriminate.
  - injection E as _ <-. exact Z.
  - destruct argv as [|n0 l]; cbn in E; [|destruct (_ && _)]; discriminate.
  - injection E as _ <-. exact Z.
  - discriminate.
  - injection E as _ <-. exact Z.
  - destruct argv; cbn in E; [injection E as _ <-; exact Z|discriminate].
  - injection E as _ <-. exact Z.
  - injection E as _ <-. exact Z.
Qed.

Ltac by_parser_calls :=
  let S1 := fresh in let P := fresh in
  let c1 := fresh "c" in let d1 := fresh "d" in let r1 := fresh "r" in let d2 := fresh "d" in
  let Ic := fresh "Ic" in let E1 := fresh "E" in
  intros c1 d1 r1 d2 Ic E1; apply call_step in E1;
  destruct c1; cbn [step_ok] in E1;
  first
  [ exfalso; match goal with H : forall s, ~ In (P_copy_from s) _ |- _ => exact (H _ Ic) end
  | match type of E1 with same_parts _ _ => destruct E1 as (S1 & P); decompose [and] P; clear P; cbn; congruence end
  | match type of E1 with same_parts _ _ /\ _ => destruct E1 as ((S1 & P) & ? & ?); decompose [and] P; clear P; cbn; congruence end
  | destruct d1 as [[] [] ? ? ?]; match goal with u : cmd_call |- _ => destruct u | u : setting_call |- _ => destruct u end;
    subst d2; reflexivity
  | destruct E1 as (? & ->); destruct d1 as [[] [] ? ? ?]; reflexivity
  | subst d2; destruct d1 as [[] [] ? ? ?]; reflexivity ].

Section Parser.
  Variables (fuel : nat) (name : str) (file : bool) (cs : list parser_call) (rs : list parser_result) (d : parser_data).
  Hypothesis E : call_parsers fuel cs (Some (new_parser name file)) = (rs, Some d).

  Lemma settings_settled_proof :
    let s := d_settings d in
    settled (on_settings (fun u => match u with S_argument_callback cb => Some cb | _ => None end)) cs None (s_argument_callback s) /\
    settled (on_settings (fun u => match u with S_option_callback cb => Some cb | _ => None end)) cs None (s_option_callback s) /\
    settled (on_settings (fun u => match u with S_auto_exit b => Some b | _ => None end)) cs true (s_auto_exit s) /\
    settled (on_settings (fun u => match u with S_abbreviations b => Some b | _ => None end)) cs false (s_abbreviations s) /\
    settled (on_settings (fun u => match u with S_ignore_options b => Some b | _ => None end)) cs false (s_ignore_options s) /\
    settled (on_settings (fun u => match u with S_ignore_arguments b => Some b | _ => None end)) cs false (s_ignore_arguments s) /\
    settled (on_settings (fun u => match u with S_case_insensitive b => Some b | _ => None end)) cs false (s_case_insensitive s) /\
    settled (on_settings (fun u => match u with S_generate_help b => Some b | _ => None end)) cs true (s_generate_help s) /\
    settled (on_settings (fun u => match u with S_exit_codes e n => Some n | _ => None end)) cs 0%Z (s_normal_exit s) /\
    settled (on_settings (fun u => match u with S_exit_codes e n => Some e | _ => None end)) cs 64%Z (s_error_exit s).
  Proof.
    cbv zeta.
    split; [refine (settled_calls fuel _ (fun d => s_argument_callback (d_settings d)) _ cs (new_parser name file) rs d _ E); by_parser_calls|].
    split; [refine (settled_calls fuel _ (fun d => s_option_callback (d_settings d)) _ cs (new_parser name file) rs d _ E); by_parser_calls|].
    split; [refine (settled_calls fuel _ (fun d => s_auto_exit (d_settings d)) _ cs (new_parser name file) rs d _ E); by_parser_calls|].
    split; [refine (settled_calls fuel _ (fun d => s_abbreviations (d_settings d)) _ cs (new_parser name file) rs d _ E); by_parser_calls|].
    split; [refine (settled_calls fuel _ (fun d => s_ignore_options (d_settings d)) _ cs (new_parser name file) rs d _ E); by_parser_calls|].
    split; [refine (settled_calls fuel _ (fun d => s_ignore_arguments (d_settings d)) _ cs (new_parser name file) rs d _ E); by_parser_calls|].
    split; [refine (settled_calls fuel _ (fun d => s_case_insensitive (d_settings d)) _ cs (new_parser name file) rs d _ E); by_parser_calls|].
    split; [refine (settled_calls fuel _ (fun d => s_generate_help (d_settings d)) _ cs (new_parser name file) rs d _ E); by_parser_calls|].
    split; [refine (settled_calls fuel _ (fun d => s_normal_exit (d_settings d)) _ cs (new_parser name file) rs d _ E); by_parser_calls|].
    refine (settled_calls fuel _ (fun d => s_error_exit (d_settings d)) _ cs (new_parser name file) rs d _ E); by_parser_calls.
  Qed.

  Lemma parser_settled_proof :
    settled (fun c => match c with P_version s => Some s | _ => None end) cs [] (d_version d) /\
    settled (fun c => match c with P_line_width n => Some n | _ => None end) cs 0%N (d_line_width d) /\
    d_word_rules d = rules_of cs /\
    settled (on_command (fun u => match u with C_name s => Some s | _ => None end)) cs
      (c_name (d_command (new_parser name file))) (c_name (d_command d)) /\
    settled (on_command (fun u => match u with C_current_section s => Some s | _ => None end)) cs [] (c_current_section (d_command d)) /\
    settled (on_command (fun u => match u with C_section s => Some s | _ => None end)) cs [] (c_section (d_command d)) /\
    settled (on_command (fun u => match u with C_visibility v => Some v | _ => None end)) cs vis_normal (c_visibility (d_command d)) /\
    settled (on_command (fun u => match u with C_require b => Some (Some b) | _ => None end)) cs None (c_require (d_command d)) /\
    ((forall s, ~ In (P_copy_from s) cs) ->
     settled (on_command (fun u => match u with C_multi b => Some b | _ => None end)) cs false (c_multi (d_command d)) /\
     forall t, exists v, settled (on_command (sets_text t)) cs None v /\ text_is (d_command d) t v).
  Proof.
    split; [refine (settled_calls fuel _ d_version _ cs (new_parser name file) rs d _ E); by_parser_calls|].
    split; [refine (settled_calls fuel _ d_line_width _ cs (new_parser name file) rs d _ E); by_parser_calls|].
    split.
    { revert E. change (rules_of cs) with (d_word_rules (new_parser name file) ++ rules_of cs).
      generalize (new_parser name file). revert rs. induction cs as [|c l IH]; intros rs' d0 E; cbn in E.
      - injection E as _ <-. cbn. rewrite app_nil_r. reflexivity.
      - destruct (call_parser fuel c (Some d0)) as (x & [d1|]) eqn:E1;
          destruct (call_parsers fuel l _) as (xs & [d2|]) eqn:E2; try discriminate; [|destruct (calls_none _ _ _ _ E2)].
        injection E as _ <-. rewrite (IH _ _ E2). apply call_step in E1.
        assert (X : d_word_rules d1 = d_word_rules d0 ++ rules_of [c]).
        { destruct c; cbn [step_ok] in E1; cbn;
            try (destruct E1 as ((_ & _ & _ & -> & _) & _); rewrite app_nil_r; reflexivity);
            try (destruct E1 as (_ & _ & _ & -> & _); rewrite app_nil_r; reflexivity);
            try (subst d1; cbn; rewrite ?app_nil_r; reflexivity).
          destruct E1 as (? & ->). cbn. rewrite app_nil_r. reflexivity. }
        rewrite X, <- app_assoc. f_equal. unfold rules_of. cbn. rewrite app_nil_r. reflexivity. }
    split; [refine (settled_calls fuel _ (fun d => c_name (d_command d)) _ cs (new_parser name file) rs d _ E); by_parser_calls|].
    split; [refine (settled_calls fuel _ (fun d => c_current_section (d_command d)) _ cs (new_parser name file) rs d _ E); by_parser_calls|].
    split; [refine (settled_calls fuel _ (fun d => c_section (d_command d)) _ cs (new_parser name file) rs d _ E); by_parser_calls|].
    split; [refine (settled_calls fuel _ (fun d => c_visibility (d_command d)) _ cs (new_parser name file) rs d _ E); by_parser_calls|].
    split; [refine (settled_calls fuel _ (fun d => c_require (d_command d)) _ cs (new_parser name file) rs d _ E); by_parser_calls|].
    intros Nc. split; [refine (settled_calls fuel _ (fun d => c_multi (d_command d)) _ cs (new_parser name file) rs d _ E); by_parser_calls|].
    intros t. exists (find_text (c_texts (d_command d)) t). split.
    - refine (settled_calls fuel _ (fun d => find_text (c_texts (d_command d)) t) _ cs (new_parser name file) rs d _ E).
      intros c d0 r d' Ic E0. apply call_step in E0.
      destruct c; cbn [step_ok] in E0; cbn [on_command];
        try (exfalso; exact (Nc _ Ic));
        try (destruct E0 as (_ & -> & _); reflexivity);
        try (subst d'; cbn; reflexivity);
        try (destruct E0 as (? & ->); reflexivity).
      subst d'. apply sets_text_update.
    - apply text_is_find. revert E. assert (D0 : texts_ok (d_command (new_parser name file))) by constructor. revert D0.
      generalize (new_parser name file). revert rs. induction cs as [|c l IH]; intros rs' d0 D0 E; cbn in E.
      + injection E as _ <-. exact D0.
      + destruct (call_parser fuel c (Some d0)) as (x & [d1|]) eqn:E1;
          destruct (call_parsers fuel l _) as (xs & [d2|]) eqn:E2; try discriminate; [|destruct (calls_none _ _ _ _ E2)].
        injection E as _ <-. apply (IH (fun s I => Nc s (or_intror I)) xs d1); [|exact E2]. apply call_step in E1. unfold texts_ok in *.
        destruct c; cbn [step_ok] in E1;
          try (exfalso; exact (Nc _ (or_introl eq_refl)));
          try (destruct E1 as (_ & -> & _); exact D0);
          try (subst d1; cbn; exact D0);
          try (destruct E1 as (? & ->); exact D0).
        subst d1. cbn. apply texts_ok_update. exact D0.
  Qed.
End Parser.

(** *** Commands *)

Lemma call_commands_fold : forall cs c,
  call_commands cs (Some c) = Some (fold_left (fun c u => cmd_update u c) cs c).
Proof. induction cs as [|u cs IH]; intros c; [reflexivity|]. cbn [call_commands fold_left call_command snd]. apply IH. Qed.

Lemma command_settled_proof : forall name cs c, call_commands cs (Some (new_command name)) = Some c ->
  settled (fun u => match u with C_name s => Some s | _ => None end) cs name (c_name c) /\
  settled (fun u => match u with C_section s => Some s | _ => None end) cs [] (c_section c) /\
  settled (fun u => match u with C_current_section s => Some s | _ => None end) cs [] (c_current_section c) /\
  settled (fun u => match u with C_visibility v => Some v | _ => None end) cs vis_normal (c_visibility c) /\
  settled (fun u => match u with C_multi b => Some b | _ => None end) cs false (c_multi c) /\
  settled (fun u => match u with C_require b => Some (Some b) | _ => None end) cs None (c_require c) /\
  (forall t, exists v, settled (sets_text t) cs None v /\ text_is c t v) /\
  c_arguments c = [] /\ c_options c = [] /\ c_commands c = [].
Proof.
  intros name cs c E. rewrite call_commands_fold in E. apply Some_inj in E. subst c.
  split; [apply (settled_run _ _ _ cmd_update c_name); intros [] [] _; reflexivity|].
  split; [apply (settled_run _ _ _ cmd_update c_section); intros [] [] _; reflexivity|].
  split; [apply (settled_run _ _ _ cmd_update c_current_section); intros [] [] _; reflexivity|].
  split; [apply (settled_run _ _ _ cmd_update c_visibility); intros [] [] _; reflexivity|].
  split; [apply (settled_run _ _ _ cmd_update c_multi); intros [] [] _; reflexivity|].
  split; [apply (settled_run _ _ _ cmd_update c_require); intros [] [] _; reflexivity|].
  split.
  - intros t. exists (find_text (c_texts (fold_left (fun c u => cmd_update u c) cs (new_command name))) t). split.
    + apply (settled_run _ _ _ cmd_update (fun c => find_text (c_texts c) t)). intros u c _. apply sets_text_update.
    + apply text_is_find. assert (D : texts_ok (new_command name)) by constructor. revert D.
      generalize (new_command name). induction cs as [|u cs IH]; intros c D; cbn; [exact D|]. apply IH, texts_ok_update, D.
  - assert (X : forall c, c_arguments (fold_left (fun c u => cmd_update u c) cs c) = c_arguments c /\
       c_options (fold_left (fun c u => cmd_update u c) cs c) = c_options c /\
       c_commands (fold_left (fun c u => cmd_update u c) cs c) = c_commands c).
    { induction cs as [|u cs IH]; intros c; cbn; [auto|]. destruct (IH (cmd_update u c)) as (-> & -> & ->).
      destruct u, c; auto. }
    destruct (X (new_command name)) as (-> & -> & ->). auto.
Qed.

(** *** The rest *)

Lemma parser_all_settled_proof : forall fuel name file cs rs d,
  call_parsers fuel cs (Some (new_parser name file)) = (rs, Some d) ->
  settled (fun c => match c with P_version s => Some s | _ => None end) cs [] (d_version d) /\
  settled (fun c => match c with P_line_width n => Some n | _ => None end) cs 0%N (d_line_width d) /\
  d_word_rules d = rules_of cs /\
  (exists name0, (if file then file_part name name0 else name0 = name) /\
   settled (on_command (fun u => match u with C_name s => Some s | _ => None end)) cs name0 (c_name (d_command d))) /\
  settled (on_command (fun u => match u with C_current_section s => Some s | _ => None end)) cs [] (c_current_section (d_command d)) /\
  settled (on_command (fun u => match u with C_section s => Some s | _ => None end)) cs [] (c_section (d_command d)) /\
  settled (on_command (fun u => match u with C_visibility v => Some v | _ => None end)) cs vis_normal (c_visibility (d_command d)) /\
  settled (on_command (fun u => match u with C_require b => Some (Some b) | _ => None end)) cs None (c_require (d_command d)) /\
  ((forall s, ~ In (P_copy_from s) cs) ->
   settled (on_command (fun u => match u with C_multi b => Some b | _ => None end)) cs false (c_multi (d_command d)) /\
   forall t, exists v, settled (on_command (sets_text t)) cs None v /\ text_is (d_command d) t v).
Proof.
  intros fuel name file cs rs d E. destruct (parser_settled_proof _ _ _ _ _ _ E) as (A & B & C & D & R).
  split; [exact A|]. split; [exact B|]. split; [exact C|]. split; [|exact R].
  eexists. split; [|exact D]. destruct file; [|reflexivity]. cbn.
  destruct (base_name_total name) as [Nx|(p & x & b & -> & Sx & Nx)].
  - rewrite base_name_no_sep by exact Nx. split; [exact Nx|]. left. reflexivity.
  - rewrite base_name_after_sep by assumption. split; [exact Nx|]. right. exists p, x. split; [exact Sx|reflexivity].
Qed.

Lemma made_parser_texts : forall d, made_parser d -> texts_ok (d_command d).
Proof.
  intros d (fuel & name & file & cs & rs & E & M). revert E M. assert (D0 : texts_ok (d_command (new_parser name file))) by constructor.
  revert D0. generalize (new_parser name file). revert rs. induction cs as [|c l IH]; intros rs d0 D0 E M; cbn in E.
  - injection E as _ <-. exact D0.
  - destruct (call_parser fuel c (Some d0)) as (x & [d1|]) eqn:E1;
      destruct (call_parsers fuel l _) as (xs & [d2|]) eqn:E2; try discriminate; [|destruct (calls_none _ _ _ _ E2)].
    injection E as _ <-. inversion M as [|? ? Mc M']; subst. apply (IH xs d1); [|exact E2|exact M'].
    pose proof (call_step _ _ _ _ _ E1) as St. unfold texts_ok in *.
    destruct c; cbn [step_ok] in St;
      try (destruct St as (_ & -> & _); exact D0);
      try (subst d1; cbn; exact D0);
      try (destruct St as (? & ->); exact D0);
      try (subst d1; cbn; apply texts_ok_update; exact D0).
    cbn in E1. destruct c as [s|]; [|injection E1 as _ <-; exact D0].
    destruct (copy_into (d_command d0) s) as (r' & c') eqn:Ec. injection E1 as _ <-.
    destruct (copy_into_proof _ _ _ _ (made_texts _ Mc) D0 Ec) as (_ & X). exact X.
Qed.

Lemma parser_copy_from_proof : forall fuel s d r d', made_command s -> made_parser d ->
  call_parser fuel (P_copy_from (Some s)) (Some d) = (r, Some d') ->
  exists r', r = R_call r' /\ copied_into s (d_command d) r' (d_command d') /\
    d_settings d' = d_settings d /\ d_version d' = d_version d /\ d_line_width d' = d_line_width d /\
    d_word_rules d' = d_word_rules d.
Proof.
  intros fuel s d r d' Ms Md E. cbn in E. destruct (copy_into (d_command d) s) as (r' & c') eqn:Ec. injection E as <- <-.
  exists r'. split; [reflexivity|]. split; [|repeat split].
  exact (proj1 (copy_into_proof _ _ _ _ (made_texts _ Ms) (made_parser_texts _ Md) Ec)).
Qed.

Lemma style_accepted_proof : forall fuel d s, c_options (d_command d) = [] ->
  exists d', call_parser fuel (P_style s) (Some d) = (R_call (Done tt), Some d') /\
    s_style (d_settings d') = s /\ d_command d' = d_command d /\ d_version d' = d_version d /\
    d_line_width d' = d_line_width d /\ d_word_rules d' = d_word_rules d /\
    set_style (d_settings d') (s_style (d_settings d)) = d_settings d.
Proof.
  intros fuel d s E. cbn. rewrite E. destruct (style_eqb s (s_style (d_settings d))) eqn:X.
  - exists d. split; [reflexivity|]. split; [destruct s, (s_style (d_settings d)); try discriminate X; reflexivity|].
    repeat (split; [reflexivity|]). destruct (d_settings d). reflexivity.
  - eexists. split; [reflexivity|]. split; [reflexivity|]. repeat (split; [reflexivity|]). destruct (d_settings d). reflexivity.
Qed.
