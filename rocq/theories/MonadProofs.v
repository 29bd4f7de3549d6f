(** Reasoning about the parser monad, reads that make progress, and the
    look-ahead. *)
From Verif Require Import Base BaseProofs MStrings MOptIter MData MCounter MValues MParser
  STok TokProofs.

(* ------------------------------------------------------------------------ *)
(** ** The monad *)

Definition post {A} (Q : A -> pstate -> Prop) (X : Z -> pstate -> Prop)
  (T : exn -> pstate -> Prop) (U F : Prop) (o : outcome A) : Prop :=
  match o with
  | Ret a st => Q a st
  | Exits c st => X c st
  | Throws e st => T e st
  | Undefined => U
  | NoFuel => F
  end.

Lemma post_bind : forall {A B} (m : M A) (f : A -> M B) Q X T U F st,
  post (fun a s => post Q X T U F (f a s)) X T U F (m st) ->
  post Q X T U F (bind m f st).
Proof. intros. unfold bind. destruct (m st); exact H. Qed.

Lemma post_mono : forall {A} (Q Q' : A -> pstate -> Prop) (X X' : Z -> pstate -> Prop)
  (T T' : exn -> pstate -> Prop) (U U' F F' : Prop) (o : outcome A),
  post Q X T U F o ->
  (forall a s, Q a s -> Q' a s) -> (forall c s, X c s -> X' c s) ->
  (forall e s, T e s -> T' e s) -> (U -> U') -> (F -> F') ->
  post Q' X' T' U' F' o.
Proof. intros A Q Q' X X' T T' U U' F F' [a s|c s|e s| |] H HQ HX HT HU HF; simpl in *; auto. Qed.

(** Sequencing with a known postcondition of the first part. *)
Lemma post_seq : forall {A B} (Q1 : A -> pstate -> Prop) (m : M A) (f : A -> M B) Q
  (X X1 : Z -> pstate -> Prop) (T T1 : exn -> pstate -> Prop) (U U1 F F1 : Prop) st,
  post Q1 X1 T1 U1 F1 (m st) ->
  (forall a s, Q1 a s -> post Q X T U F (f a s)) ->
  (forall c s, X1 c s -> X c s) -> (forall e s, T1 e s -> T e s) ->
  (U1 -> U) -> (F1 -> F) ->
  post Q X T U F (bind m f st).
Proof.
  intros A B Q1 m f Q X X1 T T1 U U1 F F1 st H HQ HX HT HU HF.
  apply post_bind. eapply post_mono; eauto.
Qed.

Lemma bind_assoc : forall {A B C} (m : M A) (f : A -> M B) (g : B -> M C) st,
  bind (bind m f) g st = bind m (fun a => bind (f a) g) st.
Proof. intros. unfold bind. destruct (m st); reflexivity. Qed.

Lemma bind_ret : forall {A B} (a : A) (f : A -> M B) st, bind (ret a) f st = f a st.
Proof. reflexivity. Qed.
Lemma bind_gets : forall {A B} (g : pstate -> A) (f : A -> M B) st,
  bind (gets g) f st = f (g st) st.
Proof. reflexivity. Qed.
Lemma bind_modify : forall {B} g (f : unit -> M B) st,
  bind (modify g) f st = f tt (g st).
Proof. reflexivity. Qed.
Lemma bind_emit : forall {B} e (f : unit -> M B) st,
  bind (emit e) f st = f tt (add_event st e).
Proof. reflexivity. Qed.
Lemma bind_throw : forall {A B} e (f : A -> M B) st, bind (throw e) f st = Throws e st.
Proof. reflexivity. Qed.
Lemma bind_exit : forall {A B} c (f : A -> M B) st, bind (exit_with c) f st = Exits c st.
Proof. reflexivity. Qed.

(* ------------------------------------------------------------------------ *)
(** ** Reads make progress *)

Definition arg_weight (a : str) : nat := length a + 2.

Lemma args_size_cons : forall a r, args_size (a :: r) = length a + 2 + args_size r.
Proof. reflexivity. Qed.

Definition meas (it : opt_iter) : nat :=
  match it_pos it, it_args it with
  | At 0, args => args_size args
  | At k, a :: r => length a - k + 2 + args_size r
  | Npos, a :: r => 1 + args_size r
  | _, [] => 0
  end.

Lemma meas_le : forall it, meas it <= args_size (it_args it).
Proof.
  intros [k args [[|n]|]]; unfold meas; cbn [it_pos it_args].
  - lia.
  - destruct args as [|a r]; [simpl; lia|]. rewrite args_size_cons. lia.
  - destruct args as [|a r]; [simpl; lia|]. rewrite args_size_cons. lia.
Qed.

Lemma std_first_meas : forall args t it, std_first args = Ok (Some t, it) ->
  meas it < args_size args /\ it_args it <> [].
Proof.
  intros [|a r] t it E; unfold std_first in E; [discriminate|].
  assert (G : forall p, (p = Npos \/ exists n, p = At n /\ 0 < n <= length a) ->
            meas (mk_iter KStandard (a :: r) p) < args_size (a :: r)).
  { intros p [->|(n & -> & L)]; unfold meas; cbn [it_pos it_args]; rewrite args_size_cons; [lia|].
    destruct n; lia. }
  destruct (Nat.leb_spec (length a) 2) as [L|L].
  - injection E as <- <-. split; [apply G; left; reflexivity|cbn; discriminate].
  - destruct (nth_error a 0); [|discriminate]. destruct (nth_error a 1); [|discriminate].
    destruct (negb _); [injection E as <- <-; split; [apply G; left; reflexivity|cbn; discriminate]|].
    destruct (negb _).
    { injection E as <- <-. split; [apply G; right; exists 2; split; [reflexivity|lia]|cbn; discriminate]. }
    destruct (find_char c_eq a) as [p|] eqn:Ef;
      injection E as <- <-; (split; [apply G|cbn; discriminate]).
    + right. exists (S p). split; [reflexivity|]. apply find_char_some in Ef. lia.
    + left. reflexivity.
Qed.

Lemma pre_first_meas : forall c args t it, pre_first c args = Ok (Some t, it) ->
  meas it < args_size args /\ it_args it <> [].
Proof.
  intros c [|a r] t it E; unfold pre_first in E; [discriminate|].
  assert (G : forall p, (p = Npos \/ exists n, p = At n /\ 0 < n <= length a) ->
            meas (mk_iter (KPrefix c) (a :: r) p) < args_size (a :: r)).
  { intros p [->|(n & -> & L)]; unfold meas; cbn [it_pos it_args]; rewrite args_size_cons; [lia|].
    destruct n; lia. }
  destruct (Nat.leb_spec (length a) 2) as [L|L].
  - injection E as <- <-. split; [apply G; left; reflexivity|cbn; discriminate].
  - destruct (nth_error a 0); [|discriminate].
    destruct (negb _); [injection E as <- <-; split; [apply G; left; reflexivity|cbn; discriminate]|].
    destruct (find_char c_eq a) as [p|] eqn:Ef;
      injection E as <- <-; (split; [apply G|cbn; discriminate]).
    + right. exists (S p). split; [reflexivity|]. apply find_char_some in Ef. lia.
    + left. reflexivity.
Qed.

Lemma next_meas : forall it t it', it_next it = Ok (Some t, it') ->
  meas it' < meas it /\ it_args it' <> [].
Proof.
  intros [k args p] t it' E. unfold it_next in E. cbn [it_kind] in E.
  destruct k as [|c].
  - unfold std_next in E. cbn [it_args it_pos] in E.
    destruct p as [[|n]|]; cbn [pos_nonzero] in E.
    + apply std_first_meas in E. exact E.
    + destruct args as [|a r]; [discriminate|].
      destruct (Nat.ltb_spec (S n) (length a)) as [L|L].
      * destruct (nth_error a 1); [|discriminate]. destruct (nth_error a (S n)); [|discriminate].
        destruct (negb _).
        -- injection E as <- <-. split; [|cbn; discriminate].
           match goal with |- context [if ?b then Npos else _] => destruct b end; unfold meas; cbn [it_pos it_args]; lia.
        -- apply std_first_meas in E. destruct E as (E1 & E2). split; [|exact E2].
           unfold meas at 2; cbn [it_pos it_args]. lia.
      * apply std_first_meas in E. destruct E as (E1 & E2). split; [|exact E2].
        unfold meas at 2; cbn [it_pos it_args]. lia.
    + destruct args as [|a r]; [discriminate|].
      apply std_first_meas in E. destruct E as (E1 & E2). split; [|exact E2].
      unfold meas at 2; cbn [it_pos it_args]. lia.
  - unfold pre_next in E. cbn [it_args it_pos] in E.
    destruct p as [[|n]|]; cbn [pos_nonzero] in E.
    + apply pre_first_meas in E. exact E.
    + destruct args as [|a r]; [discriminate|].
      apply pre_first_meas in E. destruct E as (E1 & E2). split; [|exact E2].
      unfold meas at 2; cbn [it_pos it_args]. lia.
    + destruct args as [|a r]; [discriminate|].
      apply pre_first_meas in E. destruct E as (E1 & E2). split; [|exact E2].
      unfold meas at 2; cbn [it_pos it_args]. lia.
Qed.

Lemma next_value_meas : forall it t it', it_next_value it = Ok (Some t, it') ->
  meas it' < meas it /\ it_args it' <> [].
Proof.
  intros [k args p] t it' E. unfold it_next_value in E. cbn [it_kind] in E.
  destruct k as [|c].
  - unfold std_next_value in E. cbn [it_args it_pos] in E.
    destruct args as [|a r]; [discriminate|]. destruct p as [n|].
    + destruct (n <=? length a); [|discriminate]. injection E as <- <-. split; [|discriminate].
      unfold meas; cbn [it_pos it_args]. destruct n; [rewrite args_size_cons|]; lia.
    + destruct r as [|b r]; [discriminate|]. injection E as <- <-. split; [|discriminate].
      unfold meas; cbn [it_pos it_args]. rewrite args_size_cons. lia.
  - unfold pre_next_value in E. cbn [it_args it_pos] in E.
    destruct args as [|a r]; [discriminate|]. destruct p as [n|].
    + destruct (n <=? length a); [|discriminate]. injection E as <- <-. split; [|discriminate].
      unfold meas; cbn [it_pos it_args]. destruct n; [rewrite args_size_cons|]; lia.
    + destruct r as [|b r]; [discriminate|]. injection E as <- <-. split; [|discriminate].
      unfold meas; cbn [it_pos it_args]. destruct (length b) eqn:Eb;
        rewrite args_size_cons; lia.
Qed.

(* ------------------------------------------------------------------------ *)
(** ** The look-ahead always gives a number *)

Lemma count_values_total : forall cfg fuel st min it result, wf_iter it -> meas it < fuel ->
  exists n, count_values cfg fuel st min it result = CountOk n.
Proof.
  intros cfg. induction fuel as [|fuel IH]; intros st min it result W L; [lia|]. cbn [count_values].
  destruct (next_value_wf it W) as (t & it' & E & W' & _). rewrite E.
  destruct t as [t|]; [|eexists; reflexivity].
  destruct (next_value_meas _ _ _ E) as (L' & _).
  destruct (find_command _ _ _); [eexists; reflexivity|].
  destruct (_ && _); [eexists; reflexivity|]. apply IH; [exact W'|lia].
Qed.

Lemma count_tokens_total : forall cfg fuel st min it result, wf_iter it -> meas it < fuel ->
  exists n, count_tokens cfg fuel st min it result = CountOk n.
Proof.
  intros cfg. induction fuel as [|fuel IH]; intros st min it result W L; [lia|]. cbn [count_tokens].
  destruct (next_wf it W) as (t & it' & E & W' & _). rewrite E.
  destruct t as [t|].
  2:{ apply count_values_total; [exact W'|]. unfold iter_fuel. pose proof (meas_le it'). lia. }
  destruct (next_meas _ _ _ E) as (L' & _).
  destruct (find_option _ _ _ _) as [o|].
  - assert (G : exists it'', (if negb (is_empty (o_argument o))
                       then match it_next_value it' with
                            | Ok (_, it'') => Ok it''
                            | Bad => Bad
                            end
                       else Ok it') = Ok it'' /\ wf_iter it'' /\
        (meas it'' <= meas it' \/ it_args it'' = [])).
    { destruct (negb _); [|exists it'; auto].
      destruct (next_value_wf it' W') as (v & it'' & E' & W'' & _). rewrite E'.
      exists it''. split; [reflexivity|]. split; [exact W''|].
      destruct v as [v|].
      - left. apply next_value_meas in E'. lia.
      - right. clear - E'. destruct it' as [k args p]. unfold it_next_value in E'. cbn [it_kind] in E'.
        destruct k; [unfold std_next_value in E'|unfold pre_next_value in E'];
          cbn [it_args it_pos] in E'; destruct args as [|a r];
          try (injection E' as <-; reflexivity);
          destruct p as [n|]; try (destruct (n <=? length a); discriminate);
          destruct r; try discriminate; injection E' as <-; reflexivity. }
    destruct G as (it'' & -> & W'' & L'').
    destruct (o_type o); try (eexists; reflexivity).
    + destruct L'' as [L''|L'']; [apply IH; [exact W''|lia]|].
      apply IH; [exact W''|]. pose proof (meas_le it'') as Hm. rewrite L'' in Hm. change (args_size []) with 0 in Hm. lia.
    + destruct L'' as [L''|L'']; [apply IH; [exact W''|lia]|].
      apply IH; [exact W''|]. pose proof (meas_le it'') as Hm. rewrite L'' in Hm. change (args_size []) with 0 in Hm. lia.
    + apply count_values_total; [exact W''|]. unfold iter_fuel. pose proof (meas_le it''). lia.
  - destruct (is_option _ _); [apply IH; [exact W'|lia]|].
    destruct (find_command _ _ _); [eexists; reflexivity|].
    destruct (_ && _); [eexists; reflexivity|]. apply IH; [exact W'|lia].
Qed.

Lemma count_arguments_total : forall cfg st, wf_iter (ps_iter st) ->
  exists n, count_arguments cfg st = Ret n st.
Proof.
  intros cfg st W. unfold count_arguments.
  destruct (count_tokens_total cfg (iter_fuel (ps_iter st)) st
              (fst (get_min_max_count (c_arguments (ps_command st)))) (ps_iter st) 0%N W)
    as (n & ->).
  - unfold iter_fuel. pose proof (meas_le (ps_iter st)). lia.
  - exists n. reflexivity.
Qed.
