(** Proofs about the use of parsers and items (C41, C58-C63). *)
From Verif Require Import Base BaseProofs MStrings MOptIter MData MCounter MValues MParser MText MHelp MApi
  SIndex IndexProofs SDef DefProofs FinishProofs SValues SCounter SParser SStep SHelp SApi ApiErase.
Open Scope nat_scope.

(** ** Sequences of calls *)

Lemma calls_cons : forall fuel c cs p, call_parsers fuel (c :: cs) p =
  (fst (call_parser fuel c p) :: fst (call_parsers fuel cs (snd (call_parser fuel c p))),
   snd (call_parsers fuel cs (snd (call_parser fuel c p)))).
Proof.
  intros. cbn [call_parsers]. destruct (call_parser fuel c p) as (x & p1). cbn [fst snd].
  destruct (call_parsers fuel cs p1); reflexivity.
Qed.

Lemma calls_app : forall fuel cs1 cs2 p, call_parsers fuel (cs1 ++ cs2) p =
  (fst (call_parsers fuel cs1 p) ++ fst (call_parsers fuel cs2 (snd (call_parsers fuel cs1 p))),
   snd (call_parsers fuel cs2 (snd (call_parsers fuel cs1 p)))).
Proof.
  intros fuel. induction cs1 as [|c cs1 IH]; intros cs2 p.
  - cbn. destruct (call_parsers fuel cs2 p); reflexivity.
  - rewrite <- app_comm_cons, !calls_cons, IH. reflexivity.
Qed.

Lemma call_parser_pair : forall fuel c p, call_parser fuel c p = (fst (call_parser fuel c p), snd (call_parser fuel c p)).
Proof. intros. destruct (call_parser fuel c p); reflexivity. Qed.

Lemma looks_only_same : forall fuel c p, looks_only c = true -> snd (call_parser fuel c p) = p.
Proof. intros fuel c p H. destruct c; try discriminate; reflexivity. Qed.

Lemma without_cons : forall f c cs r rs, without f (c :: cs) (r :: rs) =
  if f c r then without f cs rs else (c :: fst (without f cs rs), r :: snd (without f cs rs)).
Proof. intros. cbn [without]. destruct (without f cs rs); destruct (f c r); reflexivity. Qed.

Lemma C41_program_proof : forall fuel cs p rs p' cs' rs', call_parsers fuel cs p = (rs, p') ->
  without (fun c _ => looks_only c) cs rs = (cs', rs') -> call_parsers fuel cs' p = (rs', p').
Proof.
  intros fuel. induction cs as [|c cs IH]; intros p rs p' cs' rs' H W.
  - injection H as <- <-. injection W as <- <-. reflexivity.
  - rewrite calls_cons in H. injection H as <- <-. rewrite without_cons in W. destruct (looks_only c) eqn:L.
    + rewrite (looks_only_same fuel c p L) in *. apply (IH p (fst (call_parsers fuel cs p))); [|exact W].
      destruct (call_parsers fuel cs p); reflexivity.
    + injection W as <- <-. rewrite calls_cons.
      pose proof (IH (snd (call_parser fuel c p)) (fst (call_parsers fuel cs (snd (call_parser fuel c p))))
        (snd (call_parsers fuel cs (snd (call_parser fuel c p)))) _ _ (surjective_pairing _) (surjective_pairing _)) as G.
      rewrite G. reflexivity.
Qed.

Lemma C41_again_proof : forall fuel cs c p, Forall (fun x => looks_only x = true) cs ->
  fst (call_parser fuel c (snd (call_parsers fuel cs p))) = fst (call_parser fuel c p).
Proof.
  intros fuel cs c p H. revert p. induction H as [|x cs Hx _ IH]; intros p; [reflexivity|].
  rewrite calls_cons. cbn [snd]. rewrite (looks_only_same fuel x p Hx). apply IH.
Qed.

(** ** After the parser has been used up *)

Lemma used_call : forall fuel c, snd (call_parser fuel c None) = None /\
  (refused (fst (call_parser fuel c None)) \/ exists a l, c = P_parse_argv (a :: l)).
Proof.
  intros fuel c. unfold refused. destruct c; cbn; try (split; [reflexivity|left; tauto]).
  - destruct argv; cbn; [split; [reflexivity|left; tauto]|]. split; [reflexivity|]. right. eauto.
  - destruct argv; cbn; split; try reflexivity; left; tauto.
  - destruct argv; cbn; split; try reflexivity; left; tauto.
  - destruct argv; cbn; split; try reflexivity; left; tauto.
Qed.

Lemma used_calls : forall fuel cs, (forall a l, ~ In (P_parse_argv (a :: l)) cs) ->
  Forall refused (fst (call_parsers fuel cs None)) /\ snd (call_parsers fuel cs None) = None.
Proof.
  intros fuel. induction cs as [|c cs IH]; intros H; [split; [constructor|reflexivity]|]. rewrite calls_cons.
  destruct (used_call fuel c) as (E & [R|(a & l & ->)]); [|destruct (H a l); left; reflexivity]. rewrite E.
  destruct IH as (A & B); [intros a l I; apply (H a l); right; exact I|]. split; [constructor; assumption|exact B].
Qed.

Lemma uses_up_none : forall fuel c p, uses_up c = true -> snd (call_parser fuel c p) = None.
Proof.
  intros fuel c [d|] H; [|apply used_call]. destruct c; try discriminate.
  - reflexivity.
  - destruct argv; reflexivity.
  - reflexivity.
  - destruct argv; [discriminate|reflexivity].
Qed.

Lemma C58_proof : forall fuel before c after p, uses_up c = true -> (forall a l, ~ In (P_parse_argv (a :: l)) after) ->
  let (rs, p') := call_parsers fuel (before ++ c :: after) p in
  p' = None /\ Forall refused (skipn (S (length before)) rs).
Proof.
  intros fuel before c after p H Ha. rewrite calls_app, calls_cons. cbn [snd]. rewrite (uses_up_none fuel c _ H).
  destruct (used_calls fuel after Ha) as (A & B). split; [exact B|].
  assert (L : length (fst (call_parsers fuel before p)) = length before).
  { clear. revert p. induction before as [|x before IH]; intros p; [reflexivity|]. rewrite calls_cons. cbn [fst length]. rewrite IH. reflexivity. }
  rewrite skipn_app, L. replace (S (length before) - length before) with 1 by lia. rewrite skipn_all2 by lia. cbn [app skipn fst]. exact A.
Qed.

Lemma C58_items_proof : forall (ca : arg_call) (co : opt_call) (cc : cmd_call),
  (exists e, call_argument ca None = (Raised e, None)) /\ call_option co None = (Raised EMovedItem, None) /\
  call_command cc None = (Raised EMovedItem, None) /\
  (forall A (x : option A), snd (release x) = None /\ (x = None -> fst (release x) = Raised EMovedItem)).
Proof.
  intros ca co cc. split; [|split; [reflexivity|split; [reflexivity|]]].
  - unfold call_argument. destruct (arg_precheck ca); eauto.
  - intros A [a|]; cbn; split; congruence.
Qed.

Lemma C58_added_proof : forall A checked add (x : option A) c, snd (fst (add_to checked add x (Some c))) = None.
Proof. intros A checked add [a|] c; cbn; [destruct (add c (Some a)); reflexivity|]. destruct checked; [reflexivity|]. destruct (add c None); reflexivity. Qed.

(** ** Refused changes *)

Lemma add_to_raised : forall A checked add (x : option A) c e y o, add_to checked add x (Some c) = (Raised e, y, o) -> o = Some c.
Proof.
  intros A checked add x c e y o H. unfold add_to in H. destruct x as [a|].
  - destruct (add c (Some a)); [discriminate|]. injection H as _ _ <-. reflexivity.
  - destruct checked; [injection H as _ _ <-; reflexivity|]. destruct (add c None); [discriminate|]. injection H as _ _ <-. reflexivity.
Qed.
Lemma set_d_command_same : forall d, set_d_command d (d_command d) = d. Proof. intros []. reflexivity. Qed.

Lemma add_data_raised : forall A checked add (x : option A) p, raised (fst (add_data checked add x p)) = true ->
  snd (add_data checked add x p) = p.
Proof.
  intros A checked add x [d|] H; [|reflexivity]. unfold add_data in *. destruct (add_to checked add x (Some (d_command d))) as ((r & y) & o) eqn:E.
  destruct r as [|e|].
  - destruct o; discriminate.
  - apply add_to_raised in E. subst o. cbn. rewrite set_d_command_same. reflexivity.
  - destruct o; discriminate.
Qed.

Lemma raised_same : forall fuel c p, raised (fst (call_parser fuel c p)) = true -> is_copy c = false -> snd (call_parser fuel c p) = p.
Proof.
  intros fuel c p H Hc. destruct c; try discriminate; cbn [call_parser] in *; try (apply add_data_raised; exact H);
    try (destruct p; [discriminate|reflexivity]); try reflexivity.
  - unfold set_option_style in *. destruct p as [d|]; [|reflexivity]. destruct (style_eqb _ _); [reflexivity|].
    destruct (negb _); [reflexivity|discriminate].
  - destruct (parse_argv fuel p argv). discriminate.
  - destruct (make_iterator_argv p argv). discriminate.
Qed.

Lemma C59_proof : forall fuel cs p rs p' cs' rs', (forall s, ~ In (P_copy_from s) cs) ->
  call_parsers fuel cs p = (rs, p') -> without (fun _ r => raised r) cs rs = (cs', rs') ->
  call_parsers fuel cs' p = (rs', p').
Proof.
  intros fuel. induction cs as [|c cs IH]; intros p rs p' cs' rs' Nc H W.
  - injection H as <- <-. injection W as <- <-. reflexivity.
  - assert (Nc' : forall s, ~ In (P_copy_from s) cs) by (intros s I; apply (Nc s); right; exact I).
    rewrite calls_cons in H. injection H as <- <-. rewrite without_cons in W. destruct (raised (fst (call_parser fuel c p))) eqn:L.
    + assert (Ec : is_copy c = false) by (destruct c; try reflexivity; destruct (Nc c); left; reflexivity).
      rewrite (raised_same fuel c p L Ec) in *. apply (IH p (fst (call_parsers fuel cs p))); [exact Nc'| |exact W].
      destruct (call_parsers fuel cs p); reflexivity.
    + injection W as <- <-. rewrite calls_cons.
      pose proof (IH (snd (call_parser fuel c p)) (fst (call_parsers fuel cs (snd (call_parser fuel c p))))
        (snd (call_parsers fuel cs (snd (call_parser fuel c p)))) _ _ Nc' (surjective_pairing _) (surjective_pairing _)) as G.
      rewrite G. reflexivity.
Qed.

(** ** The option style *)

Lemma add_to_options : forall A checked add (x : option A) c r y c',
  (forall d d' z, add d z = Val d' -> exists l, c_options d' = c_options d ++ l) ->
  add_to checked add x (Some c) = (r, y, Some c') -> exists l, c_options c' = c_options c ++ l.
Proof.
  intros A checked add x c r y c' Ha H. unfold add_to in H.
  assert (Same : exists l, c_options c = c_options c ++ l) by (exists []; rewrite app_nil_r; reflexivity).
  destruct x as [a|].
  - destruct (add c (Some a)) eqn:E; injection H as _ _ <-; [apply (Ha _ _ _ E)|exact Same].
  - destruct checked; [injection H as _ _ <-; exact Same|].
    destruct (add c None) eqn:E; injection H as _ _ <-; [apply (Ha _ _ _ E)|exact Same].
Qed.

Lemma add_argument_options : forall d d' z, add_argument d z = Val d' -> exists l, c_options d' = c_options d ++ l.
Proof.
  intros d d' [a|] H; [|discriminate]. unfold add_argument in H. destruct (negb _); [discriminate|]. destruct (is_empty _); [discriminate|].
  injection H as <-. exists []. rewrite app_nil_r. reflexivity.
Qed.
Lemma add_option_options : forall d d' z, add_option d z = Val d' -> exists l, c_options d' = c_options d ++ l.
Proof. intros d d' [a|] H; [|discriminate]. unfold add_option in H. destruct (is_empty _); [discriminate|]. injection H as <-. eexists. reflexivity. Qed.
Lemma add_command_options : forall d d' z, add_command d z = Val d' -> exists l, c_options d' = c_options d ++ l.
Proof.
  intros d d' [a|] H; [|discriminate]. unfold add_command in H. destruct (negb _); [discriminate|]. destruct (is_empty _); [discriminate|].
  injection H as <-. exists []. rewrite app_nil_r. reflexivity.
Qed.

Definition keeps_style (p p' : option parser_data) : Prop := forall d d', p = Some d -> p' = Some d' ->
  (exists l, c_options (d_command d') = c_options (d_command d) ++ l) /\
  (c_options (d_command d) <> [] -> s_style (d_settings d') = s_style (d_settings d)).

Lemma keeps_refl : forall p, keeps_style p p.
Proof. intros p d d' -> E. injection E as <-. split; [exists []; rewrite app_nil_r|]; reflexivity. Qed.

Lemma add_data_style : forall A checked add (x : option A) p,
  (forall d d' z, add d z = Val d' -> exists l, c_options d' = c_options d ++ l) -> keeps_style p (snd (add_data checked add x p)).
Proof.
  intros A checked add x p Ha d d' -> E. unfold add_data in E. destruct (add_to _ _ _ _) as ((r & y) & [o|]) eqn:Ea; cbn in E; injection E as <-.
  - split; [|reflexivity]. apply (add_to_options _ _ _ _ _ _ _ _ Ha Ea).
  - split; [exists []; rewrite app_nil_r|]; reflexivity.
Qed.

Lemma call_style : forall fuel c p, keeps_style p (snd (call_parser fuel c p)).
Proof.
  intros fuel c p. destruct c; cbn [call_parser].
  - apply add_data_style, add_argument_options.
  - apply add_data_style, add_option_options.
  - apply add_data_style, add_command_options.
  - destruct p as [d|]; [|apply keeps_refl]. destruct c as [s|]; [|apply keeps_refl]. intros x y Ex Ey. injection Ex as <-.
    unfold copy_into in Ey. destruct (copy_texts _ _). injection Ey as <-. cbn. split; [eexists; reflexivity|reflexivity].
  - intros x y -> Ey. injection Ey as <-. cbn. split; [exists []; rewrite app_nil_r; destruct c, (d_command x); reflexivity|reflexivity].
  - intros x y -> Ey. injection Ey as <-. cbn. split; [exists []; rewrite app_nil_r; reflexivity|]. destruct c, (d_settings x); reflexivity.
  - intros x y -> Ey. unfold set_option_style in Ey. destruct (style_eqb s _).
    { injection Ey as <-. apply (keeps_refl (Some x)); reflexivity. }
    destruct (negb (is_empty (c_options (d_command x)))) eqn:En; [injection Ey as <-; apply (keeps_refl (Some x)); reflexivity|].
    injection Ey as <-. cbn. split; [exists []; rewrite app_nil_r; reflexivity|]. intros N0. destruct (c_options (d_command x)); [congruence|discriminate].
  - intros x y -> Ey. injection Ey as <-. cbn. split; [exists []; rewrite app_nil_r; reflexivity|reflexivity].
  - intros x y -> Ey. injection Ey as <-. cbn. split; [exists []; rewrite app_nil_r; reflexivity|reflexivity].
  - intros x y -> Ey. injection Ey as <-. cbn. split; [exists []; rewrite app_nil_r; reflexivity|reflexivity].
  - intros x y -> Ey. discriminate.
  - apply keeps_refl.
  - intros x y -> Ey. destruct argv; discriminate.
  - apply keeps_refl.
  - intros x y -> Ey. discriminate.
  - apply keeps_refl.
  - destruct argv; [apply keeps_refl|]. intros x y -> Ey. discriminate.
  - apply keeps_refl.
  - apply keeps_refl.
Qed.

Lemma calls_none : forall fuel cs, snd (call_parsers fuel cs None) = None.
Proof. intros fuel. induction cs as [|c cs IH]; [reflexivity|]. rewrite calls_cons. destruct (used_call fuel c) as (-> & _). exact IH. Qed.

Lemma C60_proof : forall fuel cs d rs d', call_parsers fuel cs (Some d) = (rs, Some d') -> c_options (d_command d) <> [] ->
  s_style (d_settings d') = s_style (d_settings d) /\ exists l, c_options (d_command d') = c_options (d_command d) ++ l.
Proof.
  intros fuel. induction cs as [|c cs IH]; intros d rs d' H N0.
  - injection H as _ <-. split; [reflexivity|]. exists []. rewrite app_nil_r. reflexivity.
  - rewrite calls_cons in H. injection H as _ H. destruct (snd (call_parser fuel c (Some d))) as [x|] eqn:E.
    + destruct (call_style fuel c (Some d) d x eq_refl E) as ((l & El) & Es).
      assert (Nx : c_options (d_command x) <> []) by (rewrite El; destruct (c_options (d_command d)); [congruence|discriminate]).
      destruct (IH x (fst (call_parsers fuel cs (Some x))) d') as (A & l' & B); [rewrite <- H; apply surjective_pairing|exact Nx|].
      split; [rewrite A; apply Es, N0|]. exists (l ++ l'). rewrite B, El, app_assoc. reflexivity.
    + rewrite calls_none in H. discriminate.
Qed.

Lemma C60_style_proof : forall fuel d s, c_options (d_command d) <> [] -> s <> s_style (d_settings d) ->
  call_parser fuel (P_style s) (Some d) = (R_call (Raised EStyleChange), Some d).
Proof.
  intros fuel d s N0 Ns. cbn [call_parser]. unfold set_option_style.
  assert (E : style_eqb s (s_style (d_settings d)) = false) by (destruct s, (s_style (d_settings d)); try reflexivity; congruence).
  rewrite E. destruct (c_options (d_command d)); [congruence|reflexivity].
Qed.

(** ** Counts of arguments *)

Definition good_argument (a : arg_data) : Prop := (a_min a <= a_max a /\ 1 <= a_max a)%N.

Lemma call_argument_good : forall c o a, (forall b, o = Some b -> good_argument b) -> snd (call_argument c o) = Some a -> good_argument a.
Proof.
  intros c o a H E. unfold call_argument in E. destruct (arg_precheck c) eqn:P; [apply H, E|]. destruct o as [b|]; [|discriminate].
  injection E as <-. specialize (H b eq_refl). unfold good_argument in *.
  destruct c; cbn [arg_update arg_optional arg_counts a_min a_max set_a_section]; try exact H.
  - destruct b0; [lia|]. destruct (a_min b =? 0)%N eqn:Z; [|lia]. lia.
  - destruct (negb b0); [lia|]. destruct (a_min b =? 0)%N eqn:Z; [|lia]. lia.
  - cbn [arg_precheck] in P. destruct (n =? 0)%N eqn:Z; [discriminate|]. apply N.eqb_neq in Z. lia.
  - cbn [arg_precheck] in P. destruct (hi =? 0)%N eqn:Z; [discriminate|]. cbn [orb] in P. destruct (hi <? lo)%N eqn:Z2; [discriminate|].
    apply N.eqb_neq in Z. apply N.ltb_ge in Z2. lia.
Qed.

Lemma C61_argument_proof : forall a, made_argument a -> good_argument a.
Proof.
  intros a (name & cs & E).
  assert (G : forall b, Some (new_argument name) = Some b -> good_argument b) by (intros b Eb; injection Eb as <-; unfold good_argument; cbn; lia).
  revert E G. generalize (Some (new_argument name)). induction cs as [|c cs IH]; intros o E G; cbn [call_arguments] in E; [apply G, E|].
  apply (IH _ E). intros b Hb. apply (call_argument_good c o b G Hb).
Qed.

Definition good_command (c : cmd_data) : Prop := forall d, within c d -> proper (c_arguments d).

Lemma good_parts : forall c, good_command c <-> proper (c_arguments c) /\ forall d, In d (c_commands c) -> good_command d.
Proof.
  intros c. split.
  - intros H. split; [apply H; constructor|]. intros d Hd e He. apply H.
    eapply within_trans; [eapply within_sub; [constructor|exact Hd]|exact He].
  - intros (A & B) d Hd. apply within_inv in Hd. destruct Hd as [->|(e & He & We)]; [exact A|]. apply (B e He d We).
Qed.

Lemma good_like : forall c c', c_arguments c' = c_arguments c -> c_commands c' = c_commands c -> good_command c -> good_command c'.
Proof. intros c c' Ea Ec H. apply good_parts. rewrite Ea, Ec. apply good_parts, H. Qed.

Lemma good_copy : forall c, good_command c -> good_command (copy_command c).
Proof.
  induction c as [c IH] using cmd_nested_ind. intros H. apply good_parts. destruct (copy_fields c) as (-> & _ & -> & _).
  apply good_parts in H. destruct H as (A & B). split; [exact A|]. intros d Hd. apply in_map_iff in Hd. destruct Hd as (e & <- & He).
  rewrite Forall_forall in IH. apply (IH e He), B, He.
Qed.

Lemma proper_app : forall a b, proper a -> proper b -> proper (a ++ b).
Proof. intros a b Ha Hb x Hx. apply in_app_iff in Hx. destruct Hx; [apply Ha|apply Hb]; assumption. Qed.

Lemma good_copy_into : forall c s r c', good_command c -> good_command s -> copy_into c s = (r, c') -> good_command c'.
Proof.
  intros c s r c' Hc Hs E. unfold copy_into in E. destruct (copy_texts _ _). injection E as _ <-. apply good_parts. cbn [c_arguments c_commands].
  apply good_parts in Hc, Hs. destruct Hc as (A & B), Hs as (C & D). split; [apply proper_app; assumption|]. intros d Hd.
  apply in_app_iff in Hd. destruct Hd as [Hd|Hd]; [apply B, Hd|]. apply in_map_iff in Hd. destruct Hd as (e & <- & He). apply good_copy, D, He.
Qed.

Lemma good_add : forall A checked add (x : option A) c r y c', good_command c ->
  (forall z d', x = Some z -> add c x = Val d' -> good_command d') -> (forall d', add c None <> Val d') ->
  add_to checked add x (Some c) = (r, y, Some c') -> good_command c'.
Proof.
  intros A checked add x c r y c' Hc Ha Hn E. unfold add_to in E. destruct x as [z|].
  - destruct (add c (Some z)) as [d'|] eqn:Ed; injection E as _ _ <-; [apply (Ha z d' eq_refl eq_refl)|exact Hc].
  - destruct checked; [injection E as _ _ <-; exact Hc|]. destruct (add c None) as [d'|] eqn:Ed; [destruct (Hn d' eq_refl)|].
    injection E as _ _ <-. exact Hc.
Qed.

Lemma good_add_argument : forall c x r y c', good_command c -> (forall a, x = Some a -> good_argument a) ->
  add_to true add_argument x (Some c) = (r, y, Some c') -> good_command c'.
Proof.
  intros c x r y c' Hc Hx E. apply (good_add _ _ _ _ _ _ _ _ Hc) in E; [exact E| |discriminate].
  intros z d' -> Ed. unfold add_argument in Ed. destruct (negb _); [discriminate|]. destruct (is_empty (a_name z)); [discriminate|].
  injection Ed as <-. apply good_parts. cbn [c_arguments c_commands set_c_items]. apply good_parts in Hc. destruct Hc as (A & B). split; [|exact B].
  apply proper_app; [exact A|]. intros b [<-|[]]. specialize (Hx z eq_refl). destruct (is_empty (a_section z)); exact Hx.
Qed.
Lemma good_add_option : forall c x r y c', good_command c ->
  add_to true add_option x (Some c) = (r, y, Some c') -> good_command c'.
Proof.
  intros c x r y c' Hc E. apply (good_add _ _ _ _ _ _ _ _ Hc) in E; [exact E| |discriminate].
  intros z d' -> Ed. unfold add_option in Ed. destruct (is_empty (o_flags z)); [discriminate|]. injection Ed as <-.
  apply (good_like c); try reflexivity. exact Hc.
Qed.
Lemma good_add_command : forall c x r y c', good_command c -> (forall d, x = Some d -> good_command d) ->
  add_to false add_command x (Some c) = (r, y, Some c') -> good_command c'.
Proof.
  intros c x r y c' Hc Hx E. apply (good_add _ _ _ _ _ _ _ _ Hc) in E; [exact E| |discriminate].
  intros z d' -> Ed. unfold add_command in Ed. destruct (negb _); [discriminate|]. destruct (is_empty (c_name z)); [discriminate|].
  injection Ed as <-. apply good_parts. cbn [c_arguments c_commands set_c_items]. apply good_parts in Hc. destruct Hc as (A & B). split; [exact A|].
  intros d Hd. apply in_app_iff in Hd. destruct Hd as [Hd|[<-|[]]]; [apply B, Hd|]. specialize (Hx z eq_refl).
  destruct (is_empty (c_section z)); [|exact Hx]. apply (good_like z); try reflexivity. exact Hx.
Qed.

Lemma good_new : forall name, good_command (new_command name).
Proof. intros name. apply good_parts. split; [intros a []|intros d []]. Qed.
Lemma good_set : forall u c, good_command c -> good_command (cmd_update u c).
Proof. intros u c. apply good_like; destruct u, c; reflexivity. Qed.

Lemma made_good : forall c, made_command c -> good_command c.
Proof.
  induction 1.
  - apply good_new.
  - apply good_set. assumption.
  - apply good_copy. assumption.
  - eapply good_add_argument; [eassumption| |eassumption]. intros b Eb. injection Eb as <-. apply C61_argument_proof. assumption.
  - eapply good_add_option; eassumption.
  - eapply good_add_command; [eassumption| |eassumption]. intros b Eb. injection Eb as <-. assumption.
  - unfold command_copy_from in H1. destruct (copy_into c s) as (r' & d') eqn:E. injection H1 as _ <-.
    apply (good_copy_into c s r' d'); assumption.
Qed.

Lemma call_good : forall fuel c d d', made_call c -> good_command (d_command d) -> snd (call_parser fuel c (Some d)) = Some d' ->
  good_command (d_command d').
Proof.
  intros fuel c d d' Hm Hg E. destruct c; cbn [call_parser] in E; try discriminate; try (injection E as <-; exact Hg).
  - unfold add_data in E. destruct (add_to _ _ _ _) as ((r & y) & [o|]) eqn:Ea; injection E as <-; [|exact Hg].
    eapply good_add_argument; [exact Hg| |exact Ea]. intros b ->. apply C61_argument_proof. exact Hm.
  - unfold add_data in E. destruct (add_to _ _ _ _) as ((r & y) & [c|]) eqn:Ea; injection E as <-; [|exact Hg].
    eapply good_add_option; [exact Hg|exact Ea].
  - unfold add_data in E. destruct (add_to _ _ _ _) as ((r & y) & [o|]) eqn:Ea; injection E as <-; [|exact Hg].
    eapply good_add_command; [exact Hg| |exact Ea]. intros b ->. apply made_good. exact Hm.
  - destruct c as [s|]; [|injection E as <-; exact Hg]. destruct (copy_into (d_command d) s) as (r & c') eqn:Ec. injection E as <-.
    eapply good_copy_into; [exact Hg|apply made_good, Hm|exact Ec].
  - injection E as <-. apply good_set, Hg.
  - unfold set_option_style in E. destruct (style_eqb _ _); [injection E as <-; exact Hg|].
    destruct (negb _); injection E as <-; exact Hg.
  - destruct argv; discriminate.
  - destruct argv; [injection E as <-; exact Hg|discriminate].
Qed.

Lemma made_parser_good : forall d, made_parser d -> good_command (d_command d).
Proof.
  intros d (fuel & name & file & cs & rs & E & Hm).
  assert (G : good_command (d_command (new_parser name file))) by apply good_new.
  revert rs E G. generalize (new_parser name file). induction Hm as [|c cs Hc Hm IH]; intros p rs E G; [injection E as _ <-; exact G|].
  rewrite calls_cons in E. injection E as _ E. destruct (snd (call_parser fuel c (Some p))) as [x|] eqn:Ex; [|rewrite calls_none in E; discriminate].
  apply (IH x (fst (call_parsers fuel cs (Some x)))); [rewrite <- E; apply surjective_pairing|]. apply (call_good fuel c p x Hc G Ex).
Qed.

Lemma C61_counts_proof : forall d, made_parser d -> counts_ok (d_command d).
Proof. intros d H x a Hx Ha. destruct (made_parser_good d H x Hx a Ha) as (A & _). exact A. Qed.

Lemma C61_proof : forall d q c, made_parser d -> finish_parser d = Val q -> within (d_command q) c -> proper (c_arguments c).
Proof.
  intros d q c Hd H Hw. pose proof (made_parser_good d Hd) as G. apply finish_parser_inv in H. destruct H as (_ & F).
  destruct (finished_within _ _ _ _ _ _ F c Hw) as (d0 & f & s & a & W0 & E).
  apply finish_finished in E. destruct E as (opts1 & vid' & aid' & V & _ & I & _).
  apply set_internal_ids_spec in I. destruct I as (_ & _ & _ & S1 & S2).
  intros x Hx. destruct (forall2_in_right _ _ _ S1 x Hx) as (y & Hy & (i & j & ->)). cbn.
  assert (W : proper (c_arguments d0)).
  { apply within_inv in W0. destruct W0 as [->|(e & He & We)].
    - apply (G (d_command d)). constructor.
    - apply (G d0). eapply within_trans; [|exact We]. eapply within_sub; [constructor|exact He]. }
  apply (W y Hy).
Qed.

(** ** The name of the program *)

Lemma C62_proof : forall fuel d name args, parse_argv fuel (Some d) (name :: args) =
  parse_vector fuel (Some (if str_eqb (c_name (d_command d)) DEFAULT_NAME && negb (is_empty name)
                           then set_d_name d (get_base_name name) else d)) args.
Proof. reflexivity. Qed.

(** ** Iterators *)

Lemma iterate_parse : forall cfg fuel st, parse_loop cfg fuel st =
  match iterate cfg fuel st with
  | Ret _ st' => Ret tt st'
  | Exits c st' => Exits c st'
  | Throws e st' => Throws e st'
  | Undefined => Undefined
  | NoFuel => NoFuel
  end.
Proof.
  intros cfg. induction fuel as [|fuel IH]; intros st; [reflexivity|]. cbn [parse_loop iterate]. unfold bind at 1 2.
  destruct (next cfg st) as [r st1| | | |]; try reflexivity. unfold api_next_result. unfold bind.
  destruct (ir_code r); try reflexivity; rewrite IH; destruct (iterate cfg fuel st1); reflexivity.
Qed.

Lemma C63_proof : forall fuel d args st, parse_arguments fuel d args = PReturn st <->
  exists cfg st0 l, make_argument_iterator d args = Done (cfg, st0) /\ iterate cfg fuel st0 = Ret l st.
Proof.
  intros fuel d args st. unfold parse_arguments, make_argument_iterator. destruct (finish_parser d) as [q|e].
  2:{ split; [discriminate|]. intros (cfg & st0 & l & E & _). discriminate. }
  unfold run_parser. unfold bind at 1. destruct (start_counter _ _) as [u st1| | | |].
  2-5: split; [discriminate|]; intros (cfg & st9 & l & E & _); discriminate.
  rewrite iterate_parse. split.
  - intros E. exists (d_settings q), st1. destruct (iterate (d_settings q) fuel st1) as [l st2| | | |]; try discriminate. injection E as <-.
    exists l. split; reflexivity.
  - intros (cfg & st0 & l & E & Ei). injection E as <- <-. rewrite Ei. reflexivity.
Qed.

Lemma C63_exit_proof : forall fuel d args code st, parse_arguments fuel d args = PExit code st <->
  exists cfg st0, make_argument_iterator d args = Done (cfg, st0) /\ iterate cfg fuel st0 = Exits code st.
Proof.
  intros fuel d args code st. unfold parse_arguments, make_argument_iterator. destruct (finish_parser d) as [q|e].
  2:{ split; [discriminate|]. intros (cfg & st0 & E & _). discriminate. }
  unfold run_parser. unfold bind at 1.
  assert (Nx : forall c s, start_counter (d_settings q) (initial_state (d_settings q) (d_command q) args) <> Exits c s).
  { intros c s. unfold start_counter, bind, gets, modify. destruct (negb _); [discriminate|]. unfold count_arguments.
    destruct (count_tokens _ _ _ _ _ _); discriminate. }
  destruct (start_counter _ _) as [u st1|c s| | |].
  2: destruct (Nx c s eq_refl).
  2-4: split; [discriminate|]; intros (cfg & st9 & E & _); discriminate.
  rewrite iterate_parse. split.
  - intros E. exists (d_settings q), st1. destruct (iterate (d_settings q) fuel st1) as [l st2| | | |]; try discriminate. injection E as <- <-.
    split; reflexivity.
  - intros (cfg & st0 & E & Ei). injection E as <- <-. rewrite Ei. reflexivity.
Qed.

Lemma iterate_steps : forall cfg fuel st l st', iterate cfg fuel st = Ret l st' ->
  exists r, steps cfg st (l ++ [r]) st' /\ api_next_result r = false /\ (forall x, In x l -> api_next_result x = true).
Proof.
  intros cfg. induction fuel as [|fuel IH]; intros st l st' H; [discriminate|]. cbn [iterate] in H. unfold bind at 1 in H.
  destruct (next cfg st) as [r st1| | | |] eqn:En; try discriminate. destruct (api_next_result r) eqn:Ea.
  - unfold bind in H. destruct (iterate cfg fuel st1) as [l1 st2| | | |] eqn:Ei; try discriminate. injection H as <- <-.
    destruct (IH st1 l1 st2 Ei) as (x & A & B & C). exists x. split; [eapply steps_more; eassumption|]. split; [exact B|].
    intros y [<-|Hy]; [exact Ea|apply C, Hy].
  - injection H as <- <-. exists r. split; [eapply steps_more; [exact En|constructor]|]. split; [exact Ea|intros x []].
Qed.
