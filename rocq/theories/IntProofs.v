(** Proofs for PInt.v. *)
From Verif Require Import Base MParseInt MData MValues SValues BaseProofs StrProofs.

(* ------------------------------------------------------------------------ *)
(** ** Characters *)

Lemma digit_of_spec : forall c d, digit_of c = Some d <-> is_digit c d.
Proof.
  intros c d. split.
  - assert (H : match digit_of c with
                | None => true
                | Some d => match nth_error digits_lower (N.to_nat d),
                                  nth_error digits_upper (N.to_nat d) with
                            | Some x, Some y => Ascii.eqb x c || Ascii.eqb y c
                            | _, _ => false
                            end
                end = true).
    { revert c. apply all_bytes_1. vm_compute. reflexivity. }
    intros E. rewrite E in H. unfold is_digit.
    destruct (nth_error digits_lower (N.to_nat d)); [|discriminate].
    destruct (nth_error digits_upper (N.to_nat d)); [|discriminate].
    apply orb_prop in H. destruct H as [H|H]; apply Ascii.eqb_eq in H; subst; tauto.
  - unfold is_digit. intros H.
    assert (L : N.to_nat d < 36).
    { destruct H as [H|H];
        [apply (proj1 (nth_error_Some digits_lower _))|apply (proj1 (nth_error_Some digits_upper _))];
        rewrite H; discriminate. }
    assert (E : d = N.of_nat (N.to_nat d)) by lia. rewrite E. remember (N.to_nat d) as k.
    clear d Heqk E. do 36 (destruct k as [|k];
      [destruct H as [H|H]; vm_compute in H; injection H as <-; reflexivity|]). lia.
Qed.

Lemma is_space_spec : forall c, is_space c = true <-> In c white_space.
Proof.
  intros c. rewrite <- existsb_eqb_in.
  assert (H : Bool.eqb (is_space c) (existsb (Ascii.eqb c) white_space) = true).
  { revert c. apply all_bytes_1. vm_compute. reflexivity. }
  apply Bool.eqb_prop in H. rewrite H. reflexivity.
Qed.

Lemma digit_not_special : forall c d, digit_of c = Some d ->
  is_space c = false /\ c <> "-"%char /\ c <> "+"%char.
Proof.
  intros c d E.
  assert (H : match digit_of c with
              | None => true
              | Some _ => negb (is_space c) && negb (Ascii.eqb c "-"%char)
                          && negb (Ascii.eqb c "+"%char)
              end = true).
  { revert c E. intros c _. revert c. apply all_bytes_1. vm_compute. reflexivity. }
  rewrite E in H. apply andb_prop in H. destruct H as (H & H3). apply andb_prop in H.
  destruct H as (H1 & H2). apply negb_true_iff in H1, H2, H3.
  apply Ascii.eqb_neq in H2, H3. auto.
Qed.

(* ------------------------------------------------------------------------ *)
(** ** Digits *)

Fixpoint digits_value (b acc : N) (s : str) : option N :=
  match s with
  | [] => Some acc
  | c :: r => match digit_of c with
              | Some d => if (d <? b)%N then digits_value b (acc * b + d) r else None
              | None => None
              end
  end.

Lemma digits_value_snoc : forall b s acc c,
  digits_value b acc (s ++ [c]) =
  match digits_value b acc s with
  | Some n => match digit_of c with
              | Some d => if (d <? b)%N then Some (n * b + d)%N else None
              | None => None
              end
  | None => None
  end.
Proof.
  induction s as [|x s IH]; intros acc c; [reflexivity|]. simpl.
  destruct (digit_of x) as [d|]; [|reflexivity]. destruct (d <? b)%N; [apply IH|reflexivity].
Qed.

Lemma number_value : forall b s n, number b s n <-> s <> [] /\ digits_value b 0 s = Some n.
Proof.
  intros b s n. split.
  - induction 1 as [c d H L|s n c d N IH H L].
    + split; [discriminate|]. simpl. apply digit_of_spec in H. rewrite H.
      apply N.ltb_lt in L. rewrite L. reflexivity.
    + split; [destruct s; discriminate|]. rewrite digits_value_snoc.
      destruct IH as (_ & ->). apply digit_of_spec in H. rewrite H.
      apply N.ltb_lt in L. rewrite L. reflexivity.
  - revert n. induction s as [|c s IH] using rev_ind; intros n (Hn & H); [congruence|].
    rewrite digits_value_snoc in H. destruct (digits_value b 0 s) as [m|] eqn:E; [|discriminate].
    destruct (digit_of c) as [d|] eqn:Ed; [|discriminate].
    destruct (N.ltb_spec d b); [|discriminate]. injection H as <-.
    apply digit_of_spec in Ed. destruct s as [|x s].
    + simpl in *. injection E as <-. apply number_one; assumption.
    + apply number_more; [|assumption|assumption]. apply IH. split; [discriminate|reflexivity].
Qed.

Lemma read_digits_all : forall b s acc any n any',
  read_digits b acc any s = (n, any', []) <->
  digits_value b acc s = Some n /\ any' = any || negb (is_empty s).
Proof.
  induction s as [|c s IH]; intros acc any n any'; simpl.
  - rewrite orb_false_r. split.
    + intros E. injection E as <- <-. auto.
    + intros (E & ->). injection E as <-. reflexivity.
  - destruct (digit_of c) as [d|]; [destruct (d <? b)%N|].
    + rewrite IH. rewrite orb_true_r. simpl. tauto.
    + split; [discriminate|]. intros (E & _). discriminate.
    + split; [discriminate|]. intros (E & _). discriminate.
Qed.

(* ------------------------------------------------------------------------ *)
(** ** The parts of the text *)

Lemma skip_spaces_spec : forall s, exists ws, s = ws ++ skip_spaces s /\
  (forall c, In c ws -> In c white_space).
Proof.
  induction s as [|c s (ws & E & H)]; [exists []; split; [reflexivity|intros c []]|].
  simpl. destruct (is_space c) eqn:S.
  - exists (c :: ws). simpl. rewrite <- E. split; [reflexivity|].
    intros x [<-|Hx]; [apply is_space_spec; exact S|apply H; exact Hx].
  - exists []. split; [reflexivity|]. intros x [].
Qed.

Lemma skip_spaces_app : forall ws t, (forall c, In c ws -> In c white_space) ->
  skip_spaces (ws ++ t) = skip_spaces t.
Proof.
  induction ws as [|c ws IH]; intros t H; [reflexivity|]. simpl.
  assert (S : is_space c = true) by (apply is_space_spec, H; left; reflexivity).
  rewrite S. apply IH. intros x Hx. apply H. right. exact Hx.
Qed.

Lemma read_sign_spec : forall s neg r, read_sign s = (neg, r) ->
  exists sg, s = sg ++ r /\ sign sg neg.
Proof.
  intros [|c s] neg r E; simpl in E.
  - injection E as <- <-. exists []. split; [reflexivity|constructor].
  - destruct (Ascii.eqb_spec c "-"%char) as [->|H1].
    + injection E as <- <-. exists ($"-"). split; [reflexivity|constructor].
    + destruct (Ascii.eqb_spec c "+"%char) as [->|H2].
      * injection E as <- <-. exists ($"+"). split; [reflexivity|constructor].
      * injection E as <- <-. exists []. split; [reflexivity|constructor].
Qed.

Lemma read_base_spec : forall base s b r,
  (0 <= base <= 36)%Z -> base <> 1%Z -> r <> [] ->
  read_base base s = (b, r) ->
  exists prefix, s = prefix ++ r /\ base_of base prefix r b.
Proof.
  intros base s b r B B1 Hr E. unfold read_base in E.
  destruct (((base =? 0) || (base =? 16))%Z && has_hex_prefix s) eqn:H.
  - apply andb_prop in H. destruct H as (Hb & H). injection E as <- <-.
    assert (Hb' : base = 0%Z \/ base = 16%Z).
    { apply orb_prop in Hb. destruct Hb as [Hb|Hb]; apply Z.eqb_eq in Hb; auto. }
    destruct s as [|z [|x [|h t]]]; try discriminate. simpl in H.
    apply andb_prop in H. destruct H as (H & _). apply andb_prop in H. destruct H as (Hz & Hx).
    apply Ascii.eqb_eq in Hz. subst z. exists ["0"%char; x]. split; [reflexivity|].
    constructor; [exact Hb'|].
    apply orb_prop in Hx. destruct Hx as [Hx|Hx]; apply Ascii.eqb_eq in Hx; auto.
  - destruct (Z.eqb_spec base 0) as [E0|E0].
    + injection E as <- <-. exists []. split; [reflexivity|].
      destruct s as [|c s]; [congruence|]. simpl.
      destruct (Ascii.eqb_spec c "0"%char) as [->|Hc].
      * constructor. exact E0.
      * constructor; assumption.
    + injection E as <- <-. exists []. split; [reflexivity|]. constructor. lia.
Qed.

Lemma read_base_back : forall base prefix ds b n,
  base_of base prefix ds b -> number b ds n ->
  read_base base (prefix ++ ds) = (b, ds).
Proof.
  intros base prefix ds b n Hb Hn. apply number_value in Hn. destruct Hn as (Hne & Hv).
  unfold read_base. destruct Hb as [ds B|x ds B X|ds B|c ds B C].
  - (* given *)
    simpl. assert (E0 : (base =? 0)%Z = false) by (apply Z.eqb_neq; lia). rewrite E0. simpl.
    destruct (Z.eqb_spec base 16) as [E|E]; [|reflexivity].
    destruct (has_hex_prefix ds) eqn:H; [|reflexivity]. exfalso. subst base.
    destruct ds as [|z [|x [|h t]]]; try discriminate. simpl in H.
    apply andb_prop in H. destruct H as (H & _). apply andb_prop in H. destruct H as (Hz & Hx).
    apply Ascii.eqb_eq in Hz. subst z. simpl in Hv.
    apply orb_prop in Hx. destruct Hx as [Hx|Hx]; apply Ascii.eqb_eq in Hx; subst x;
      vm_compute in Hv; discriminate.
  - destruct ds as [|h t]; [congruence|].
    assert (Eb : ((base =? 0) || (base =? 16))%Z = true)
      by (destruct B as [->| ->]; reflexivity).
    rewrite Eb. simpl app.
    assert (H : has_hex_prefix ("0"%char :: x :: h :: t) = true).
    { simpl. simpl in Hv. destruct (digit_of h) as [d|]; [|discriminate].
      destruct (d <? 16)%N; [|discriminate].
      destruct X as [->| ->]; reflexivity. }
    rewrite H. reflexivity.
  - subst base. simpl app.
    destruct (has_hex_prefix ("0"%char :: ds)) eqn:H; [|reflexivity]. exfalso.
    destruct ds as [|x [|h t]]; try discriminate. simpl in H.
    apply andb_prop in H. destruct H as (Hx & _).
    apply orb_prop in Hx. destruct Hx as [Hx|Hx]; apply Ascii.eqb_eq in Hx; subst x;
      vm_compute in Hv; discriminate.
  - subst base. simpl app.
    assert (H : has_hex_prefix (c :: ds) = false).
    { destruct ds as [|x [|h t]]; try reflexivity. simpl.
      destruct (Ascii.eqb_spec c "0"%char); [congruence|reflexivity]. }
    rewrite H. simpl. destruct (Ascii.eqb_spec c "0"%char); [congruence|reflexivity].
Qed.

Lemma base_of_range : forall base prefix ds b, base_of base prefix ds b ->
  ((base <? 0) || (base =? 1) || (36 <? base))%Z = false.
Proof.
  intros base prefix ds b H.
  assert (G : (0 <= base <= 36 /\ base <> 1)%Z) by (destruct H; intuition; subst; try lia; discriminate).
  destruct (Z.ltb_spec base 0), (Z.eqb_spec base 1), (Z.ltb_spec 36 base); try lia; reflexivity.
Qed.

(** The first character of prefix and digits is a digit. *)
Lemma head_digit : forall base prefix ds b n, base_of base prefix ds b -> number b ds n ->
  exists c t d, prefix ++ ds = c :: t /\ digit_of c = Some d.
Proof.
  intros base prefix ds b n Hb Hn. apply number_value in Hn. destruct Hn as (Hne & Hv).
  destruct Hb as [ds B|x ds B X|ds B|c ds B C].
  - destruct ds as [|c t]; [congruence|]. simpl in Hv.
    destruct (digit_of c) as [d|] eqn:E; [|discriminate]. exists c, t, d. auto.
  - exists "0"%char, (x :: ds), 0%N. auto.
  - exists "0"%char, ds, 0%N. auto.
  - simpl in Hv. destruct (digit_of c) as [d|] eqn:E; [|discriminate]. exists c, ds, d. auto.
Qed.

Lemma scan_spec : forall s base neg n,
  scan_integer s base = Some (neg, n, []) <-> integer_text base s neg n.
Proof.
  intros s base neg n. unfold scan_integer. split.
  - destruct ((base <? 0) || (base =? 1) || (36 <? base))%Z eqn:B; [discriminate|].
    apply orb_false_elim in B. destruct B as (B & B3). apply orb_false_elim in B.
    destruct B as (B1 & B2). apply Z.ltb_ge in B1, B3. apply Z.eqb_neq in B2.
    destruct (skip_spaces_spec s) as (ws & Es & Hws).
    destruct (read_sign (skip_spaces s)) as (neg', s1) eqn:Esg.
    destruct (read_base base s1) as (b, s2) eqn:Eb.
    destruct (read_digits b 0 false s2) as ((n', any), rest) eqn:Ed.
    destruct any; [|discriminate]. intros E. injection E as -> -> ->.
    apply read_digits_all in Ed. destruct Ed as (Hv & Hne). simpl in Hne.
    assert (N2 : s2 <> []) by (destruct s2; [discriminate|congruence]).
    apply read_sign_spec in Esg. destruct Esg as (sg & Eg & Hsg).
    apply read_base_spec in Eb; [|lia|exact B2|exact N2].
    destruct Eb as (prefix & Ep & Hb).
    exists ws, sg, prefix, s2, b. rewrite <- Ep, <- Eg. split; [exact Es|].
    split; [exact Hws|]. split; [exact Hsg|]. split; [exact Hb|].
    apply number_value. auto.
  - intros (ws & sg & prefix & ds & b & -> & Hws & Hsg & Hb & Hn).
    rewrite (base_of_range _ _ _ _ Hb). rewrite skip_spaces_app by exact Hws.
    destruct (head_digit _ _ _ _ _ Hb Hn) as (c & t & d & Ec & Hd).
    destruct (digit_not_special _ _ Hd) as (D1 & D2 & D3).
    assert (R : read_sign (skip_spaces (sg ++ prefix ++ ds)) = (neg, prefix ++ ds)).
    { rewrite Ec. destruct Hsg; simpl.
      - rewrite D1. simpl. destruct (Ascii.eqb_spec c "-"%char); [congruence|].
        destruct (Ascii.eqb_spec c "+"%char); [congruence|]. reflexivity.
      - reflexivity.
      - reflexivity. }
    rewrite R. rewrite (read_base_back _ _ _ _ _ Hb Hn).
    apply number_value in Hn. destruct Hn as (Hne & Hv).
    assert (E : read_digits b 0 false ds = (n, true, [])).
    { apply read_digits_all. split; [exact Hv|]. destruct ds; [congruence|reflexivity]. }
    rewrite E. reflexivity.
Qed.

Lemma integer_text_nonempty : forall base s neg n, integer_text base s neg n ->
  is_empty s = false.
Proof.
  intros base s neg n (ws & sg & prefix & ds & b & -> & _ & _ & Hb & Hn).
  apply number_value in Hn. destruct Hn as (Hn & _). apply is_empty_false. intros E.
  apply app_eq_nil in E. destruct E as (_ & E). apply app_eq_nil in E. destruct E as (_ & E).
  apply app_eq_nil in E. tauto.
Qed.

Lemma integer_text_unique : forall base s neg n neg' n',
  integer_text base s neg n -> integer_text base s neg' n' -> neg = neg' /\ n = n'.
Proof.
  intros base s neg n neg' n' H H'. apply scan_spec in H, H'. rewrite H in H'.
  injection H' as -> ->. auto.
Qed.

Lemma parse_long_spec : forall s base v,
  parse_long s base = Some v <->
  exists neg n, integer_text base s neg n /\ v = signed neg n /\
    (- 2 ^ 63 <= v < 2 ^ 63)%Z.
Proof.
  intros s base v. unfold parse_long, parse_integer_impl, strtol. split.
  - destruct (is_empty s); [discriminate|].
    destruct (scan_integer s base) as [((neg, n), rest)|] eqn:E; [|discriminate].
    set (w := if neg then (- Z.of_N n)%Z else Z.of_N n).
    destruct (Z.ltb_spec w LONG_MIN); [discriminate|].
    destruct (Z.ltb_spec LONG_MAX w); [discriminate|].
    destruct rest; [|discriminate]. intros X. injection X as <-.
    exists neg, n. split; [apply scan_spec; exact E|]. split; [reflexivity|].
    unfold LONG_MIN, LONG_MAX in *. lia.
  - intros (neg & n & H & Ev & R). rewrite (integer_text_nonempty _ _ _ _ H).
    apply scan_spec in H. rewrite H. fold (signed neg n). rewrite <- Ev.
    destruct (Z.ltb_spec v LONG_MIN); [unfold LONG_MIN in *; lia|].
    destruct (Z.ltb_spec LONG_MAX v); [unfold LONG_MAX in *; lia|]. reflexivity.
Qed.

Lemma parse_int_spec : forall s base v,
  parse_int s base = Some v <->
  exists neg n, integer_text base s neg n /\ v = signed neg n /\
    (- 2 ^ 31 <= v < 2 ^ 31)%Z.
Proof.
  intros s base v. unfold parse_int. fold (parse_long s base). split.
  - destruct (parse_long s base) as [w|] eqn:E; [|discriminate].
    destruct (Z.ltb_spec w INT_MIN); [discriminate|].
    destruct (Z.ltb_spec INT_MAX w); [discriminate|].
    intros X. injection X as <-. apply parse_long_spec in E.
    destruct E as (neg & n & H1 & Ev & _). exists neg, n. split; [exact H1|].
    split; [exact Ev|]. unfold INT_MIN, INT_MAX in *. lia.
  - intros (neg & n & H & Ev & R).
    assert (E : parse_long s base = Some v).
    { apply parse_long_spec. exists neg, n. split; [exact H|]. split; [exact Ev|]. lia. }
    rewrite E. destruct (Z.ltb_spec v INT_MIN); [unfold INT_MIN in *; lia|].
    destruct (Z.ltb_spec INT_MAX v); [unfold INT_MAX in *; lia|]. reflexivity.
Qed.

Lemma parse_ulong_spec : forall s base v,
  parse_ulong s base = Some v <->
  exists neg n, integer_text base s neg n /\ (Z.of_N n < 2 ^ 64)%Z /\
    v = (signed neg n mod 2 ^ 64)%Z.
Proof.
  intros s base v. unfold parse_ulong, parse_integer_impl, strtoul.
  change (ULONG_MAX + 1)%Z with (2 ^ 64)%Z. split.
  - destruct (is_empty s); [discriminate|].
    destruct (scan_integer s base) as [((neg, n), rest)|] eqn:E; [|discriminate].
    destruct (Z.ltb_spec ULONG_MAX (Z.of_N n)) as [H|H]; [discriminate|].
    destruct rest; [|discriminate]. intros X. injection X as <-.
    exists neg, n. split; [apply scan_spec; exact E|].
    assert (L : (Z.of_N n < 2 ^ 64)%Z) by (unfold ULONG_MAX in H; lia).
    split; [exact L|]. destruct neg; [reflexivity|]. simpl. symmetry. apply Z.mod_small. lia.
  - intros (neg & n & H & L & ->). rewrite (integer_text_nonempty _ _ _ _ H).
    apply scan_spec in H. rewrite H.
    destruct (Z.ltb_spec ULONG_MAX (Z.of_N n)); [unfold ULONG_MAX in *; lia|].
    destruct neg; [reflexivity|]. simpl signed. rewrite Z.mod_small by lia. reflexivity.
Qed.

Lemma parse_uint_spec : forall s base v,
  parse_uint s base = Some v <->
  exists neg n, integer_text base s neg n /\ (Z.of_N n < 2 ^ 64)%Z /\
    v = (signed neg n mod 2 ^ 64)%Z /\ (v < 2 ^ 32)%Z.
Proof.
  intros s base v. unfold parse_uint. fold (parse_ulong s base). split.
  - destruct (parse_ulong s base) as [w|] eqn:E; [|discriminate].
    destruct (Z.ltb_spec UINT_MAX w); [discriminate|].
    intros X. injection X as <-. apply parse_ulong_spec in E.
    destruct E as (neg & n & H1 & L & Ev). exists neg, n. split; [exact H1|].
    split; [exact L|]. split; [exact Ev|]. unfold UINT_MAX in *. lia.
  - intros (neg & n & H & L & Ev & R).
    assert (E : parse_ulong s base = Some v) by (apply parse_ulong_spec; eauto).
    rewrite E. destruct (Z.ltb_spec UINT_MAX v); [unfold UINT_MAX in *; lia|]. reflexivity.
Qed.

(* ------------------------------------------------------------------------ *)
(** ** Printing *)

Lemma digit_char_spec : forall d, (d < 10)%N -> digit_of (digit_char d) = Some d.
Proof.
  intros d H. assert (E : d = N.of_nat (N.to_nat d)) by lia. rewrite E.
  assert (L : N.to_nat d < 10) by lia. remember (N.to_nat d) as k. clear - L.
  do 10 (destruct k as [|k]; [reflexivity|]). lia.
Qed.

Lemma to_digits_app : forall fuel n acc, to_digits fuel n acc = to_digits fuel n [] ++ acc.
Proof.
  induction fuel as [|f IH]; intros n acc; [reflexivity|]. simpl.
  destruct (n <? 10)%N; [reflexivity|]. rewrite IH. rewrite (IH _ [_]).
  rewrite <- app_assoc. reflexivity.
Qed.

Lemma to_digits_number : forall fuel n, 0 < fuel -> (n < 2 ^ N.of_nat fuel)%N ->
  number 10 (to_digits fuel n []) n.
Proof.
  induction fuel as [|f IH]; intros n F0 F; [lia|]. simpl.
  destruct (N.ltb_spec n 10) as [L|L].
  - assert (E : (n mod 10 = n)%N) by (apply N.mod_small; exact L). rewrite E.
    apply number_one; [|exact L]. apply digit_of_spec, digit_char_spec. exact L.
  - rewrite to_digits_app.
    assert (G : number 10 (to_digits f (n / 10) [] ++ [digit_char (n mod 10)])
                  (n / 10 * 10 + n mod 10)).
    { pose proof (N.mod_lt n 10 ltac:(lia)) as M.
      rewrite Nat2N.inj_succ, N.pow_succ_r' in F.
      remember (2 ^ N.of_nat f)%N as P eqn:EP.
      pose proof (N.div_mod n 10 ltac:(lia)) as D.
      apply number_more; [apply IH| |exact M].
      - destruct f; [simpl in EP; lia|lia].
      - clear - F D. remember (n / 10)%N as q. remember (n mod 10)%N as m. clear Heqq Heqm. lia.
      - apply digit_of_spec, digit_char_spec. exact M. }
    replace n with (n / 10 * 10 + n mod 10)%N at 3; [exact G|].
    rewrite (N.div_mod n 10) at 3 by lia. rewrite N.mul_comm. reflexivity.
Qed.

Lemma N_to_string_number : forall n, number 10 (N_to_string n) n.
Proof.
  intros n. apply to_digits_number; [lia|]. rewrite Nat2N.inj_succ, N2Nat.id, N.pow_succ_r'.
  pose proof (N.size_gt n). lia.
Qed.

(** A number that is not 0 does not begin with 0. *)
Lemma to_digits_head : forall fuel n, 0 < fuel -> (n < 2 ^ N.of_nat fuel)%N -> (0 < n)%N ->
  exists c t, to_digits fuel n [] = c :: t /\ c <> "0"%char.
Proof.
  induction fuel as [|f IH]; intros n F0 F P; [lia|]. simpl.
  destruct (N.ltb_spec n 10) as [L|L].
  - assert (E : (n mod 10 = n)%N) by (apply N.mod_small; exact L). rewrite E.
    exists (digit_char n), []. split; [reflexivity|]. intros X.
    pose proof (digit_char_spec n L) as Y. rewrite X in Y. vm_compute in Y.
    injection Y as <-. lia.
  - rewrite to_digits_app. rewrite Nat2N.inj_succ, N.pow_succ_r' in F.
    pose proof (N.div_mod n 10 ltac:(lia)) as D. pose proof (N.mod_lt n 10 ltac:(lia)) as M.
    destruct (IH (n / 10)%N) as (c & t & E & Hc).
    + destruct f; [simpl in F; lia|lia].
    + clear - F D. remember (n / 10)%N as q. remember (n mod 10)%N as m.
      remember (2 ^ N.of_nat f)%N as P. clear Heqq Heqm HeqP. lia.
    + clear - L D M. remember (n / 10)%N as q. remember (n mod 10)%N as m.
      clear Heqq Heqm. lia.
    + exists c, (t ++ [digit_char (n mod 10)]). rewrite E. auto.
Qed.

(** The base does not matter for decimal text if it is 10 or found out. *)
Lemma N_to_string_base : forall base n, base = 0%Z \/ base = 10%Z ->
  exists b, base_of base [] (N_to_string n) b /\ number b (N_to_string n) n.
Proof.
  intros base n [-> | ->].
  - destruct (N.eq_dec n 0) as [->|H].
    + exists 8%N. split; [apply base_octal; reflexivity|].
      apply number_value. split; [discriminate|reflexivity].
    + exists 10%N. split; [|apply N_to_string_number].
      destruct (to_digits_head (S (N.to_nat (N.size n))) n) as (c & t & E & Hc).
      * lia.
      * rewrite Nat2N.inj_succ, N2Nat.id, N.pow_succ_r'. pose proof (N.size_gt n). lia.
      * lia.
      * unfold N_to_string. rewrite E. apply base_decimal; [reflexivity|exact Hc].
  - exists 10%N. split; [|apply N_to_string_number]. apply (base_given 10). lia.
Qed.

Lemma Z_to_string_text : forall z base, base = 0%Z \/ base = 10%Z ->
  exists neg n, integer_text base (Z_to_string z) neg n /\ z = signed neg n.
Proof.
  intros z base B. unfold Z_to_string. destruct (Z.ltb_spec z 0).
  - exists true, (Z.to_N (- z)). split; [|simpl; lia].
    destruct (N_to_string_base base (Z.to_N (- z)) B) as (b & Hb & Hn).
    exists [], ($"-"), [], (N_to_string (Z.to_N (- z))), b.
    split; [reflexivity|]. split; [intros c []|]. split; [constructor|]. auto.
  - exists false, (Z.to_N z). split; [|simpl; lia].
    destruct (N_to_string_base base (Z.to_N z) B) as (b & Hb & Hn).
    exists [], [], [], (N_to_string (Z.to_N z)), b.
    split; [reflexivity|]. split; [intros c []|]. split; [constructor|]. auto.
Qed.

(* ------------------------------------------------------------------------ *)
(** ** The conversions of a value *)

Lemma get_integer_spec : forall parse v default base n,
  get_integer parse v default base = Val n <->
  (v = None /\ n = default) \/ exists s, v = Some s /\ parse s base = Some n.
Proof.
  intros parse [s|] d base n; simpl.
  - destruct (parse s base) as [m|] eqn:E.
    + split.
      * intros X. injection X as <-. right. exists s. auto.
      * intros [(X & _)|(s' & X & Y)]; [discriminate|]. injection X as <-. congruence.
    + split; [discriminate|]. intros [(X & _)|(s' & X & Y)]; [discriminate|].
      injection X as <-. congruence.
  - split.
    + intros X. injection X as <-. auto.
    + intros [(_ & ->)|(s & X & _)]; [reflexivity|discriminate].
Qed.

Lemma get_integer_error : forall parse v default base,
  get_integer parse v default base = Exn EParseError <->
  exists s, v = Some s /\ parse s base = None.
Proof.
  intros parse [s|] d base; simpl.
  - destruct (parse s base) as [m|] eqn:E.
    + split; [discriminate|]. intros (s' & X & Y). injection X as <-. congruence.
    + split; [eauto|reflexivity].
  - split; [discriminate|]. intros (s & X & _). discriminate.
Qed.

Lemma get_integers_spec : forall parse vs default base ns, vs <> [] ->
  (get_integers parse vs default base = Val ns <->
   Forall2 (fun s n => parse s base = Some n) vs ns).
Proof.
  intros parse vs d base ns H.
  assert (G : parse_all parse base vs = Val ns <->
              Forall2 (fun s n => parse s base = Some n) vs ns).
  { clear H. revert ns. induction vs as [|v r IH]; intros ns; simpl.
    - split; [intros X; injection X as <-; constructor|]. intros X. inversion X. reflexivity.
    - destruct (parse v base) as [n|] eqn:E.
      + destruct (parse_all parse base r) as [ms|e].
        * split.
          -- intros X. injection X as <-. constructor; [exact E|]. apply IH. reflexivity.
          -- intros X. inversion X as [|? m ? ms' Hm Hr]; subst.
             assert (m = n) as -> by congruence. apply IH in Hr. congruence.
        * split; [discriminate|]. intros X. inversion X as [|? m ? ms' Hm Hr]; subst.
          apply IH in Hr. discriminate.
      + split; [discriminate|]. intros X. inversion X; congruence. }
  destruct vs; [congruence|exact G].
Qed.

Lemma get_integer_some : forall parse s default base n,
  get_integer parse (Some s) default base = Val n <-> parse s base = Some n.
Proof.
  intros. rewrite get_integer_spec. split.
  - intros [(X & _)|(s' & X & Y)]; [discriminate|]. injection X as <-. exact Y.
  - intros E. right. eauto.
Qed.

Lemma as_int_proof : forall s default base n,
  as_int (Some s) default base = Val n <->
  exists neg m, integer_text base s neg m /\ n = signed neg m /\
    (- 2 ^ 31 <= n < 2 ^ 31)%Z.
Proof. intros. unfold as_int. rewrite get_integer_some. apply parse_int_spec. Qed.

Lemma as_long_proof : forall s default base n,
  as_long (Some s) default base = Val n <->
  exists neg m, integer_text base s neg m /\ n = signed neg m /\
    (- 2 ^ 63 <= n < 2 ^ 63)%Z.
Proof. intros. unfold as_long. rewrite get_integer_some. apply parse_long_spec. Qed.

Lemma as_ulong_proof : forall s default base n,
  as_ulong (Some s) default base = Val n <->
  exists neg m, integer_text base s neg m /\ (Z.of_N m < 2 ^ 64)%Z /\
    n = (signed neg m mod 2 ^ 64)%Z.
Proof. intros. unfold as_ulong. rewrite get_integer_some. apply parse_ulong_spec. Qed.

Lemma as_uint_proof : forall s default base n,
  as_uint (Some s) default base = Val n <->
  exists neg m, integer_text base s neg m /\ (Z.of_N m < 2 ^ 64)%Z /\
    n = (signed neg m mod 2 ^ 64)%Z /\ (n < 2 ^ 32)%Z.
Proof. intros. unfold as_uint. rewrite get_integer_some. apply parse_uint_spec. Qed.

Lemma as_int_total_proof : forall default base,
  as_int None default base = Val default /\
  forall s, (exists n, as_int (Some s) default base = Val n) \/
            as_int (Some s) default base = Exn EParseError.
Proof.
  intros d base. split; [reflexivity|]. intros s. unfold as_int, get_integer.
  destruct (parse_int s base) as [n|]; [left; eauto|right; reflexivity].
Qed.

Lemma as_ints_proof : forall vs default base ns, vs <> [] ->
  (get_integers parse_int vs default base = Val ns <->
   Forall2 (fun s n => exists neg m, integer_text base s neg m /\ n = signed neg m /\
              (- 2 ^ 31 <= n < 2 ^ 31)%Z) vs ns).
Proof.
  intros vs d base ns H. rewrite get_integers_spec by exact H.
  split; (induction 1 as [|x y l l' E F IH]; constructor; [apply parse_int_spec; exact E|];
    destruct l; [inversion F; constructor|apply IH; discriminate]).
Qed.

Lemma as_uint_non_negative_proof : forall s default base m n, integer_text base s false m ->
  (as_uint (Some s) default base = Val n <-> n = Z.of_N m /\ (n < 2 ^ 32)%Z) /\
  (as_ulong (Some s) default base = Val n <-> n = Z.of_N m /\ (n < 2 ^ 64)%Z).
Proof.
  intros s d base m n H. rewrite as_uint_proof, as_ulong_proof. split; split.
  - intros (neg & m' & H' & L & Ev & R).
    destruct (integer_text_unique _ _ _ _ _ _ H H') as (<- & <-). simpl in Ev.
    rewrite Z.mod_small in Ev by lia. auto.
  - intros (Ev & R). exists false, m. simpl. rewrite Z.mod_small by lia.
    repeat split; auto; lia.
  - intros (neg & m' & H' & L & Ev).
    destruct (integer_text_unique _ _ _ _ _ _ H H') as (<- & <-). simpl in Ev.
    rewrite Z.mod_small in Ev by lia. split; lia.
  - intros (Ev & R). exists false, m. simpl. rewrite Z.mod_small by lia.
    repeat split; auto; lia.
Qed.

Lemma as_uint_range_proof : forall s default base n,
  (as_uint (Some s) default base = Val n -> (0 <= n < 2 ^ 32)%Z) /\
  (as_ulong (Some s) default base = Val n -> (0 <= n < 2 ^ 64)%Z).
Proof.
  intros s d base n. rewrite as_uint_proof, as_ulong_proof. split.
  - intros (neg & m & _ & _ & -> & R). split; [|exact R]. apply Z.mod_pos_bound. lia.
  - intros (neg & m & _ & _ & ->). apply Z.mod_pos_bound. lia.
Qed.

Lemma negative_refuted_proof : exists s1 s2 n1 n2,
  integer_text 10 s1 true 1 /\ as_ulong (Some s1) 0 10 = Val n1 /\
  integer_text 10 s2 true 18446744073709551615 /\ as_uint (Some s2) 0 10 = Val n2 /\
  n1 = (2 ^ 64 - 1)%Z /\ n2 = 1%Z.
Proof.
  exists ($"-1"), ($"-18446744073709551615"), (2 ^ 64 - 1)%Z, 1%Z.
  rewrite <- !scan_spec. repeat split; reflexivity.
Qed.

Lemma round_trip_proof : forall n base, base = 0%Z \/ base = 10%Z ->
  ((- 2 ^ 31 <= n < 2 ^ 31)%Z -> forall d, as_int (Some (Z_to_string n)) d base = Val n) /\
  ((- 2 ^ 63 <= n < 2 ^ 63)%Z -> forall d, as_llong (Some (Z_to_string n)) d base = Val n) /\
  ((0 <= n < 2 ^ 32)%Z -> forall d, as_uint (Some (Z_to_string n)) d base = Val n) /\
  ((0 <= n < 2 ^ 64)%Z -> forall d, as_ullong (Some (Z_to_string n)) d base = Val n).
Proof.
  intros n base B. destruct (Z_to_string_text n base B) as (neg & m & H & E).
  split; [|split; [|split]]; intros R d.
  - apply as_int_proof. eauto.
  - apply (as_long_proof _ d). eauto.
  - apply as_uint_proof. exists neg, m. split; [exact H|]. rewrite <- E.
    rewrite Z.mod_small by lia. repeat split; try lia. unfold signed in E. destruct neg; lia.
  - apply (as_ulong_proof _ d). exists neg, m. split; [exact H|]. rewrite <- E.
    rewrite Z.mod_small by lia. repeat split; try lia. unfold signed in E. destruct neg; lia.
Qed.
