(** Proofs about help texts (C54): the exact text. *)
From Verif Require Import Base BaseProofs MStrings MData MText MHelp SStrings SText SFormat SHelp StrProofs
  SplitProofs RuleProofs PlaceProofs TextProofs LayoutProofs LayoutProofs2 WidthProofs IndentProofs TextApi
  HelpProofs HelpProofs2 HelpProofs3.
Open Scope nat_scope.

(** ** Words *)

Definition inked (s : str) : Prop := forall c, In c s -> 32 < nat_of_ascii c <= 126.
Definition printable (s : str) : Prop := forall c, In c s -> 32 <= nat_of_ascii c <= 126.

Lemma printable_utf8 : forall s, printable s -> utf8_text s (length s).
Proof.
  intros s H. exists (map (fun c => [c]) s). split; [|split].
  - apply Forall_forall. intros x Hx. apply in_map_iff in Hx. destruct Hx as (c & <- & Hc). constructor.
    specialize (H c Hc). unfold byte_between, nat_of_ascii, u8 in *. lia.
  - clear H. induction s as [|c s IH]; [reflexivity|]. simpl. f_equal. exact IH.
  - rewrite map_length. reflexivity.
Qed.

Lemma printable_count : forall s, printable s -> count_code_points s = length s.
Proof. intros s H. apply utf8_count, printable_utf8, H. Qed.

Lemma space_or_inked : forall c, 32 <= nat_of_ascii c <= 126 -> c = c_space \/ 32 < nat_of_ascii c <= 126.
Proof.
  intros c H. destruct (Nat.eq_dec (nat_of_ascii c) 32) as [E|N0]; [left|right; lia].
  rewrite <- (ascii_nat_embedding c), E. reflexivity.
Qed.

Lemma inked_white : forall c, 32 < nat_of_ascii c <= 126 -> is_white c = false.
Proof.
  intros c H. unfold is_white.
  destruct (Ascii.eqb_spec c c_space) as [->|_]; [cbv in H; lia|].
  destruct (Ascii.eqb_spec c c_tab) as [->|_]; [cbv in H; lia|].
  destruct (Ascii.eqb_spec c c_cr) as [->|_]; [cbv in H; lia|].
  destruct (Ascii.eqb_spec c c_lf) as [->|_]; [cbv in H; lia|]. reflexivity.
Qed.

(** [fmt W m out line cur ind sp st] is a formatter that does not align. *)
Definition fmt (W : nat) (m : splitter) (out line : str) (cur ind sp : nat) (st : list nat) : formatter :=
  mk_fmt (mk_writer out line W cur ind sp) st m NO_ALIGNMENT.

Section Exact.
Variable W : nat.
Variable m : splitter.
Notation fmt := (fmt W m).

Lemma append_exact : forall word out line cur ind sp st, printable word -> word <> [] ->
  Nat.max cur ind + sp + length word <= W ->
  append_word word (fmt out line cur ind sp st) =
  TOk (fmt out (line ++ blanks (Nat.max cur ind + sp - cur) ++ word) (Nat.max cur ind + sp + length word) ind 0 st).
Proof.
  intros word out line cur ind sp st Hp Nw L. unfold append_word. rewrite Nat.add_comm. cbn [Nat.add append_loop].
  unfold write, current_width, fmt. cbn [f_writer w_current w_indent w_spaces w_line_width w_out w_line negb andb].
  rewrite (printable_count _ Hp).
  destruct (Nat.ltb_spec (Nat.max (Nat.max cur ind + sp) W - (Nat.max cur ind + sp)) (length word)); [lia|].
  unfold on_writer. cbn [f_indents f_rules f_state].
  replace (cur + (Nat.max cur ind + sp - cur + length word)) with (Nat.max cur ind + sp + length word) by lia. reflexivity.
Qed.

Lemma token_word : forall word rest, word <> [] -> inked word -> starts_white rest ->
  next_token (word ++ rest) = (TkWord, word, rest).
Proof.
  intros word rest Nw Hi Hr. destruct word as [|c w]; [congruence|].
  assert (Hc : is_white c = false) by (apply inked_white, Hi; left; reflexivity).
  unfold is_white in Hc. apply orb_false_iff in Hc. destruct Hc as (Hc & C4). apply orb_false_iff in Hc.
  destruct Hc as (Hc & C3). apply orb_false_iff in Hc. destruct Hc as (C1 & C2).
  remember (c :: w) as word eqn:Ew.
  assert (E : next_token (word ++ rest) = match find_first_of [c_tab; c_cr; c_lf; c_space] (word ++ rest) with
        | Some n => (TkWord, firstn n (word ++ rest), skipn n (word ++ rest))
        | None => (TkWord, word ++ rest, []) end).
  { rewrite Ew. unfold next_token. cbn [app]. rewrite C2, C3, C4, C1. reflexivity. }
  rewrite E. clear E C1 C2 C3 C4 Ew c w.
  assert (F : find_first_of [c_tab; c_cr; c_lf; c_space] (word ++ rest) =
    match rest with [] => None | _ => Some (length word) end).
  { clear Nw. induction word as [|c w IH].
    - cbn [app length]. destruct Hr as [->|(d & r & -> & Hd)]; [reflexivity|]. cbn [find_first_of].
      apply white_set in Hd. apply existsb_eqb_in in Hd. rewrite Hd. reflexivity.
    - cbn [app length find_first_of].
      assert (X : existsb (Ascii.eqb c) [c_tab; c_cr; c_lf; c_space] = false).
      { destruct (existsb (Ascii.eqb c) [c_tab; c_cr; c_lf; c_space]) eqn:X; [|reflexivity].
        apply existsb_eqb_in, white_set in X. rewrite inked_white in X; [discriminate|]. apply Hi. left. reflexivity. }
      rewrite X, IH by (intros d Hd; apply Hi; right; exact Hd). destruct rest; reflexivity. }
  rewrite F. destruct rest as [|d r]; [rewrite app_nil_r; reflexivity|].
  rewrite firstn_app, Nat.sub_diag, firstn_all, firstn_O, app_nil_r.
  rewrite skipn_app, Nat.sub_diag, skipn_all. reflexivity.
Qed.

Lemma token_blanks : forall k rest, hd "a"%char rest <> c_space ->
  next_token (blanks (S k) ++ rest) = (TkSpace, blanks (S k), rest).
Proof.
  intros k rest Hr.
  assert (X : forall n, find_first_not_of [c_space] (blanks n ++ rest) = match rest with [] => None | _ => Some n end).
  { induction n as [|n IH].
    - cbn [blanks repeat app]. destruct rest as [|d r]; [reflexivity|]. cbn [find_first_not_of existsb hd] in *.
      destruct (Ascii.eqb_spec d c_space); [congruence|]. reflexivity.
    - cbn [blanks repeat app find_first_not_of]. change (existsb (Ascii.eqb c_space) [c_space]) with true. cbn iota.
      change (repeat c_space n) with (blanks n). rewrite IH. destruct rest; reflexivity. }
  assert (Y : forall s, next_token (c_space :: s) = match find_first_not_of [c_space] (c_space :: s) with
      | Some n => (TkSpace, firstn n (c_space :: s), skipn n (c_space :: s)) | None => (TkSpace, c_space :: s, []) end)
    by reflexivity.
  change (blanks (S k) ++ rest) with (c_space :: blanks k ++ rest). rewrite Y.
  change (c_space :: blanks k ++ rest) with (blanks (S k) ++ rest). rewrite X.
  destruct rest as [|d r]; [rewrite app_nil_r; reflexivity|].
  assert (L : length (blanks (S k)) = S k) by apply repeat_length.
  remember (blanks (S k)) as b eqn:Eb. rewrite <- L.
  rewrite firstn_app, Nat.sub_diag, firstn_all, firstn_O, app_nil_r.
  rewrite skipn_app, Nat.sub_diag, skipn_all. reflexivity.
Qed.

Lemma words_loop_fuel : forall n fuel text f, length text <= n -> length text <= fuel ->
  words_loop fuel text f = words_loop (length text) text f.
Proof.
  assert (G : forall n a b text f, length text <= n -> length text <= a -> length text <= b ->
    words_loop a text f = words_loop b text f).
  { induction n as [|n IH]; intros a b text f L La Lb.
    - destruct text; [|simpl in L; lia]. destruct a, b; reflexivity.
    - destruct text as [|c text]; [destruct a, b; reflexivity|].
      destruct a as [|a]; [simpl in La; lia|]. destruct b as [|b]; [simpl in Lb; lia|].
      assert (E : forall k, words_loop (S k) (c :: text) f = let '(kd, token, rest) := next_token (c :: text) in
        tbind (write_token kd token f) (words_loop k rest)) by reflexivity.
      rewrite !E. destruct (next_token (c :: text)) as ((kd & token) & rest) eqn:En.
      assert (Nc : c :: text <> []) by discriminate. destruct (next_token_spec _ _ _ _ Nc En) as (E1 & Nt & _).
      assert (Lr : length rest < length (c :: text)).
      { rewrite E1, app_length. destruct token; [congruence|]. simpl. lia. }
      simpl in Lr, L, La, Lb. destruct (write_token kd token f) as [f1| | |]; cbn [tbind]; auto.
      apply IH; lia. }
  intros n fuel text f L La. apply (G (length text)); lia.
Qed.

Lemma words_step : forall text f k token rest, text <> [] -> next_token text = (k, token, rest) ->
  write_words text f = tbind (write_token k token f) (write_words rest).
Proof.
  intros text f k token rest Ns E. unfold write_words. destruct text as [|c text]; [congruence|].
  change (words_loop (length (c :: text)) (c :: text) f) with (let '(kd, token, rest) := next_token (c :: text) in
        tbind (write_token kd token f) (words_loop (length text) rest)).
  rewrite E. assert (Nc : c :: text <> []) by discriminate. destruct (next_token_spec _ _ _ _ Nc E) as (E1 & Nt & _).
  assert (Lr : length rest <= length text).
  { assert (X : length (c :: text) = length (token ++ rest)) by (rewrite E1; reflexivity). rewrite app_length in X.
    destruct token; [congruence|]. simpl in X. lia. }
  destruct (write_token k token f) as [f1| | |]; cbn [tbind]; auto. apply (words_loop_fuel (length rest)); lia.
Qed.

(** Words without blanks at the beginning, followed by nothing or white space. *)
Lemma words_exact : forall n s rest out line cur ind sp st, length s <= n -> s <> [] -> printable s -> hd c_space s <> c_space ->
  last_char s <> Some c_space -> starts_white rest ->
  (forall a w b, s = a ++ w ++ b -> inked w -> w <> [] -> (a = [] \/ last_char a = Some c_space) ->
     (b = [] \/ hd "a"%char b = c_space) -> is_list_marker w = false) ->
  Nat.max cur ind + sp + length s <= W ->
  write_words (s ++ rest) (fmt out line cur ind sp st) =
  write_words rest (fmt out (line ++ blanks (Nat.max cur ind + sp - cur) ++ s) (Nat.max cur ind + sp + length s) ind 0 st).
Proof.
  induction n as [|n IH]; intros s rest out line cur ind sp st Ln Ns Hp Hh Hl Hr Hm L; [destruct s; [congruence|simpl in Ln; lia]|].
  (* the first word *)
  assert (Hw : exists w r, s = w ++ r /\ w <> [] /\ inked w /\ (r = [] \/ hd "a"%char r = c_space)).
  { clear - Ns Hp Hh. destruct s as [|c s]; [congruence|]. simpl in Hh.
    assert (Hc : 32 < nat_of_ascii c <= 126) by (destruct (space_or_inked c (Hp c (or_introl eq_refl))); [congruence|assumption]).
    assert (G : exists w r, s = w ++ r /\ inked w /\ (r = [] \/ hd "a"%char r = c_space)).
    { assert (Hp' : printable s) by (intros d Hd; apply Hp; right; exact Hd). clear - Hp'.
      induction s as [|d s IH]; [exists [], []; split; [reflexivity|split; [intros x []|left; reflexivity]]|].
      destruct (space_or_inked d (Hp' d (or_introl eq_refl))) as [->|Hd].
      - exists [], (c_space :: s). split; [reflexivity|]. split; [intros x []|right; reflexivity].
      - destruct IH as (w & r & -> & Hw & Hr); [intros x Hx; apply Hp'; right; exact Hx|].
        exists (d :: w), r. split; [reflexivity|]. split; [|exact Hr]. intros x [<-|Hx]; auto. }
    destruct G as (w & r & -> & Hw & Hr). exists (c :: w), r. split; [reflexivity|]. split; [discriminate|]. split; [|exact Hr].
    intros x [<-|Hx]; auto. }
  destruct Hw as (w & r & Es & Nw & Hi & Hrr).
  assert (Hpw : printable w) by (intros c Hc; apply Hp; rewrite Es; apply in_or_app; auto).
  assert (Lw : length s = length w + length r) by (rewrite Es; apply app_length).
  assert (Sw : starts_white (r ++ rest)).
  { destruct r as [|d r]; [exact Hr|]. right. exists d, (r ++ rest). split; [reflexivity|].
    destruct Hrr as [X|X]; [discriminate X|]. simpl in X. subst d. reflexivity. }
  assert (Nsr : s ++ rest <> []) by (destruct s; [congruence|discriminate]).
  assert (Et : next_token (s ++ rest) = (TkWord, w, r ++ rest)) by (rewrite Es, <- app_assoc; apply token_word; assumption).
  rewrite (words_step _ _ _ _ _ Nsr Et). cbn [write_token].
  assert (Eu : update_alignment w (fmt out line cur ind sp st) = fmt out line cur ind sp st).
  { unfold update_alignment. rewrite (Hm [] w r); auto. rewrite andb_false_r. reflexivity. }
  rewrite Eu, append_exact by (try assumption; lia). cbn [tbind].
  destruct r as [|d r].
  - rewrite app_nil_r in Es. subst w. reflexivity.
  - destruct Hrr as [X|X]; [discriminate X|]. simpl in X. subst d.
    (* blanks and the rest *)
    assert (Hb : exists k r', c_space :: r = blanks (S k) ++ r' /\ hd "a"%char r' <> c_space).
    { clear. induction r as [|d r IH]; [exists 0, []; split; [reflexivity|discriminate]|].
      destruct (Ascii.eqb_spec d c_space) as [->|Nd].
      - destruct IH as (k & r' & E & H). exists (S k), r'. split; [|exact H]. cbn [blanks repeat app] in *. rewrite E. reflexivity.
      - exists 0, (d :: r). split; [reflexivity|exact Nd]. }
    destruct Hb as (k & r' & Eb & Hd).
    assert (Nr' : r' <> []).
    { intros ->. rewrite app_nil_r in Eb. apply Hl. rewrite Es, Eb.
      assert (X : blanks (S k) = blanks k ++ [c_space]) by (unfold blanks; rewrite <- repeat_cons; reflexivity).
      rewrite X, app_assoc. apply last_char_app. }
    rewrite Eb, <- app_assoc.
    assert (Hd' : hd "a"%char (r' ++ rest) <> c_space) by (destruct r'; [congruence|exact Hd]).
    assert (Et2 : next_token (blanks (S k) ++ r' ++ rest) = (TkSpace, blanks (S k), r' ++ rest)) by (apply token_blanks; exact Hd').
    assert (Nb : blanks (S k) ++ r' ++ rest <> []) by discriminate.
    rewrite (words_step _ _ _ _ _ Nb Et2). cbn [write_token].
    assert (Lb : length (blanks (S k)) = S k) by apply repeat_length. rewrite Lb.
    set (line1 := line ++ blanks (Nat.max cur ind + sp - cur) ++ w).
    assert (Nl : line1 <> []) by (unfold line1; destruct w; [congruence|]; destruct line, (blanks (Nat.max cur ind + sp - cur)); discriminate).
    assert (Eal : begin_alignment (on_writer (set_spaces (S k)) (fmt out line1 (Nat.max cur ind + sp + length w) ind 0 st)) =
      TOk (fmt out line1 (Nat.max cur ind + sp + length w) ind (S k) st)).
    { unfold begin_alignment, fmt, on_writer, set_spaces, is_line_empty. cbn [f_writer w_line f_state w_out w_line_width w_current w_indent].
      destruct line1; [congruence|]. reflexivity. }
    rewrite Eal. cbn [tbind].
    assert (Ls : length s = length w + S k + length r') by (rewrite Lw, Eb, app_length, Lb; lia).
    rewrite IH; clear IH; auto.
    + replace (Nat.max (Nat.max cur ind + sp + length w) ind + S k - (Nat.max cur ind + sp + length w)) with (S k) by lia.
      replace (Nat.max (Nat.max cur ind + sp + length w) ind + S k + length r') with (Nat.max cur ind + sp + length s) by lia.
      unfold line1. rewrite Es, Eb, <- !app_assoc. reflexivity.
    + lia.
    + intros c Hc. apply Hp. rewrite Es, Eb. apply in_or_app. right. apply in_or_app. auto.
    + destruct r'; [congruence|exact Hd].
    + intros X. apply Hl. rewrite Es, Eb, app_assoc, last_char_app2 by exact Nr'. exact X.
    + intros a x b E Hx Nx Ha Hb. apply (Hm (w ++ blanks (S k) ++ a) x b); auto.
      * rewrite Es, Eb, E, <- !app_assoc. reflexivity.
      * right. destruct Ha as [->|Ha].
        -- rewrite app_nil_r. assert (X : blanks (S k) = blanks k ++ [c_space]) by (unfold blanks; rewrite <- repeat_cons; reflexivity).
           rewrite X, app_assoc. apply last_char_app.
        -- assert (Na : a <> []) by (intros ->; discriminate Ha). rewrite app_assoc, last_char_app2 by exact Na. exact Ha.
    + lia.
Qed.

Lemma marker_complete : forall w, is_list_marker w = true -> is_marker w.
Proof. exact marker_ok. Qed.

Lemma plain_exact : forall s rest out line cur ind sp st, plain s -> starts_white rest -> Nat.max cur ind + sp + length s <= W ->
  write_words (s ++ rest) (fmt out line cur ind sp st) =
  write_words rest (fmt out (line ++ blanks (Nat.max cur ind + sp - cur) ++ s) (Nat.max cur ind + sp + length s) ind 0 st).
Proof.
  intros s rest out line cur ind sp st (Ns & Hp & Hh & Hl & Hm) Hr L. apply (words_exact (length s)); auto.
  intros a w b E Hi Nw Ha Hb. destruct (is_list_marker w) eqn:Em; [|reflexivity]. exfalso. apply Hm. exists a, w, b.
  split; [exact E|]. split; [apply marker_ok, Em|]. split.
  - destruct Ha as [Ha|Ha]; [auto|]. right. exists (firstn (length a - 1) a), c_space. split; [apply last_char_some, Ha|reflexivity].
  - destruct Hb as [Hb|Hb]; [auto|]. right. destruct b as [|d b]; [discriminate Hb|]. simpl in Hb. subst d. exists c_space, b. auto.
Qed.

Lemma plain_words : forall s out line cur ind sp st, plain s -> Nat.max cur ind + sp + length s <= W ->
  write_words s (fmt out line cur ind sp st) =
  TOk (fmt out (line ++ blanks (Nat.max cur ind + sp - cur) ++ s) (Nat.max cur ind + sp + length s) ind 0 st).
Proof.
  intros s out line cur ind sp st Hs L. rewrite <- (app_nil_r s) at 1. rewrite plain_exact by (auto; left; reflexivity). reflexivity.
Qed.

Lemma blank_words : forall out line cur ind sp st, line <> [] ->
  write_words ($" ") (fmt out line cur ind sp st) = TOk (fmt out line cur ind 1 st).
Proof. intros out line cur ind sp st Nl. destruct line; [congruence|]. reflexivity. Qed.

Lemma plain_lines : forall s out line cur ind sp st, plain s -> Nat.max cur ind + sp + length s <= W ->
  write_lines s (fmt out line cur ind sp st) =
  TOk (fmt out (line ++ blanks (Nat.max cur ind + sp - cur) ++ s) (Nat.max cur ind + sp + length s) ind 0 st).
Proof.
  intros s out line cur ind sp st (Ns & Hp & _) L. unfold write_lines. destruct s as [|c s]; [congruence|].
  remember (c :: s) as x eqn:Ex. assert (El : exists n, length x = S n) by (subst; simpl; eauto). destruct El as (n & El).
  rewrite El.
  assert (Nf : find_first_of [c_lf; c_cr] x = None).
  { clear - Hp. induction x as [|d x IH]; [reflexivity|]. cbn [find_first_of].
    assert (Hd : existsb (Ascii.eqb d) [c_lf; c_cr] = false).
    { destruct (existsb (Ascii.eqb d) [c_lf; c_cr]) eqn:X; [|reflexivity]. apply existsb_eqb_in in X.
      specialize (Hp d (or_introl eq_refl)). destruct X as [<-|[<-|[]]]; cbv in Hp; lia. }
    rewrite Hd, IH; [reflexivity|]. intros y Hy. apply Hp. right. exact Hy. }
  assert (E : lines_loop (S n) x (fmt out line cur ind sp st) =
    tbind (next_line x) (fun lr => let (l, rem) := lr in
      tbind (if negb (is_empty l) then append_word l (fmt out line cur ind sp st) else TOk (fmt out line cur ind sp st)) (fun f1 =>
        lines_loop n rem (if negb (is_empty rem) then newline f1 else f1)))) by (rewrite Ex; reflexivity).
  rewrite E. unfold next_line. rewrite Nf. cbn [tbind].
  assert (Ee : is_empty x = false) by (rewrite Ex; reflexivity). rewrite Ee. cbn [negb].
  rewrite append_exact by assumption. cbn [tbind is_empty negb].
  assert (E0 : forall f, lines_loop n [] f = TOk f) by (intros f; destruct n; reflexivity). rewrite E0. cbn [tbind].
  rewrite <- El. destruct (last_char x) as [d|] eqn:Ed; [|reflexivity].
  assert (Hd : In d x) by (apply last_in; exact Ed). specialize (Hp d Hd).
  destruct (Ascii.eqb_spec d c_lf) as [->|_]; [cbv in Hp; lia|].
  destruct (Ascii.eqb_spec d c_cr) as [->|_]; [cbv in Hp; lia|]. reflexivity.
Qed.

Lemma fmt_newline : forall out line cur ind sp st,
  new_line (fmt out line cur ind sp st) = TOk (fmt (out ++ line ++ [c_lf]) [] 0 ind 0 st).
Proof. reflexivity. Qed.

Lemma fmt_push : forall n out line cur ind sp st, n < W ->
  push (Some n) (fmt out line cur ind sp st) = TOk (fmt out line cur n sp (n :: st)).
Proof.
  intros n out line cur ind sp st L. unfold push, push_indentation, fmt, on_writer, set_indents, set_indentation.
  cbn [f_writer w_line_width]. destruct (Nat.leb_spec W n); [lia|]. reflexivity.
Qed.

Lemma fmt_push_none : forall out line cur ind sp st, Nat.max cur ind + sp < W ->
  push None (fmt out line cur ind sp st) = TOk (fmt out line cur (Nat.max cur ind + sp) 0 (Nat.max cur ind + sp :: st)).
Proof.
  intros out line cur ind sp st L. unfold push, push_indentation, fmt, on_writer, set_indents, set_indentation, current_width.
  cbn [f_writer w_line_width set_spaces w_current w_indent w_spaces]. destruct (Nat.leb_spec W (Nat.max cur ind + sp)); [lia|]. reflexivity.
Qed.

Lemma fmt_pop : forall k n out line cur ind sp st, n < W ->
  pop_indentation (fmt out line cur ind sp (k :: n :: st)) = TOk (fmt out line cur n sp (n :: st)).
Proof.
  intros k n out line cur ind sp st L. unfold pop_indentation, fmt, on_writer, set_indents, set_indentation.
  cbn [f_indents f_writer w_line_width]. destruct (Nat.leb_spec W n); [lia|]. reflexivity.
Qed.
End Exact.

(** ** Lines *)

Lemma text_lines_app : forall a b, text_of_lines (a ++ b) = text_of_lines a ++ text_of_lines b.
Proof. intros a b. unfold text_of_lines. rewrite map_app, concat_app. reflexivity. Qed.

Section Prints.
Variable W : nat.
Variable m : splitter.
Notation fmt := (fmt W m).

(** At the beginning of a line. *)
Definition at_start (n : nat) (out : str) (st : list nat) : formatter := fmt out [] 0 n 0 (n :: st).

Definition prints (n : nat) (ls : list str) (k : fstep) : Prop := forall out st,
  k (at_start n out st) = TOk (at_start n (out ++ text_of_lines ls) st).

Lemma prints_skip : forall n, prints n [] skip.
Proof. intros n out st. unfold text_of_lines. cbn [map concat]. rewrite app_nil_r. reflexivity. Qed.

Lemma prints_then : forall n l1 l2 k1 k2, prints n l1 k1 -> prints n l2 k2 -> prints n (l1 ++ l2) (k1 ;> k2).
Proof.
  intros n l1 l2 k1 k2 H1 H2 out st. unfold then_. rewrite H1. cbn [tbind]. rewrite H2, text_lines_app, app_assoc. reflexivity.
Qed.

Lemma prints_for : forall A n (g : A -> fstep) (ls : A -> list str) l, (forall x, In x l -> prints n (ls x) (g x)) ->
  prints n (concat (map ls l)) (for_each g l).
Proof.
  intros A n g ls l. induction l as [|x l IH]; intros H; [apply prints_skip|]. cbn [map concat for_each].
  apply prints_then; [apply H; left; reflexivity|]. apply IH. intros y Hy. apply H. right. exact Hy.
Qed.

Lemma prints_newline : forall n, prints n [[]] new_line.
Proof. intros n out st. reflexivity. Qed.

Definition nls (b : bool) : list str := if b then [[]] else [].
Lemma prints_when_nl : forall n b, prints n (nls b) (when b new_line).
Proof. intros n [|]; [apply prints_newline|apply prints_skip]. Qed.

Lemma prints_words : forall n s, plain s -> n + length s <= W -> prints n [blanks n ++ s] (write_words s ;> new_line).
Proof.
  intros n s Hs L out st. unfold then_, at_start. rewrite plain_words by (auto; lia). cbn [tbind]. rewrite fmt_newline.
  unfold text_of_lines. cbn [map concat]. rewrite app_nil_r. replace (Nat.max 0 n + 0 - 0) with n by lia. reflexivity.
Qed.

Lemma prints_text : forall n s, plain s -> n + length s <= W -> prints n [blanks n ++ s] (write_words s ;> end_line).
Proof.
  intros n s Hs L out st. rewrite <- (prints_words n s Hs L out st). unfold then_, at_start. rewrite plain_words by (auto; lia).
  cbn [tbind]. unfold end_line, is_line_empty, HelpExact.fmt. cbn [f_writer w_line app].
  destruct s as [|c s]; [destruct Hs as (X & _); congruence|]. destruct (blanks (Nat.max 0 n + 0 - 0)); reflexivity.
Qed.

Lemma prints_indented : forall n i ls k, n < W -> i < W -> prints i ls k -> prints n ls (push (Some i) ;> k ;> pop_indentation).
Proof.
  intros n i ls k Ln Li H out st. unfold then_, at_start. rewrite fmt_push by exact Li. cbn [tbind].
  change (fmt out [] 0 i 0 (i :: n :: st)) with (at_start i out (n :: st)). rewrite H. cbn [tbind]. apply fmt_pop. exact Ln.
Qed.

(** ** Usage *)

Lemma word_words : forall w out line cur ind sp st, w <> [] -> inked w -> is_list_marker w = false -> Nat.max cur ind + sp + length w <= W ->
  write_words w (fmt out line cur ind sp st) =
  TOk (fmt out (line ++ blanks (Nat.max cur ind + sp - cur) ++ w) (Nat.max cur ind + sp + length w) ind 0 st).
Proof.
  intros w out line cur ind sp st Nw Hi Hm L.
  assert (Hp : printable w) by (intros c Hc; specialize (Hi c Hc); lia).
  assert (Et : next_token w = (TkWord, w, [])).
  { rewrite <- (app_nil_r w) at 1. apply token_word; [exact Nw|exact Hi|left; reflexivity]. }
  rewrite (words_step _ _ _ _ _ Nw Et). cbn [write_token].
  assert (Eu : update_alignment w (fmt out line cur ind sp st) = fmt out line cur ind sp st).
  { unfold update_alignment. rewrite Hm, andb_false_r. reflexivity. }
  rewrite Eu, append_exact by (try assumption; lia). cbn [tbind]. reflexivity.
Qed.

(** A name with a colon and a blank. *)
Lemma name_colon : forall s out st, plain s -> length s + 2 <= W ->
  write_words (s ++ $": ") (fmt out [] 0 0 0 st) = TOk (fmt out (s ++ $":") (length s + 1) 0 1 st).
Proof.
  intros s out st (Ns & Hp & Hh & Hl & Hm) L.
  assert (Hs : s ++ $": " = (s ++ $":") ++ $" ") by (rewrite <- app_assoc; reflexivity).
  rewrite Hs. rewrite (words_exact W m (length (s ++ $":"))); auto.
  - change (Nat.max 0 0 + 0) with 0. cbn [Nat.sub blanks repeat app Nat.add].
    rewrite blank_words by (destruct s; discriminate). rewrite app_length. reflexivity.
  - destruct s; discriminate.
  - intros c Hc. apply in_app_or in Hc. destruct Hc as [Hc|[<-|[]]]; [apply Hp, Hc|cbv; lia].
  - destruct s; [congruence|exact Hh].
  - change ($":") with [":"%char]. rewrite last_char_app. discriminate.
  - right. exists c_space, []. split; reflexivity.
  - intros a w b E Hi Nw Ha Hb. destruct (is_list_marker w) eqn:Em; [|reflexivity]. exfalso. apply marker_ok in Em.
    destruct b as [|b0 b] using rev_ind.
    + (* the last character is a colon *)
      rewrite app_nil_r in E. assert (X : last_char w = Some ":"%char).
      { assert (Y : last_char (a ++ w) = Some ":"%char) by (rewrite <- E; apply last_char_app). rewrite last_char_app2 in Y by exact Nw. exact Y. }
      destruct Em as [->|[->|(d & -> & _)]]; [discriminate X|discriminate X|]. rewrite last_char_app in X. discriminate X.
    + clear IHb. rewrite !app_assoc in E. apply app_inj_tail in E. destruct E as (E & <-). rewrite <- !app_assoc in E.
      apply Hm. exists a, w, b. split; [exact E|]. split; [exact Em|]. split.
      * destruct Ha as [Ha|Ha]; [auto|]. right. exists (firstn (length a - 1) a), c_space. split; [apply last_char_some, Ha|reflexivity].
      * destruct b as [|d b]; [auto|]. right. exists d, b. split; [reflexivity|]. destruct Hb as [Hb|Hb]; [discriminate Hb|].
        simpl in Hb. subst d. reflexivity.
  - rewrite app_length. simpl. lia.
Qed.

(** [goes_on g x k]: within a line, [k] writes [x] if [g] blanks are due. *)
Definition gap (cur ind sp g : nat) : Prop := Nat.max cur ind + sp = cur + g.

Definition goes_on (g g' : nat) (x : str) (k : fstep) : Prop := forall out line cur ind sp st,
  gap cur ind sp g -> line <> [] -> cur = length line -> length (line ++ x) <= W ->
  exists sp', k (fmt out line cur ind sp st) = TOk (fmt out (line ++ x) (length (line ++ x)) ind sp' st) /\
              gap (length (line ++ x)) ind sp' g'.

Lemma goes_on_skip : forall g, goes_on g g [] skip.
Proof. intros g out line cur ind sp st G Nl E L. exists sp. rewrite app_nil_r. subst cur. split; [reflexivity|exact G]. Qed.

Lemma goes_on_then : forall g1 g2 g3 x1 x2 k1 k2, goes_on g1 g2 x1 k1 -> goes_on g2 g3 x2 k2 -> goes_on g1 g3 (x1 ++ x2) (k1 ;> k2).
Proof.
  intros g1 g2 g3 x1 x2 k1 k2 H1 H2 out line cur ind sp st G Nl E L. rewrite app_assoc in L |- *.
  destruct (H1 out line cur ind sp st G Nl E) as (sp1 & E1 & G1); [rewrite app_length in L; lia|].
  destruct (H2 out (line ++ x1) _ ind sp1 st G1) as (sp2 & E2 & G2); [destruct line; [congruence|discriminate]|reflexivity|exact L|].
  exists sp2. split; [|exact G2]. unfold then_. rewrite E1. cbn [tbind]. exact E2.
Qed.

Lemma goes_on_words : forall g s, plain s -> goes_on g 0 (blanks g ++ s) (write_words s).
Proof.
  intros g s Hs out line cur ind sp st G Nl E L. unfold gap in G. rewrite !app_length in L.
  assert (Lb : length (blanks g) = g) by apply repeat_length. 
  exists 0. rewrite plain_words by (auto; lia). replace (Nat.max cur ind + sp - cur) with g by lia.
  assert (E2 : Nat.max cur ind + sp + length s = length (line ++ blanks g ++ s)) by (rewrite !app_length, Lb; lia).
  rewrite E2. split; [reflexivity|]. unfold gap. rewrite !app_length, Lb. lia.
Qed.

Lemma goes_on_word : forall g w, w <> [] -> inked w -> is_list_marker w = false -> goes_on g 0 (blanks g ++ w) (write_words w).
Proof.
  intros g s Hs Hi Hm out line cur ind sp st G Nl E L. unfold gap in G. rewrite !app_length in L.
  assert (Lb : length (blanks g) = g) by apply repeat_length. 
  exists 0. rewrite word_words by (auto; lia). replace (Nat.max cur ind + sp - cur) with g by lia.
  assert (E2 : Nat.max cur ind + sp + length s = length (line ++ blanks g ++ s)) by (rewrite !app_length, Lb; lia).
  rewrite E2. split; [reflexivity|]. unfold gap. rewrite !app_length, Lb. lia.
Qed.

Lemma goes_on_lines : forall g s, plain s -> goes_on g 0 (blanks g ++ s) (write_lines s).
Proof.
  intros g s Hs out line cur ind sp st G Nl E L. unfold gap in G. rewrite !app_length in L.
  assert (Lb : length (blanks g) = g) by apply repeat_length. 
  exists 0. rewrite plain_lines by (auto; lia). replace (Nat.max cur ind + sp - cur) with g by lia.
  assert (E2 : Nat.max cur ind + sp + length s = length (line ++ blanks g ++ s)) by (rewrite !app_length, Lb; lia).
  rewrite E2. split; [reflexivity|]. unfold gap. rewrite !app_length, Lb. lia.
Qed.

Lemma goes_on_space : goes_on 0 1 [] (write_words ($" ")).
Proof.
  intros out line cur ind sp st G Nl E L. rewrite app_nil_r in *. exists 1. rewrite blank_words by exact Nl. subst cur.
  split; [reflexivity|]. unfold gap in *. lia.
Qed.

Lemma goes_on_item : forall s, plain s -> goes_on 1 1 ($" " ++ s) (write_lines s ;> write_words ($" ")).
Proof.
  intros s Hs. rewrite <- (app_nil_r ($" " ++ s)). apply (goes_on_then 1 0 1); [apply (goes_on_lines 1), Hs|apply goes_on_space].
Qed.

Lemma goes_on_ext : forall g g' x k k', (forall f, k f = k' f) -> goes_on g g' x k' -> goes_on g g' x k.
Proof.
  intros g g' x k k' E H out line cur ind sp st G Nl Ec L. rewrite E. apply H; assumption.
Qed.

Lemma goes_on_items : forall A (v : A -> bool) (label : A -> str) (g : A -> fstep) l,
  (forall x, In x l -> v x = false -> forall f, g x f = TOk f) ->
  (forall x, In x l -> v x = true -> goes_on 1 1 ($" " ++ label x) (g x)) ->
  goes_on 1 1 (concat (map (fun x => $" " ++ label x) (filter v l))) (for_each g l).
Proof.
  intros A v label g l. induction l as [|x l IH]; intros H0 H1; [apply goes_on_skip|]. cbn [for_each filter].
  destruct (v x) eqn:V.
  - cbn [map concat]. apply (goes_on_then 1 1 1); [apply H1; [left; reflexivity|exact V]|].
    apply IH; intros y Hy; [apply H0|apply H1]; right; exact Hy.
  - apply (goes_on_ext 1 1 _ _ (for_each g l)).
    + intros f. unfold then_. rewrite (H0 x); [reflexivity|left; reflexivity|exact V].
    + apply IH; intros y Hy; [apply H0|apply H1]; right; exact Hy.
Qed.

Lemma inked_one : forall c, 32 < nat_of_ascii c <= 126 -> inked [c].
Proof. intros c H x [<-|[]]. exact H. Qed.

(** The names of the sub-commands. *)
Lemma goes_on_names_more : forall l, (forall d, In d l -> vis_usage (c_visibility d) = true -> plain (c_name d)) ->
  goes_on 0 0 (concat (map (fun y => $"|" ++ y) (map c_name (filter (fun d => vis_usage (c_visibility d)) l)))) (brief_commands_loop false l).
Proof.
  induction l as [|d l IH]; intros H; [apply goes_on_skip|]. cbn [brief_commands_loop filter].
  destruct (vis_usage (c_visibility d)) eqn:V; cbn [negb].
  - cbn [map concat when]. rewrite <- app_assoc. apply (goes_on_then 0 0 0).
    + apply (goes_on_word 0); [discriminate|apply inked_one; cbv; lia|reflexivity].
    + apply (goes_on_then 0 0 0); [apply (goes_on_words 0), H; [left; reflexivity|exact V]|].
      apply IH. intros e He. apply H. right. exact He.
  - apply IH. intros e He. apply H. right. exact He.
Qed.

Lemma goes_on_names : forall g l, (forall d, In d l -> vis_usage (c_visibility d) = true -> plain (c_name d)) ->
  let names := map c_name (filter (fun d => vis_usage (c_visibility d)) l) in
  match names with
  | [] => goes_on g g [] (brief_commands_loop true l)
  | _ => goes_on g 0 (blanks g ++ join ($"|") names) (brief_commands_loop true l)
  end.
Proof.
  intros g. induction l as [|d l IH]; intros H; cbv zeta in *; [apply goes_on_skip|]. cbn [brief_commands_loop filter].
  destruct (vis_usage (c_visibility d)) eqn:V; cbn [negb].
  - cbn [map when join]. rewrite app_assoc. apply (goes_on_ext _ _ _ _ (write_words (c_name d) ;> brief_commands_loop false l)); [reflexivity|].
    apply (goes_on_then g 0 0); [apply goes_on_words, H; [left; reflexivity|exact V]|].
    apply goes_on_names_more. intros e He. apply H. right. exact He.
  - apply IH. intros e He. apply H. right. exact He.
Qed.

Lemma goes_on_commands : forall c, (forall d, In d (c_commands c) -> vis_usage (c_visibility d) = true -> plain (c_name d)) ->
  exists g', goes_on 1 g' (concat (map (fun y => $" " ++ y) (commands_text c))) (write_brief_commands c).
Proof.
  intros c H. unfold commands_text, write_brief_commands. destruct (c_commands c) as [|d0 l0] eqn:Ec.
  { exists 1. apply goes_on_skip. }
  rewrite <- Ec in H. cbn [is_empty].
  pose proof (goes_on_names 1 (c_commands c) H) as H1. pose proof (goes_on_names 0 (c_commands c) H) as H0. cbv zeta in H0, H1.
  rewrite <- Ec. fold (usage_commands c) in H0, H1.
  assert (Br : goes_on 1 0 ($" " ++ bracketed (join ($"|") (map c_name (usage_commands c))) ++ [])
    (when true (write_words ($"[")) ;> brief_commands_loop true (c_commands c) ;> when true (write_words ($"]")))).
  { rewrite app_nil_r. unfold bracketed. rewrite app_assoc. apply (goes_on_then 1 0 0).
    - apply (goes_on_word 1); [discriminate|apply inked_one; cbv; lia|reflexivity].
    - apply (goes_on_then 0 0 0).
      + destruct (map c_name (usage_commands c)); [exact H0|exact H0].
      + apply (goes_on_word 0); [discriminate|apply inked_one; cbv; lia|reflexivity]. }
  destruct (c_require c) as [[|]|]; cbn [negb].
  - destruct (usage_commands c) as [|e l] eqn:Eu.
    + exists 1. apply (goes_on_ext _ _ _ _ (brief_commands_loop true (c_commands c))); [|exact H1].
      intros f. unfold then_, when, skip. cbn [tbind]. destruct (brief_commands_loop true (c_commands c) f); reflexivity.
    + exists 0. apply (goes_on_ext _ _ _ _ (brief_commands_loop true (c_commands c))).
      * intros f. unfold then_, when, skip. cbn [tbind]. destruct (brief_commands_loop true (c_commands c) f); reflexivity.
      * cbn [map concat]. rewrite app_nil_r. exact H1.
  - exists 0. cbn [map concat]. exact Br.
  - exists 0. cbn [map concat]. exact Br.
Qed.

(** A line that begins with the name. *)
Lemma prints_name : forall name x k g', 2 < W -> plain name -> length name + 3 < W -> 2 + length name + length x <= W -> goes_on 1 g' x k ->
  prints 2 [$"  " ++ name ++ x] (write_words name ;> write_words ($" ") ;> push None ;> k ;> pop_indentation ;> new_line).
Proof.
  intros name x k g' HW Hn L1 L2 H out st. unfold then_, at_start. rewrite plain_words by (auto; lia). cbn [tbind app].
  replace (Nat.max 0 2 + 0 - 0) with 2 by lia. replace (Nat.max 0 2 + 0 + length name) with (2 + length name) by lia.
  assert (Lb : length (blanks 2) = 2) by reflexivity.
  rewrite blank_words by (destruct name; discriminate). cbn [tbind].
  rewrite fmt_push_none by lia. cbn [tbind].
  destruct (H out (blanks 2 ++ name) (2 + length name) (Nat.max (2 + length name) 2 + 1) 0 
    (Nat.max (2 + length name) 2 + 1 :: 2 :: st)) as (sp' & E & G).
  - unfold gap. lia.
  - discriminate.
  - rewrite app_length, Lb. reflexivity.
  - rewrite !app_length, Lb. lia.
  - rewrite E. cbn [tbind]. rewrite fmt_pop by exact HW. cbn [tbind]. rewrite fmt_newline. f_equal.
    unfold text_of_lines. cbn [map concat]. rewrite app_nil_r, <- !app_assoc. reflexivity.
Qed.
Lemma prints_ext : forall n ls k k', (forall f, k f = k' f) -> prints n ls k' -> prints n ls k.
Proof. intros n ls k k' E H out st. rewrite E. apply H. Qed.

Lemma prints_stop_lines : forall c, 2 < W -> plain_usage c -> length (c_full_name c) + 3 < W ->
  fits W (usage_lines c) ->
  prints 2 (map (fun o => $"  " ++ c_full_name c ++ $" " ++ usage_label o) (usage_options true c)) (write_stop_and_help_usage c).
Proof.
  intros c HW (Hn & _ & Ho & _) L F. unfold write_stop_and_help_usage.
  assert (F' : forall o, In o (usage_options true c) -> 2 + length (c_full_name c) + length ($" " ++ usage_label o) <= W).
  { intros o Hin. specialize (F ($"  " ++ c_full_name c ++ $" " ++ usage_label o)). rewrite !app_length in *. cbn [length] in *.
    cut (2 + (length (c_full_name c) + (1 + length (usage_label o))) <= W); [simpl; lia|]. apply F. unfold usage_lines. apply in_or_app. left.
    apply (in_map (fun o => $"  " ++ c_full_name c ++ $" " ++ usage_label o)), Hin. }
  clear F. unfold usage_options in *. induction (c_options c) as [|o l IH]; [apply prints_skip|].
  cbn [filter for_each] in *. rewrite stops_stop.
  destruct (vis_usage (o_visibility o)) eqn:V; cbn [negb orb andb] in *.
  - destruct (stops o) eqn:So; cbn [Bool.eqb negb] in *.
    + cbn [map]. apply (prints_then 2 [_] (map _ _)).
      * pose proof (brief_name o) as Eb. rewrite So in Eb. rewrite Eb.
        apply (prints_ext 2 _ _ (write_words (c_full_name c) ;> write_words ($" ") ;> push None ;> (write_lines (usage_label o) ;> write_words ($" ")) ;>
          pop_indentation ;> new_line)).
        { intros f. apply then_ext. intros f1. apply then_ext. intros f2. apply then_ext. intros f3. symmetry. apply then_assoc. }
        apply (prints_name _ _ _ 1); auto; [apply F'; left; reflexivity|]. apply goes_on_item, Ho; [left; reflexivity|exact V].
      * apply IH; [intros x Hx; apply Ho; right; exact Hx|intros x Hx; apply F'; right; exact Hx].
    + apply (prints_then 2 [] _ skip); [apply prints_skip|]. apply IH; [intros x Hx; apply Ho; right; exact Hx|exact F'].
  - apply (prints_then 2 [] _ skip); [apply prints_skip|]. apply IH; [intros x Hx; apply Ho; right; exact Hx|exact F'].
Qed.

Lemma join_cons : forall (sep x : str) l, join sep (x :: l) = x ++ concat (map (fun y => sep ++ y) l).
Proof. reflexivity. Qed.

Lemma prints_usage : forall c b, 2 < W -> shapes_ok c -> plain_usage c -> length (c_full_name c) + 3 < W -> fits W (usage_lines c) ->
  prints 0 (nls b ++ usage_lines c) (write_brief_usage c b).
Proof.
  intros c b HW (Ha & _) Hp L F. pose proof Hp as (Hn & _ & Ho & Harg & Hc). unfold write_brief_usage.
  apply prints_then; [apply prints_when_nl|].
  destruct (goes_on_commands c Hc) as (g' & Gc).
  set (k := write_stop_and_help_usage c ;> write_words (c_full_name c) ;> write_words ($" ") ;> push None ;>
    (write_brief_regular_options c ;> write_brief_arguments c ;> write_brief_commands c) ;> pop_indentation ;> new_line).
  apply (prints_ext 0 _ _ (push (Some 2) ;> k ;> pop_indentation)).
  { intros f. unfold k. repeat (rewrite ?then_assoc; apply then_ext; intros ?). rewrite ?then_assoc. reflexivity. }
  apply prints_indented; [lia|lia|]. unfold k. apply prints_then; [apply prints_stop_lines; assumption|].
  rewrite join_cons. rewrite !map_app, !concat_app, !map_map.
  apply (prints_name _ _ _ g'); auto.
  - specialize (F ($"  " ++ join ($" ") (c_full_name c :: map usage_label (usage_options false c) ++
                         map argument_label (usage_arguments c) ++ commands_text c))).
    rewrite join_cons, !map_app, !concat_app, !map_map in F.
    set (r := concat (map (fun x => $" " ++ usage_label x) (usage_options false c)) ++ _) in *.
    rewrite !app_length, Nat.add_assoc in F. apply F. unfold usage_lines. apply in_or_app. right. left.
    unfold r. rewrite join_cons, !map_app, !concat_app, !map_map. reflexivity.
  - apply (goes_on_then 1 1 g'); [|apply (goes_on_then 1 1 g'); [|exact Gc]].
    + unfold write_brief_regular_options, usage_options. apply goes_on_items.
      * intros o _ V f. rewrite stops_stop. destruct (vis_usage (o_visibility o)); [|reflexivity].
        destruct (stops o); [reflexivity|discriminate V].
      * intros o Hin V. apply andb_true_iff in V. destruct V as (V & V2). pose proof (brief_name o) as Eb. rewrite stops_stop, V.
        destruct (stops o); [discriminate V2|]. rewrite Eb. cbn [negb orb]. apply goes_on_item, Ho; assumption.
    + unfold write_brief_arguments, usage_arguments. apply goes_on_items.
      * intros a _ V f. rewrite V. reflexivity.
      * intros a Hin V. rewrite V. cbn [negb]. rewrite argument_name by (apply Ha; exact Hin). apply goes_on_item, Harg; assumption.
Qed.

(** ** Blocks *)

Lemma plain_title : plain ($"USAGE").
Proof.
  split; [discriminate|]. split; [|split; [discriminate|split; [discriminate|]]].
  - intros x Hx. cbn in Hx. repeat (destruct Hx as [<-|Hx]; [cbv; lia|]). destruct Hx.
  - intros (a & x & b & E & Hm & _). unfold is_marker in Hm.
    assert (I : forall c, In c x -> 65 <= nat_of_ascii c).
    { intros c Hc. assert (X : In c ($"USAGE")) by (rewrite E; apply in_or_app; right; apply in_or_app; left; exact Hc).
      cbn in X. repeat (destruct X as [<-|X]; [cbv; lia|]). destruct X. }
    destruct Hm as [->|[->|(d & -> & _)]].
    + specialize (I c_dash (or_introl eq_refl)). cbv in I. lia.
    + specialize (I "*"%char (or_introl eq_refl)). cbv in I. lia.
    + specialize (I "."%char ltac:(apply in_or_app; right; left; reflexivity)). cbv in I. lia.
Qed.

Lemma prints_pre : forall n b (l1 l2 : list str) k1 k2, prints n (nls b ++ l1) k1 -> prints n l2 k2 ->
  prints n (nls b ++ l1 ++ l2) (k1 ;> k2).
Proof. intros n b l1 l2 k1 k2 H1 H2. rewrite app_assoc. apply prints_then; assumption. Qed.

Definition pres (b : bool) (l : list (list str)) : list str :=
  match l with
  | [] => []
  | x :: r => nls b ++ x ++ concat (map (fun y => [] :: y) r)
  end.
Lemma pres_false : forall l, pres false l = join [[]] l.
Proof. intros [|x l]; reflexivity. Qed.
Lemma pres_true : forall l, pres true l = concat (map (fun y => [] :: y) l).
Proof. intros [|x l]; reflexivity. Qed.
Lemma pres_app : forall b x y, pres b (x ++ y) = pres b x ++ pres (b || negb (is_empty x)) y.
Proof.
  intros b [|x0 x] y; cbn [app is_empty negb].
  - rewrite orb_false_r. reflexivity.
  - rewrite orb_true_r, pres_true. cbn [pres]. rewrite map_app, concat_app, <- !app_assoc. reflexivity.
Qed.

Lemma prints_custom : forall c id b, (forall s, find_text (c_texts c) id = Some s -> s <> [] -> plain s) ->
  fits W (concat (text_part (find_text (c_texts c) id))) ->
  prints 0 (pres b (text_part (find_text (c_texts c) id))) (write_custom_text c id b).
Proof.
  intros c id b H F. unfold write_custom_text, get_custom_text, text_part in *. destruct (find_text (c_texts c) id) as [[|x s]|];
    cbn [is_empty]; [apply prints_skip| |apply prints_skip].
  cbn [pres map concat]. rewrite app_nil_r. apply prints_then; [apply prints_when_nl|].
  apply (prints_text 0); [apply H; [reflexivity|discriminate]|]. apply F. left. reflexivity.
Qed.

Lemma fits_incl : forall a b, incl a b -> fits W b -> fits W a.
Proof. intros a b I F x Hx. apply F, I, Hx. Qed.

Lemma prints_skip_r : forall n ls k, prints n ls k -> prints n ls (k ;> skip).
Proof. intros n ls k H out st. unfold then_. rewrite H. reflexivity. Qed.

Lemma prints_write_usage : forall c b, 7 < W -> shapes_ok c -> plain_usage c -> length (c_full_name c) + 3 < W ->
  fits W (concat (usage_part c)) -> prints 0 (pres b (usage_part c)) (write_usage c b).
Proof.
  intros c b HW Hs Hp L F. pose proof Hp as (_ & Ht & _). unfold usage_part, write_usage, get_custom_text in *.
  pose proof (prints_custom c TX_USAGE_TITLE b) as P1. unfold text_part in P1.
  assert (Ht1 : forall s, find_text (c_texts c) TX_USAGE_TITLE = Some s -> s <> [] -> plain s) by (intros s; apply Ht; left; reflexivity).
  assert (Ht2 : forall s, find_text (c_texts c) TX_USAGE = Some s -> s <> [] -> plain s) by (intros s; apply Ht; right; left; reflexivity).
  specialize (P1 Ht1).
  destruct (find_text (c_texts c) TX_USAGE) as [[|u0 u]|] eqn:Eu; [apply prints_skip| |];
    cbn [concat pres map] in *; rewrite app_nil_r in *.
  - (* a text *)
    pose proof (prints_custom c TX_USAGE) as P2. rewrite Eu in P2. unfold text_part in P2.
    assert (Hu : forall q, prints 0 (nls q ++ [u0 :: u]) (write_custom_text c TX_USAGE q)).
    { intros q. specialize (P2 q). cbn [pres map concat] in P2. rewrite !app_nil_r in P2. apply P2; [exact Ht2|].
      apply (fits_incl _ (title_lines (find_text (c_texts c) TX_USAGE_TITLE) ($"USAGE") ++ [u0 :: u])); [apply incl_appr, incl_refl|exact F]. }
    destruct (find_text (c_texts c) TX_USAGE_TITLE) as [[|t0 t]|] eqn:Et; cbn [title_lines no_text is_empty andb app] in *.
    + rewrite andb_true_r. apply (prints_then 0 []); [apply P1; intros x []|]. apply (prints_then 0 []); [apply prints_skip|].
      apply prints_skip_r, Hu.
    + rewrite andb_false_r.
      apply (prints_ext 0 _ _ (write_custom_text c TX_USAGE_TITLE b ;> write_custom_text c TX_USAGE false)).
      { intros f. apply then_ext. intros f1. unfold then_, skip. cbn [tbind]. destruct (write_custom_text c TX_USAGE false f1); reflexivity. }
      apply (prints_pre 0 b [t0 :: t] ([u0 :: u])); [|apply (Hu false)]. cbn [pres map concat] in P1. rewrite !app_nil_r in P1. apply P1.
      intros x Hx. apply F. destruct Hx as [<-|[]]. left. reflexivity.
    + apply (prints_then 0 []); [apply P1; intros x []|].
      apply (prints_pre 0 b [$"USAGE"] ([u0 :: u])).
      * apply prints_then; [apply prints_when_nl|]. apply (prints_words 0); [apply plain_title|cbn; lia].
      * apply prints_skip_r, (Hu false).
  - assert (Fu : fits W (usage_lines c)).
    { apply (fits_incl _ (title_lines (find_text (c_texts c) TX_USAGE_TITLE) ($"USAGE") ++ usage_lines c)); [apply incl_appr, incl_refl|exact F]. }
    assert (Hu : forall q, prints 0 (nls q ++ usage_lines c) (write_custom_text c TX_USAGE q ;> write_brief_usage c q)).
    { intros q. apply (prints_then 0 []).
      - unfold write_custom_text, get_custom_text. rewrite Eu. apply prints_skip.
      - apply prints_usage; auto; lia. }
    destruct (find_text (c_texts c) TX_USAGE_TITLE) as [[|t0 t]|] eqn:Et; cbn [title_lines no_text is_empty andb app] in *.
    + rewrite andb_true_r. apply (prints_then 0 []); [apply P1; intros x []|]. apply (prints_then 0 []); [apply prints_skip|]. apply Hu.
    + rewrite andb_false_r.
      apply (prints_ext 0 _ _ (write_custom_text c TX_USAGE_TITLE b ;> write_custom_text c TX_USAGE false ;> write_brief_usage c false)).
      { intros f. apply then_ext. intros f1. unfold then_, skip. cbn [tbind]. reflexivity. }
      apply (prints_pre 0 b [t0 :: t] (usage_lines c)); [|apply (Hu false)]. cbn [pres map concat] in P1. rewrite !app_nil_r in P1. apply P1.
      intros x Hx. apply F. destruct Hx as [<-|[]]. left. reflexivity.
    + apply (prints_then 0 []); [apply P1; intros x []|].
      apply (prints_pre 0 b [$"USAGE"] (usage_lines c)); [|apply (Hu false)].
      apply prints_then; [apply prints_when_nl|]. apply (prints_words 0); [apply plain_title|cbn; lia].
Qed.

(** ** Sections *)

Lemma longest_le : forall (f : entry -> str) l e, In e l -> length (f e) <= longest f l.
Proof.
  intros f l e He. assert (X : longest f l <= longest f l) by lia. unfold longest in X at 1. apply list_max_le in X.
  rewrite Forall_forall in X. apply X. apply in_map_iff. exists e. auto.
Qed.

Lemma prints_item : forall l e, 2 < W -> In e l -> plain (en_label e) -> (en_text e <> [] -> plain (en_text e)) ->
  fits W (entry_lines W l e) ->
  prints 2 (entry_lines W l e) (write_item (if side_by_side W l then label_column l else 0) (en_label e, en_text e)).
Proof.
  intros l e HW He Hl Ht F out st. unfold write_item, entry_lines in *.
  assert (Lb : length (blanks 2) = 2) by reflexivity.
  assert (Ll : 2 + length (en_label e) <= W).
  { destruct (en_text e); [|destruct (side_by_side W l)].
    - specialize (F _ (or_introl eq_refl)). rewrite app_length in F. exact F.
    - specialize (F _ (or_introl eq_refl)). rewrite !app_length in F. cbn [length] in F. simpl in F. lia.
    - specialize (F _ (or_introl eq_refl)). rewrite app_length in F. exact F. }
  unfold then_. unfold at_start at 1. rewrite plain_words by (auto; lia). cbn [tbind app].
  replace (Nat.max 0 2 + 0 - 0) with 2 by lia. replace (Nat.max 0 2 + 0 + length (en_label e)) with (2 + length (en_label e)) by lia.
  destruct (en_text e) as [|t0 t] eqn:Et.
  - cbn [is_empty negb when]. unfold skip. cbn [tbind]. rewrite fmt_newline. unfold text_of_lines. cbn [map concat]. rewrite app_nil_r. reflexivity.
  - cbn [is_empty negb when]. specialize (Ht ltac:(discriminate)). destruct (side_by_side W l) eqn:Es.
    + pose proof (longest_le en_label l e He) as L1. pose proof (longest_le en_text l e He) as L2.
      assert (Ec : (label_column l =? 0) = false) by (apply Nat.eqb_neq; unfold label_column; lia). rewrite Ec. cbn [negb].
      unfold side_by_side in Es. apply andb_true_iff in Es. destruct Es as (_ & Es). apply Nat.leb_le in Es.
      rewrite Et in L2. assert (L3 : 0 < length (t0 :: t)) by (cbn; lia).
      unfold HelpExact.fmt at 1. unfold current_width. cbn [f_writer w_current w_indent w_spaces].
      assert (El : label_column l = longest en_label l + 3) by reflexivity.
      destruct (Nat.leb_spec (label_column l) (Nat.max (2 + length (en_label e)) 2 + 0)); [lia|]. cbn [tbind].
      change (mk_fmt (mk_writer out (blanks 2 ++ en_label e) W (2 + length (en_label e)) 2 0) (2 :: st) m NO_ALIGNMENT)
        with (fmt out (blanks 2 ++ en_label e) (2 + length (en_label e)) 2 0 (2 :: st)).
      rewrite fmt_push by lia. cbn [tbind]. rewrite plain_words by (auto; lia). cbn [tbind]. rewrite fmt_pop by exact HW. cbn [tbind].
      rewrite fmt_newline. unfold text_of_lines. cbn [map concat]. rewrite app_nil_r. unfold at_start. f_equal. f_equal.
      assert (E2 : Nat.max (2 + length (en_label e)) (label_column l) + 0 - (2 + length (en_label e)) =
        label_column l - length ($"  " ++ en_label e)) by (rewrite app_length; change (length ($"  ")) with 2; lia).
      rewrite E2, <- !app_assoc. reflexivity.
    + cbn [Nat.eqb negb]. rewrite fmt_newline. cbn [tbind].
      assert (L8 : 8 + length (t0 :: t) <= W).
      { specialize (F _ (or_intror (or_introl eq_refl))). rewrite app_length in F. exact F. }
      assert (L3 : 0 < length (t0 :: t)) by (cbn; lia).
      rewrite fmt_push by lia. cbn [tbind]. rewrite plain_words by (auto; lia). cbn [tbind]. rewrite fmt_pop by exact HW. cbn [tbind].
      rewrite fmt_newline. unfold text_of_lines. cbn [map concat]. rewrite app_nil_r. unfold at_start. f_equal. f_equal.
      rewrite <- !app_assoc. reflexivity.
Qed.

Lemma prints_sections : forall l ts b, 2 < W -> (forall t, In t ts -> plain t) ->
  (forall e, In e l -> plain (en_label e) /\ (en_text e <> [] -> plain (en_text e))) ->
  fits W (concat (map (fun t => t :: concat (map (entry_lines W l) (with_title t l))) ts)) ->
  prints 0 (pres b (map (fun t => t :: concat (map (entry_lines W l) (with_title t l))) ts))
    (write_sections (if side_by_side W l then label_column l else 0) b
       (map (fun t => (t, map (fun e => (en_label e, en_text e)) (with_title t l))) ts)).
Proof.
  intros l ts. induction ts as [|t ts IH]; intros b HW Ht He F; [apply prints_skip|].
  cbn [map write_sections pres].
  set (k := for_each (write_item (if side_by_side W l then label_column l else 0)) (map (fun e => (en_label e, en_text e)) (with_title t l))).
  apply (prints_ext 0 _ _ (when b new_line ;> (write_words t ;> new_line) ;> (push (Some 2) ;> k ;> pop_indentation) ;>
    write_sections (if side_by_side W l then label_column l else 0) true
       (map (fun t => (t, map (fun e => (en_label e, en_text e)) (with_title t l))) ts))).
  { intros f. repeat (rewrite ?then_assoc; apply then_ext; intros ?). reflexivity. }
  apply prints_then; [apply prints_when_nl|].
  cbn [map concat] in F.
  apply (prints_then 0 [t]).
  - apply (prints_words 0); [apply Ht; left; reflexivity|]. apply F. left. reflexivity.
  - apply prints_then.
    + apply prints_indented; [lia|lia|]. unfold k.
      assert (E : for_each (write_item (if side_by_side W l then label_column l else 0)) (map (fun e => (en_label e, en_text e)) (with_title t l)) =
        for_each (fun e => write_item (if side_by_side W l then label_column l else 0) (en_label e, en_text e)) (with_title t l)).
      { clear. induction (with_title t l) as [|e r IHr]; [reflexivity|]. cbn [map for_each]. rewrite IHr. reflexivity. }
      rewrite E. apply prints_for. intros e Hin.
      assert (Hin' : In e l) by (unfold with_title in Hin; apply filter_In in Hin; tauto).
      destruct (He e Hin') as (H1 & H2). apply prints_item; auto.
      intros x Hx. apply F. right. apply in_or_app. left. apply in_concat. exists (entry_lines W l e). split; [apply in_map, Hin|exact Hx].
    + rewrite <- pres_true. apply IH; auto.
      * intros x Hx. apply Ht. right. exact Hx.
      * intros x Hx. apply F. right. apply in_or_app. right. exact Hx.
Qed.

Lemma prints_argument_sections : forall c b, 2 < W -> shapes_ok c ->
  (forall e, In e (entries c) -> plain (en_title e) /\ plain (en_label e) /\ (en_text e <> [] -> plain (en_text e))) ->
  fits W (concat (section_parts W (entries c))) ->
  prints 0 (pres b (section_parts W (entries c))) (write_argument_sections c b).
Proof.
  intros c b HW Hs He F. unfold write_argument_sections. rewrite (sections_group c Hs).
  destruct (is_empty (group (entries c))) eqn:Ee.
  - apply is_empty_true in Ee. unfold group in Ee. unfold section_parts. destruct (titles (entries c)); [apply prints_skip|discriminate].
  - apply (prints_ext 0 _ _ (fun f => write_sections (get_help_text_label_width (w_line_width (f_writer f)) (group (entries c))) b (group (entries c)) f));
      [reflexivity|].
    intros out st. change (w_line_width (f_writer (at_start 0 out st))) with W. rewrite label_width_eq. unfold group, section_parts.
    apply prints_sections; auto.
    + intros t Ht. unfold titles in Ht. apply (proj1 (distinct_in _ _)) in Ht. apply in_map_iff in Ht. destruct Ht as (e & <- & Hin). apply He, Hin.
    + intros e Hin. apply He, Hin.
Qed.

(** ** Help and error texts *)

Lemma no_text_part : forall t, negb (no_text t) = negb (is_empty (text_part t)).
Proof. intros [[|c s]|]; reflexivity. Qed.
Lemma usage_result_part : forall c, usage_result c = negb (is_empty (usage_part c)).
Proof.
  intros c. unfold usage_result, usage_part, get_custom_text. destruct (find_text (c_texts c) TX_USAGE) as [[|x s]|]; try reflexivity.
  rewrite orb_true_r. reflexivity.
Qed.

Lemma fits_pres : forall b l, fits W (pres b l) -> fits W (concat l).
Proof.
  intros b [|x l] F; [exact F|]. cbn [pres concat] in *. intros y Hy. apply F. apply in_or_app. right.
  apply in_app_or in Hy. apply in_or_app. destruct Hy as [Hy|Hy]; [left; exact Hy|right].
  apply in_concat in Hy. destruct Hy as (z & Hz & Hy). apply in_concat. exists ([] :: z).
  split; [apply (in_map (fun y => [] :: y)), Hz|right; exact Hy].
Qed.

Lemma fits_app : forall a b, fits W (a ++ b) -> fits W a /\ fits W b.
Proof. intros a b F. split; intros x Hx; apply F, in_or_app; auto. Qed.

Lemma prints_help : forall c, 7 < W -> shapes_ok c -> plain_help c -> length (c_full_name c) + 3 < W -> fits W (help_lines W c) ->
  prints 0 (help_lines W c) (
    let newline0 := negb (no_text (get_custom_text c TX_INITIAL_TEXT)) in
    let newline1 := usage_result c || newline0 in
    let about := negb (no_text (get_custom_text c TX_ABOUT)) in
    let help := negb (no_text (get_custom_text c TX_HELP)) in
    let newline2 := about || help || newline1 in
    write_custom_text c TX_INITIAL_TEXT false ;>
    write_usage c newline0 ;>
    write_custom_text c TX_ABOUT newline1 ;>
    when (negb about) (write_custom_text c TX_HELP newline1) ;>
    write_argument_sections c newline2 ;>
    write_custom_text c TX_FINAL_TEXT true).
Proof.
  intros c HW Hs (Hp & Ht & He) L F. cbv zeta. unfold help_lines in *. rewrite <- pres_false, <- pres_true in *.
  rewrite !no_text_part, usage_result_part. unfold get_custom_text.
  apply fits_app in F. destruct F as (F & F5). apply fits_pres in F. apply fits_pres in F5. rewrite !concat_app in F.
  apply fits_app in F. destruct F as (F1 & F). apply fits_app in F. destruct F as (F2 & F). apply fits_app in F. destruct F as (F3 & F4).
  assert (C1 : forall b, prints 0 (pres b (text_part (find_text (c_texts c) TX_INITIAL_TEXT))) (write_custom_text c TX_INITIAL_TEXT b))
    by (intros b; apply prints_custom; [intros s; apply Ht; left; reflexivity|exact F1]).
  assert (C5 : forall b, prints 0 (pres b (text_part (find_text (c_texts c) TX_FINAL_TEXT))) (write_custom_text c TX_FINAL_TEXT b))
    by (intros b; apply prints_custom; [intros s; apply Ht; do 3 right; left; reflexivity|exact F5]).
  set (B1 := text_part (find_text (c_texts c) TX_INITIAL_TEXT)) in *.
  set (B2 := usage_part c) in *. set (B5 := text_part (find_text (c_texts c) TX_FINAL_TEXT)) in *.
  set (A := text_part (find_text (c_texts c) TX_ABOUT)). set (H := text_part (find_text (c_texts c) TX_HELP)).
  assert (Ea : about_part c = match A with [] => H | _ :: _ => A end) by (unfold about_part; fold A H; destruct A; reflexivity).
  rewrite Ea in *. rewrite !pres_app, <- !app_assoc. cbn [orb].
  apply prints_then; [apply C1|].
  apply prints_then; [apply prints_write_usage; assumption|].
  assert (En : negb (is_empty B1) || negb (is_empty B2) = negb (is_empty B2) || negb (is_empty B1)) by apply orb_comm.
  rewrite En. set (n1 := negb (is_empty B2) || negb (is_empty B1)).
  assert (CA : fits W (concat A) -> prints 0 (pres n1 A) (write_custom_text c TX_ABOUT n1))
    by (intros X; apply prints_custom; [intros s; apply Ht; right; left; reflexivity|exact X]).
  assert (CH : fits W (concat H) -> prints 0 (pres n1 H) (write_custom_text c TX_HELP n1))
    by (intros X; apply prints_custom; [intros s; apply Ht; do 2 right; left; reflexivity|exact X]).
  destruct A as [|a A'] eqn:EA; cbn [is_empty negb when orb].
  - apply (prints_then 0 []); [apply CA; intros x []|].
    apply prints_then; [apply CH, F3|].
    rewrite orb_comm. apply prints_then; [apply prints_argument_sections; auto; lia|apply C5].
  - apply prints_then; [apply CA, F3|].
    apply (prints_then 0 []); [apply prints_skip|]. rewrite orb_true_r.
    apply prints_then; [apply prints_argument_sections; auto; lia|apply C5].
Qed.

Lemma prints_error : forall c msg, 7 < W -> shapes_ok c -> plain_usage c -> plain msg -> length (c_full_name c) + 3 < W ->
  fits W (error_lines W c msg) ->
  prints 0 (error_lines W c msg) (
    write_words (c_full_name c ++ $": ") ;> write_words msg ;> new_line ;>
    write_custom_text c TX_ERROR_USAGE false ;>
    match get_custom_text c TX_ERROR_USAGE with
    | Some _ => skip
    | None => write_usage c false
    end).
Proof.
  intros c msg HW Hs Hp Hm L F. unfold error_lines in *.
  set (rest := write_custom_text c TX_ERROR_USAGE false ;>
    match get_custom_text c TX_ERROR_USAGE with Some _ => skip | None => write_usage c false end).
  apply (prints_ext 0 _ _ ((write_words (c_full_name c ++ $": ") ;> write_words msg ;> new_line) ;> rest)).
  { intros f. rewrite !then_assoc. apply then_ext. intros f1. rewrite then_assoc. reflexivity. }
  apply fits_app in F. destruct F as (F1 & F2).
  apply prints_then.
  - specialize (F1 _ (or_introl eq_refl)). rewrite !app_length in F1. cbn [length] in F1.
    intros out st. unfold then_. unfold at_start at 1. destruct Hp as (Hn & _).
    rewrite name_colon by (auto; simpl in F1; lia). cbn [tbind]. rewrite plain_words; [|exact Hm|simpl in F1; lia]. cbn [tbind].
    rewrite fmt_newline. unfold text_of_lines. cbn [map concat]. rewrite app_nil_r. unfold at_start. f_equal. f_equal. f_equal.
    replace (Nat.max (length (c_full_name c) + 1) 0 + 1 - (length (c_full_name c) + 1)) with 1 by lia.
    rewrite <- !app_assoc. reflexivity.
  - unfold rest. pose proof Hp as (_ & Ht & _). unfold get_custom_text.
    pose proof (prints_custom c TX_ERROR_USAGE false) as P.
    assert (Ht1 : forall s, find_text (c_texts c) TX_ERROR_USAGE = Some s -> s <> [] -> plain s) by (intros s; apply Ht; do 2 right; left; reflexivity).
    specialize (P Ht1).
    destruct (find_text (c_texts c) TX_ERROR_USAGE) as [s|].
    + apply prints_skip_r. rewrite pres_false in P. destruct s; apply P, F2.
    + apply (prints_then 0 []); [apply P; intros x []|].
      assert (E : concat (usage_part c) = pres false (usage_part c)).
      { unfold usage_part. destruct (find_text (c_texts c) TX_USAGE) as [[|x s]|]; cbn [concat pres map nls app]; reflexivity. }
      assert (P' : prints 0 (pres false (usage_part c)) (write_usage c false)) by (apply prints_write_usage; assumption).
      rewrite <- E in P'. exact P'.
Qed.
End Prints.

Lemma fmt_start : forall console d, help_ok console d -> exists m,
  help_formatter console d = TOk (at_start (help_width console d) m 0 [] []).
Proof.
  intros console d (Hc & Hw & _ & Hr). unfold help_formatter, help_width in *.
  unfold new_formatter. destruct (Nat.leb_spec console 2); [lia|]. cbn [tbind].
  destruct (proj1 (add_words_proof (d_word_rules d) []) Hr) as (m & Em).
  destruct (d_line_width d =? 0)%N.
  - cbn [tbind f_rules]. rewrite Em. cbn [tbind]. exists m. reflexivity.
  - unfold set_line_width. destruct (Nat.leb_spec (N.to_nat (d_line_width d)) 2); [lia|]. cbn [tbind on_writer f_rules].
    rewrite Em. cbn [tbind]. exists m. reflexivity.
Qed.

Lemma help_exact : forall console d c, help_ok console d -> 7 < help_width console d -> shapes_ok c -> plain_help c ->
  length (c_full_name c) + 3 < help_width console d -> fits (help_width console d) (help_lines (help_width console d) c) ->
  exists f, write_help_text console d c = TOk f /\ w_line (f_writer f) = [] /\
    w_out (f_writer f) = text_of_lines (help_lines (help_width console d) c).
Proof.
  intros console d c Ho HW Hs Hp L F. destruct (fmt_start console d Ho) as (m & Em). unfold write_help_text. rewrite Em. cbn [tbind].
  rewrite (prints_help (help_width console d) m c HW Hs Hp L F). eexists. split; [reflexivity|]. split; reflexivity.
Qed.

Lemma error_exact : forall console d c msg, help_ok console d -> 7 < help_width console d -> shapes_ok c -> plain_usage c -> plain msg ->
  length (c_full_name c) + 3 < help_width console d -> fits (help_width console d) (error_lines (help_width console d) c msg) ->
  exists f, write_error_message console d c msg = TOk f /\ w_line (f_writer f) = [] /\
    w_out (f_writer f) = text_of_lines (error_lines (help_width console d) c msg).
Proof.
  intros console d c msg Ho HW Hs Hp Hm L F. destruct (fmt_start console d Ho) as (m & Em). unfold write_error_message. rewrite Em. cbn [tbind].
  rewrite (prints_error (help_width console d) m c msg HW Hs Hp Hm L F). eexists. split; [reflexivity|]. split; reflexivity.
Qed.
