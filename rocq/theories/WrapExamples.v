(** Cases that meet the hypotheses of C78, and a case that does not. *)
From Verif Require Import Base BaseProofs MStrings MText SStrings SText SFormat SWrap SplitProofs RuleProofs PlaceProofs TextApi
  LayoutProofs2 WrapProofs3 WrapProofs4.
Open Scope nat_scope.

Definition good_wordb (s : str) : bool :=
  negb (is_empty s) && forallb (fun c => negb (is_white c) && (nat_of_ascii c <=? 127)) s.

Lemma good_wordb_ok : forall s, good_wordb s = true -> good_word s.
Proof.
  intros s H. apply andb_true_iff in H. destruct H as (A & B). rewrite forallb_forall in B. split; [destruct s; [discriminate|congruence]|].
  split.
  - intros c Hc. specialize (B c Hc). apply andb_true_iff in B. destruct B as (B & _). apply negb_true_iff. exact B.
  - exists (length s). apply ascii_utf8. apply forallb_forall. intros c Hc. specialize (B c Hc). apply andb_true_iff in B. tauto.
Qed.

Lemma not_marker : forall s, is_list_marker s = false -> ~ is_marker s.
Proof. intros s H X. apply WrapProofs2.marker_conv in X. congruence. Qed.

Definition ex_lines : list text_line :=
  [Line (Some (Spaces 1)) (Some ($"-", Spaces 1)) ($"The") [(Spaces 1, $"format,"); (Spaces 1, $"of"); (Spaces 1, $"options")];
   Line None None ($"abcdefghijklmnopq") []].

Ltac solve_more := intros g w H; repeat (destruct H as [H|H]; [injection H as <- <-; split; [simpl; lia|apply good_wordb_ok; reflexivity]|]); destruct H.

Lemma C78_text_example_proof :
  (forall l, In l ex_lines -> good_line l) /\
  unix ($" - The format, of options" ++ [c_cr; c_lf] ++ $"abcdefghijklmnopq") = text_of ex_lines /\
  exists f f1 f2, text_formatter 14 [$"for mat"] = TOk f /\ run_ops [OpLines ($"x"); OpNewline] f = TOk f1 /\
    run_ops [OpPush (Some 2); OpWords ($" - The format, of options" ++ [c_cr; c_lf] ++ $"abcdefghijklmnopq")] f1 = TOk f2 /\
    lines_of (shown f2) = [$"x"; $"   - The for-"; $"     mat, of"; $"     options"; $"  abcdefghijk-"; $"  lmnopq"].
Proof.
  split; [|split; [reflexivity|]].
  - intros l [<-|[<-|[]]].
    + split; [simpl; lia|]. split; [split; [left; reflexivity|simpl; lia]|]. split; [apply good_wordb_ok; reflexivity|solve_more].
    + split; [exact I|]. split; [apply not_marker; reflexivity|]. split; [apply good_wordb_ok; reflexivity|solve_more].
  - do 3 eexists. split; [vm_compute; reflexivity|]. split; [vm_compute; reflexivity|]. split; vm_compute; reflexivity.
Qed.

Definition ex_beside : list text_line :=
  [Line None None ($"Some") [(Spaces 1, $"text")];
   Line None (Some ($"1.", Spaces 1)) ($"and") [(Spaces 1, $"more")]].

Lemma C78_beside_example_proof :
  good_beside ex_beside /\ unix ($"Some text" ++ [c_lf] ++ $"1. and more") = text_of ex_beside /\
  exists f f1 f2, text_formatter 16 [] = TOk f /\ run_ops ([OpPush (Some 2)] ++ [OpWords ($"-f")]) f = TOk f1 /\
    shown f1 = [] ++ $"  -f" /\ utf8_text ($"  -f") 4 /\
    run_ops ([] ++ [OpPush (Some 8); OpWords ($"Some text" ++ [c_lf] ++ $"1. and more")]) f1 = TOk f2 /\
    lines_of (shown f2) = [$"  -f    Some"; $"        text"; $"        1. and"; $"           more"].
Proof.
  split; [|split; [reflexivity|]].
  - split; [apply good_wordb_ok; reflexivity|]. split; [solve_more|]. intros l [<-|[]].
    split; [exact I|]. split; [split; [apply marker_ok; reflexivity|simpl; lia]|]. split; [apply good_wordb_ok; reflexivity|solve_more].
  - do 3 eexists. split; [vm_compute; reflexivity|]. split; [vm_compute; reflexivity|]. split; [reflexivity|].
    split; [apply (ascii_utf8 ($"  -f")); reflexivity|]. split; vm_compute; reflexivity.
Qed.

Lemma accepted_rules : forall width rules f, text_formatter width rules = TOk f -> forall r, In r rules -> ~ bad_rule r.
Proof. intros width rules f E. apply (C52_formatter_proof width rules). eauto. Qed.

Lemma C78_determined_proof : forall width rules f n ls out out', trimmed_rules rules -> text_formatter width rules = TOk f ->
  put_text rules width n ls out -> put_text rules width n ls out' -> out = out'.
Proof.
  intros width rules f n ls out out' HT E P P'.
  exact (put_text_unique rules width HT (accepted_rules _ _ _ E) n ls out P out' P').
Qed.

Lemma C78_beside_determined_proof : forall width rules f n col gap ls out out', trimmed_rules rules ->
  text_formatter width rules = TOk f ->
  put_beside rules width n col gap ls out -> put_beside rules width n col gap ls out' -> out = out'.
Proof.
  intros width rules f n col gap ls out out' HT E P P'.
  exact (put_beside_unique rules width HT (accepted_rules _ _ _ E) n col gap ls out P out' P').
Qed.

Lemma short_ascii : forall s room, good_wordb s = true -> length s <= room -> short_word [] room s (length s).
Proof.
  intros s room H L. destruct (good_wordb_ok s H) as (A & B & _). split; [exact A|]. split; [exact B|]. split; [|split; [exact L|intros r []]].
  apply ascii_utf8. apply andb_true_iff in H. destruct H as (_ & H). rewrite forallb_forall in H. apply forallb_forall.
  intros c Hc. specialize (H c Hc). apply andb_true_iff in H. tauto.
Qed.

Lemma C78_paragraph_example_proof :
  let l := [(1, $"words", 5); (2, $"of", 2); (1, $"text", 4); (1, $"here", 4)] in
  short_word [] 10 ($"Some") 4 /\ ~ is_marker ($"Some") /\
  (forall g w m, In (g, w, m) l -> 0 < g /\ short_word [] 10 w m) /\
  paragraph ($"Some") l = $"Some words  of text here" /\
  lines_of (blanks 2 ++ $"Some" ++ fill 12 2 6 l) = [$"  Some words"; $"  of text"; $"  here"].
Proof.
  intros l. split; [apply (short_ascii ($"Some")); [reflexivity|simpl; lia]|]. split; [apply not_marker; reflexivity|].
  split; [|split; vm_compute; reflexivity].
  intros g w m H. unfold l in H.
  repeat (destruct H as [H|H]; [injection H as <- <- <-; split; [lia|];
    match goal with |- short_word _ _ ?s _ => apply (short_ascii s); [reflexivity|simpl; lia] end|]). destruct H.
Qed.

Lemma C78_line_ends_proof : forall text text' f, unix text = unix text' -> write_words text f = write_words text' f.
Proof. intros text text' f E. rewrite <- unix_proof, E. apply unix_proof. Qed.

Lemma C78_marker_proof : exists f f1 f2 out, text_formatter 10 [] = TOk f /\
  run_ops [OpWords ($"-"); OpNewline] f = TOk f1 /\ at_line_start (shown f1) /\
  run_ops [OpPush (Some 0); OpWords ($"foo bar baz")] f1 = TOk f2 /\
  put_text [] 10 0 [Line None None ($"foo") [(Spaces 1, $"bar"); (Spaces 1, $"baz")]] out /\
  shown f2 <> shown f1 ++ out /\ lines_of (shown f2) = [$"-"; $"foo bar"; $"    baz"].
Proof.
  do 3 eexists. exists ($"foo bar" ++ [c_lf] ++ $"baz").
  split; [vm_compute; reflexivity|]. split; [vm_compute; reflexivity|]. split; [right; reflexivity|].
  split; [vm_compute; reflexivity|]. split.
  - assert (U : forall s, forallb (fun c => nat_of_ascii c <=? 127) s = true -> utf8_text s (length s)) by exact ascii_utf8.
    assert (NU : forall word before s room, no_rule [] word before s room).
    { intros word before s room w h r (rule & (l1 & l2 & X & _) & _). destruct l1; discriminate. }
    constructor. apply (pl_line [] 10 0 None ($"foo") _ 0 ($"foo") 3 ($" bar" ++ [c_lf] ++ $"baz") 3); [reflexivity| |].
    + apply (put_fits [] 10 0 ($"foo") true 0 0 [] ($"foo") 3); [apply (U ($"foo")); reflexivity|lia].
    + apply (pw_cons [] 10 0 3 (Spaces 1) ($"bar") _ ($" bar") 7 ([c_lf] ++ $"baz") 3).
      * apply (put_fits [] 10 0 ($"bar") false 3 1 [] ($"bar") 3); [apply (U ($"bar")); reflexivity|lia].
      * apply (pw_cons [] 10 0 7 (Spaces 1) ($"baz") _ ([c_lf] ++ $"baz") 3 [] 3); [|constructor].
        apply (put_next [] 10 0 ($"baz") 7 1 [] ($"baz") 3); [apply (U ($"baz")); reflexivity|lia|apply NU|].
        apply (put_fits [] 10 0 ($"baz") true 0 0 [] ($"baz") 3); [apply (U ($"baz")); reflexivity|lia].
  - split; [vm_compute; discriminate|vm_compute; reflexivity].
Qed.
