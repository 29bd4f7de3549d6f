(** Proofs about help texts and error messages as they are written by the API
    (C53-C57). *)
From Verif Require Import Base BaseProofs MStrings MOptIter MData MValues MParser MText MHelp MApi SStrings SDef SText
  SFormat SHelp StrProofs DefProofs FinishProofs SplitProofs RuleProofs PlaceProofs TextProofs LayoutProofs LayoutProofs2
  WidthProofs IndentProofs TextApi HelpProofs HelpProofs2 HelpProofs3 HelpExact.
Open Scope nat_scope.

(** ** Layout *)

Lemma sinv_end : forall glue W b t f, sinv glue W b t f ->
  w_line (f_writer f) = [] /\ complete (w_out (f_writer f)) /\ exists p, layout glue t (w_out (f_writer f)) p.
Proof.
  intros glue W b t f ([(p & [[H1 H2 H3 H4 H5] _ _ _ _ _]) _ _ _ _] & E). split; [exact E|]. split; [exact H3|].
  exists p. rewrite E, app_nil_r in H1. exact H1.
Qed.

Lemma help_layout : forall console d c, help_ok console d -> labels_ok c -> shapes_ok c ->
  let doc := help_doc (help_width console d) c in
  exists f p, write_help_text console d c = TOk f /\ w_line (f_writer f) = [] /\ complete (w_out (f_writer f)) /\
    layout (doc_marker doc) (doc_items doc) (w_out (f_writer f)) p.
Proof.
  intros console d c Ho Hl Hs. cbv zeta. set (W := help_width console d). set (doc := help_doc W c).
  destruct (help_formatter_start (doc_marker doc) console d Ho) as (f0 & E0 & S0). fold W in S0.
  assert (HW : 2 < W) by apply Ho.
  destruct (renders_help (doc_marker doc) W HW c Hl Hs 0 [] f0 S0 (fun x => x)) as (f & E & S1).
  destruct (sinv_end _ _ _ _ _ S1) as (E1 & E2 & p & L). exists f, p. unfold write_help_text. rewrite E0. cbn [tbind].
  split; [exact E|]. auto.
Qed.

Lemma error_layout : forall console d c msg, help_ok console d -> labels_ok c -> shapes_ok c ->
  let doc := error_doc (help_width console d) c msg in
  exists f p, write_error_message console d c msg = TOk f /\ w_line (f_writer f) = [] /\ complete (w_out (f_writer f)) /\
    layout (doc_marker doc) (doc_items doc) (w_out (f_writer f)) p.
Proof.
  intros console d c msg Ho Hl Hs. cbv zeta. set (W := help_width console d). set (doc := error_doc W c msg).
  destruct (help_formatter_start (doc_marker doc) console d Ho) as (f0 & E0 & S0). fold W in S0.
  assert (HW : 2 < W) by apply Ho.
  destruct (renders_error (doc_marker doc) W HW c msg Hl Hs 0 [] f0 S0 (fun x => x)) as (f & E & S1).
  destruct (sinv_end _ _ _ _ _ S1) as (E1 & E2 & p & L). exists f, p. unfold write_error_message. rewrite E0. cbn [tbind].
  split; [exact E|]. auto.
Qed.

(** The characters. *)
Lemma doc_visible : forall doc, concat (map item_visible (doc_items doc)) = visible (doc_text doc).
Proof.
  assert (V : forall a b, visible (a ++ b) = visible a ++ visible b) by (intros a b; apply filter_app).
  induction doc as [|x doc IH]; [reflexivity|]. unfold doc_items, doc_text in *. cbn [map concat].
  rewrite map_app, concat_app, IH, V. f_equal. destruct x; cbn [piece_items piece_text]; try reflexivity.
  - apply (op_visible (OpWords s)).
  - apply (op_visible (OpLines s)).
Qed.

Lemma layout_text : forall glue doc out p, layout glue (doc_items doc) out p -> reflowed (visible (doc_text doc)) out.
Proof. intros glue doc out p L. rewrite <- doc_visible. apply (layout_reflowed _ _ _ _ L). Qed.

(** ** Names in error messages *)

Lemma find_hd : forall A (g : A -> bool) l, find g l = hd_error (filter g l).
Proof. exact find_filter. Qed.

Lemma name_flags_eq : forall flags s, name_flags s flags = s ++ concat (map (fun y => $", " ++ y) flags).
Proof.
  induction flags as [|x l IH]; intros s; cbn [name_flags map concat]; [rewrite app_nil_r; reflexivity|].
  rewrite IH, <- !app_assoc. reflexivity.
Qed.

Lemma get_name_eq : forall c id, get_name c id = item_name c id.
Proof.
  intros c id. unfold get_name, item_name. rewrite !find_hd.
  destruct (filter (fun a => (a_argument_id a =? id)%N) (c_arguments c)) as [|a l]; [|reflexivity].
  cbn [hd_error map app]. destruct (filter (fun o => (o_argument_id o =? id)%N) (c_options c)) as [|o l]; [reflexivity|].
  cbn [hd_error map hd]. destruct (o_flags o) as [|x flags]; [reflexivity|]. apply name_flags_eq.
Qed.

Lemma argument_error_eq : forall console d c msg id, write_argument_error console d c msg id =
  write_error_message console d c (match item_name c id with [] => msg | name => name ++ $": " ++ msg end).
Proof. intros. unfold write_argument_error. rewrite get_name_eq. destruct (item_name c id); reflexivity. Qed.

(** ** Width *)

Section Scripts.

(** What [k] does can be done by a sequence of calls with UTF-8 texts. *)
Definition scripted (k : fstep) : Prop := forall f f1, k f = TOk f1 ->
  exists ops, run_ops ops f = TOk f1 /\ forall o, In o ops -> op_utf8 o.

Lemma run_ops_app : forall a b f, run_ops (a ++ b) f = tbind (run_ops a f) (run_ops b).
Proof.
  induction a as [|x a IH]; intros b f; [reflexivity|]. cbn [app run_ops]. destruct (run_op x f); cbn [tbind]; auto.
Qed.

Lemma scripted_op : forall o, op_utf8 o -> scripted (run_op o).
Proof.
  intros o Ho f f1 E. exists [o]. split; [cbn [run_ops]; rewrite E; reflexivity|]. intros x [<-|[]]. exact Ho.
Qed.
Lemma scripted_skip : scripted skip.
Proof. intros f f1 E. exists []. split; [exact E|]. intros o []. Qed.
Lemma scripted_then : forall a b, scripted a -> scripted b -> scripted (a ;> b).
Proof.
  intros a b Ha Hb f f1 E. unfold then_ in E. destruct (a f) as [f0| | |] eqn:Ea; try discriminate. cbn [tbind] in E.
  destruct (Ha _ _ Ea) as (o1 & R1 & U1). destruct (Hb _ _ E) as (o2 & R2 & U2). exists (o1 ++ o2).
  split; [rewrite run_ops_app, R1; exact R2|]. intros o Ho. apply in_app_or in Ho. destruct Ho; auto.
Qed.
Lemma scripted_when : forall (b : bool) a, scripted a -> scripted (when b a).
Proof. intros [|] a H; [exact H|apply scripted_skip]. Qed.
Lemma scripted_for : forall A (g : A -> fstep) l, (forall x, In x l -> scripted (g x)) -> scripted (for_each g l).
Proof.
  intros A g l. induction l as [|x l IH]; intros H; [apply scripted_skip|]. cbn [for_each].
  apply scripted_then; [apply H; left; reflexivity|]. apply IH. intros y Hy. apply H. right. exact Hy.
Qed.

Lemma utf8_nil : utf8 [].
Proof. exists 0. exists []. repeat split. constructor. Qed.
Lemma utf8_join2 : forall a b, utf8 a -> utf8 b -> utf8 (a ++ b).
Proof. intros a b (n & A) (m & B). exists (n + m). apply utf8_app; assumption. Qed.
Lemma utf8_ascii : forall s, forallb (fun c => nat_of_ascii c <=? 127) s = true -> utf8 s.
Proof.
  induction s as [|c s IH]; intros H; [apply utf8_nil|]. cbn [forallb] in H. apply andb_true_iff in H. destruct H as (H1 & H2).
  apply Nat.leb_le in H1. change (c :: s) with ([c] ++ s). apply utf8_join2; [|apply IH, H2]. exists 1. apply utf8_one.
  unfold byte_between. lia.
Qed.

Lemma scripted_newline : scripted new_line.
Proof. apply (scripted_op OpNewline). exact utf8_nil. Qed.
Lemma scripted_push : forall n, scripted (push n).
Proof. intros n. apply (scripted_op (OpPush n)). exact utf8_nil. Qed.
Lemma scripted_pop : scripted pop_indentation.
Proof. apply (scripted_op OpPop). exact utf8_nil. Qed.
Lemma scripted_words : forall s, utf8 s -> scripted (write_words s).
Proof. intros s H. apply (scripted_op (OpWords s)). exact H. Qed.
Lemma scripted_lines : forall s, utf8 s -> scripted (write_lines s).
Proof. intros s H. apply (scripted_op (OpLines s)). exact H. Qed.
Lemma scripted_end_line : scripted end_line.
Proof.
  intros f f1 E. unfold end_line in E. destruct (is_line_empty (f_writer f)); [apply scripted_skip, E|apply scripted_newline, E].
Qed.

Lemma utf8_space : utf8 ($" ").
Proof. apply utf8_ascii. reflexivity. Qed.

Lemma utf8_joined : forall sep l, utf8 sep -> (forall x, In x l -> utf8 x) -> utf8 (join sep l).
Proof.
  intros sep [|x l] Hs H; [apply utf8_nil|]. cbn [join]. apply utf8_join2; [apply H; left; reflexivity|].
  assert (H' : forall y, In y l -> utf8 y) by (intros y Hy; apply H; right; exact Hy). clear H.
  induction l as [|y l IH]; [apply utf8_nil|]. cbn [map concat]. apply utf8_join2.
  - apply utf8_join2; [exact Hs|apply H'; left; reflexivity].
  - apply IH. intros z Hz. apply H'. right. exact Hz.
Qed.

Lemma utf8_angled : forall s, utf8 s -> utf8 (angled s).
Proof. intros s H. unfold angled. apply utf8_join2; [apply utf8_ascii; reflexivity|]. apply utf8_join2; [exact H|apply utf8_ascii; reflexivity]. Qed.
Lemma utf8_bracketed : forall s, utf8 s -> utf8 (bracketed s).
Proof. intros s H. unfold bracketed. apply utf8_join2; [apply utf8_ascii; reflexivity|]. apply utf8_join2; [exact H|apply utf8_ascii; reflexivity]. Qed.

Lemma utf8_argument : forall a, utf8 (a_name a) -> utf8 (argument_label a).
Proof.
  intros a H. unfold argument_label. destruct (first_is _ _); [exact H|]. apply utf8_joined; [apply utf8_space|].
  intros x Hx. apply in_app_or in Hx. destruct Hx as [Hx|Hx].
  - apply repeat_spec in Hx. subst x. apply utf8_angled, H.
  - destruct (_ =? _)%N; [destruct Hx|]. destruct (_ =? _)%N; destruct Hx as [<-|[]].
    + apply utf8_bracketed, utf8_angled, H.
    + apply utf8_join2; [apply utf8_bracketed, utf8_angled, H|apply utf8_ascii; reflexivity].
Qed.

Lemma utf8_flag : forall a f, utf8 a -> utf8 f -> utf8 (flag_label a f).
Proof.
  intros a f Ha Hf. unfold flag_label. apply utf8_join2; [exact Hf|]. destruct a as [|x a]; [apply utf8_nil|].
  apply utf8_join2; [destruct (ends_equal f); [apply utf8_nil|apply utf8_space]|].
  destruct (first_is _ _); [exact Ha|apply utf8_angled, Ha].
Qed.

Definition utf8_option (o : opt_data) : Prop := utf8 (o_argument o) /\ utf8 (o_help o) /\ utf8 (o_section o) /\
     forall f, In f (o_flags o) -> utf8 f.

Lemma utf8_option_label : forall o, utf8_option o -> utf8 (option_label o).
Proof.
  intros o (H1 & _ & _ & H2). unfold option_label. apply utf8_joined; [apply utf8_ascii; reflexivity|].
  intros x Hx. apply in_map_iff in Hx. destruct Hx as (f & <- & Hf). apply utf8_flag; [exact H1|apply H2, Hf].
Qed.

Lemma utf8_usage_label : forall o, utf8_option o -> utf8 (usage_label o).
Proof.
  intros o (H1 & _ & _ & H2). unfold usage_label.
  assert (X : utf8 (flag_label (o_argument o) (usage_flag o))).
  { apply utf8_flag; [exact H1|]. unfold usage_flag.
    assert (Y : forall l, (forall x, In x l -> utf8 x) -> utf8 (hd [] l)) by (intros [|x l] H; [apply utf8_nil|apply H; left; reflexivity]).
    apply Y. intros x Hx. apply in_app_or in Hx. destruct Hx as [Hx|Hx]; [|apply H2, Hx].
    destruct (stops o); [|destruct Hx]. apply filter_In in Hx. apply H2, Hx. }
  destruct (_ && _); [apply utf8_bracketed, X|exact X].
Qed.

(** The steps of the help writer. *)
Lemma scripted_custom : forall c id b, utf8_command c -> scripted (write_custom_text c id b).
Proof.
  intros c id b (_ & H & _). unfold write_custom_text, get_custom_text. destruct (find_text (c_texts c) id) as [s|] eqn:E; [|apply scripted_skip].
  destruct (is_empty s); [apply scripted_skip|]. apply scripted_then; [apply scripted_when, scripted_newline|].
  apply scripted_then; [apply scripted_words, (H id s E)|apply scripted_end_line].
Qed.

Lemma scripted_ext : forall a b, (forall f, a f = b f) -> scripted b -> scripted a.
Proof. intros a b E H f f1 X. apply H. rewrite <- E. exact X. Qed.

Lemma scripted_stop : forall c, utf8_command c -> scripted (write_stop_and_help_usage c).
Proof.
  intros c (Hn & _ & Ho & _). unfold write_stop_and_help_usage. apply scripted_for. intros o Hin. rewrite stops_stop.
  destruct (vis_usage (o_visibility o)); cbn [negb orb]; [|apply scripted_skip].
  destruct (stops o) eqn:So; cbn [negb]; [|apply scripted_skip]. pose proof (brief_name o) as Eb. rewrite So in Eb. rewrite Eb.
  apply scripted_then; [apply scripted_words, Hn|]. apply scripted_then; [apply scripted_words, utf8_space|].
  apply scripted_then; [apply scripted_push|]. apply scripted_then; [apply scripted_lines, utf8_usage_label, Ho, Hin|].
  apply scripted_then; [apply scripted_words, utf8_space|]. apply scripted_then; [apply scripted_pop|apply scripted_newline].
Qed.

Lemma scripted_commands_loop : forall l b, (forall d, In d l -> utf8 (c_name d)) -> scripted (brief_commands_loop b l).
Proof.
  induction l as [|d l IH]; intros b H; [apply scripted_skip|]. cbn [brief_commands_loop].
  assert (H' : forall d, In d l -> utf8 (c_name d)) by (intros e He; apply H; right; exact He).
  destruct (vis_usage (c_visibility d)); cbn [negb]; [|apply IH, H'].
  apply scripted_then; [apply scripted_when, scripted_words, utf8_ascii; reflexivity|].
  apply scripted_then; [apply scripted_words, H; left; reflexivity|apply IH, H'].
Qed.

Lemma scripted_brief_usage : forall c b, utf8_command c -> shapes_ok c -> scripted (write_brief_usage c b).
Proof.
  intros c b H (Hc & _). pose proof H as (Hn & _ & Ho & Ha & Hd). unfold write_brief_usage.
  apply scripted_then; [apply scripted_when, scripted_newline|]. apply scripted_then; [apply scripted_push|].
  apply scripted_then; [apply scripted_stop, H|]. apply scripted_then; [apply scripted_words, Hn|].
  apply scripted_then; [apply scripted_words, utf8_space|]. apply scripted_then; [apply scripted_push|].
  apply scripted_then; [|apply scripted_then; [|apply scripted_then]].
  - unfold write_brief_regular_options. apply scripted_for. intros o Hin. rewrite stops_stop.
    destruct (vis_usage (o_visibility o)); cbn [negb orb]; [|apply scripted_skip].
    destruct (stops o) eqn:So; [apply scripted_skip|]. pose proof (brief_name o) as Eb. rewrite So in Eb. rewrite Eb.
    apply scripted_then; [apply scripted_lines, utf8_usage_label, Ho, Hin|apply scripted_words, utf8_space].
  - unfold write_brief_arguments. apply scripted_for. intros a Hin. destruct (vis_usage (a_visibility a)); cbn [negb]; [|apply scripted_skip].
    rewrite argument_name by (apply Hc, Hin).
    apply scripted_then; [apply scripted_lines, utf8_argument, Ha, Hin|apply scripted_words, utf8_space].
  - unfold write_brief_commands. destruct (is_empty (c_commands c)); [apply scripted_skip|].
    apply scripted_then; [apply scripted_when, scripted_words, utf8_ascii; reflexivity|].
    apply scripted_then; [apply scripted_commands_loop; intros d Hin; apply Hd, Hin|].
    apply scripted_when, scripted_words, utf8_ascii; reflexivity.
  - apply scripted_then; [apply scripted_pop|]. apply scripted_then; [apply scripted_newline|apply scripted_pop].
Qed.

Lemma scripted_usage : forall c b, utf8_command c -> shapes_ok c -> scripted (write_usage c b).
Proof.
  intros c b H Hs. unfold write_usage.
  assert (X : forall k, scripted k -> forall t : option str, scripted (match t with Some _ => skip | None => k end))
    by (intros k Hk [s|]; [apply scripted_skip|exact Hk]).
  destruct (get_custom_text c TX_USAGE) as [[|u0 u]|]; [apply scripted_skip| |];
    (apply scripted_then; [apply scripted_custom, H|]; apply scripted_then; [apply X|];
     [apply scripted_then; [apply scripted_when, scripted_newline|]; apply scripted_then; [apply scripted_words, utf8_ascii; reflexivity|apply scripted_newline]|];
     apply scripted_then; [apply scripted_custom, H|]).
  - apply scripted_skip.
  - apply scripted_brief_usage; assumption.
Qed.

Lemma scripted_item : forall nw x, utf8 (fst x) -> utf8 (snd x) -> scripted (write_item nw x).
Proof.
  intros nw (name & text) H1 H2. cbn [fst snd] in *. unfold write_item. apply scripted_then; [apply scripted_words, H1|].
  apply scripted_then; [|apply scripted_newline]. apply scripted_when. destruct (negb (nw =? 0)).
  - apply scripted_then.
    + intros f f1 E. destruct (nw <=? current_width (f_writer f)); [|apply scripted_skip, E].
      apply (scripted_words ($"  ")) in E; [exact E|apply utf8_ascii; reflexivity].
    + apply scripted_then; [apply scripted_push|]. apply scripted_then; [apply scripted_words, H2|apply scripted_pop].
  - apply scripted_then; [apply scripted_newline|]. apply scripted_then; [apply scripted_push|].
    apply scripted_then; [apply scripted_words, H2|apply scripted_pop].
Qed.

Lemma scripted_sections : forall nw l b, (forall s, In s l -> utf8 (fst s) /\ forall x, In x (snd s) -> utf8 (fst x) /\ utf8 (snd x)) ->
  scripted (write_sections nw b l).
Proof.
  intros nw l. induction l as [|(s & texts) l IH]; intros b H; [apply scripted_skip|]. cbn [write_sections].
  destruct (H _ (or_introl eq_refl)) as (H1 & H2). cbn [fst snd] in *.
  apply scripted_then; [apply scripted_when, scripted_newline|]. apply scripted_then; [apply scripted_words, H1|].
  apply scripted_then; [apply scripted_newline|]. apply scripted_then; [apply scripted_push|].
  apply scripted_then; [apply scripted_for; intros x Hx; apply scripted_item; apply H2, Hx|].
  apply scripted_then; [apply scripted_pop|]. apply IH. intros y Hy. apply H. right. exact Hy.
Qed.

Lemma utf8_or_title : forall s t, utf8 s -> utf8 t -> utf8 (or_title s t).
Proof. intros [|c s] t H1 H2; [exact H2|exact H1]. Qed.
Lemma utf8_or_text : forall (t : option str) s, (forall x, t = Some x -> utf8 x) -> utf8 s -> utf8 (or_text t s).
Proof. intros [x|] s H1 H2; [apply H1; reflexivity|exact H2]. Qed.

Lemma utf8_entries : forall c, utf8_command c -> forall e, In e (entries c) -> utf8 (en_title e) /\ utf8 (en_label e) /\ utf8 (en_text e).
Proof.
  intros c (Hn & Ht & Ho & Ha & Hd) e He. unfold entries in He. apply in_app_or in He. destruct He as [He|He]; [|apply in_app_or in He; destruct He as [He|He]].
  - unfold argument_entries in He. apply in_map_iff in He. destruct He as (a & <- & Hin). apply filter_In in Hin. destruct Hin as (Hin & _).
    destruct (Ha a Hin) as (H1 & H2 & H3). cbn [en_title en_label en_text]. repeat split; auto; [|apply utf8_argument, H1].
    apply utf8_or_title; [exact H3|]. apply utf8_or_text; [apply Ht|apply utf8_ascii; reflexivity].
  - unfold command_entries in He. apply in_map_iff in He. destruct He as (d & <- & Hin). apply filter_In in Hin. destruct Hin as (Hin & _).
    destruct (Hd d Hin) as (H1 & H2 & H3). cbn [en_title en_label en_text]. repeat split; auto.
    + apply utf8_or_title; [exact H2|]. apply utf8_or_text; [apply Ht|apply utf8_ascii; reflexivity].
    + apply utf8_or_text; [exact H3|apply utf8_nil].
  - unfold option_entries in He. apply in_map_iff in He. destruct He as (o & <- & Hin). apply filter_In in Hin. destruct Hin as (Hin & _).
    pose proof (Ho o Hin) as Hu. pose proof Hu as (H1 & H2 & H3 & H4). cbn [en_title en_label en_text]. repeat split; auto; [|apply utf8_option_label, Hu].
    apply utf8_or_title; [exact H3|]. apply utf8_or_text; [apply Ht|apply utf8_ascii; reflexivity].
Qed.

Lemma scripted_argument_sections : forall c b, utf8_command c -> shapes_ok c -> scripted (write_argument_sections c b).
Proof.
  intros c b H Hs. unfold write_argument_sections. rewrite (sections_group c Hs). destruct (is_empty (group (entries c))); [apply scripted_skip|].
  intros f f1 E. apply (scripted_sections (get_help_text_label_width (w_line_width (f_writer f)) (group (entries c))) (group (entries c)) b); [|exact E].
  intros s Hin. unfold group in Hin. apply in_map_iff in Hin. destruct Hin as (t & <- & Ht). cbn [fst snd].
  unfold titles in Ht. apply (proj1 (distinct_in _ _)) in Ht. apply in_map_iff in Ht. destruct Ht as (e & <- & He).
  split; [apply (utf8_entries c H e He)|]. intros x Hx. apply in_map_iff in Hx. destruct Hx as (e' & <- & He'). cbn [fst snd].
  unfold with_title in He'. apply filter_In in He'. destruct He' as (He' & _). split; apply (utf8_entries c H e' He').
Qed.
End Scripts.

Lemma help_formatter_text : forall console d f, help_ok console d -> help_formatter console d = TOk f ->
  text_formatter (help_width console d) (d_word_rules d) = TOk f.
Proof.
  intros console d f (Hc & Hw & _ & Hr) E. unfold help_formatter, help_width, text_formatter, new_formatter in *.
  destruct (Nat.leb_spec console 2); [lia|]. cbn [tbind] in E.
  destruct (d_line_width d =? 0)%N.
  - destruct (Nat.leb_spec console 2); [lia|]. exact E.
  - unfold set_line_width in E. destruct (Nat.leb_spec (N.to_nat (d_line_width d)) 2); [lia|]. exact E.
Qed.

Lemma scripted_width : forall console d k f line, help_ok console d -> scripted k ->
  tbind (help_formatter console d) k = TOk f -> w_line (f_writer f) = [] -> In line (lines_of (w_out (f_writer f))) ->
  narrow (help_width console d) line \/ squeezed (help_width console d) line.
Proof.
  intros console d k f line Ho Hk E El Hl. destruct (help_formatter console d) as [f0| | |] eqn:E0; try discriminate. cbn [tbind] in E.
  apply help_formatter_text in E0; [|exact Ho]. destruct (Hk _ _ E) as (ops & R & U).
  apply (width_proof (help_width console d) (d_word_rules d) f0 ops f line); auto; [apply Ho|].
  unfold shown. rewrite El, app_nil_r. exact Hl.
Qed.

Lemma help_width_lines : forall console d c f line, help_ok console d -> labels_ok c -> shapes_ok c -> utf8_command c ->
  write_help_text console d c = TOk f -> In line (lines_of (w_out (f_writer f))) ->
  narrow (help_width console d) line \/ squeezed (help_width console d) line.
Proof.
  intros console d c f line Ho Hl Hs Hu E Hin. destruct (help_layout console d c Ho Hl Hs) as (f' & p & E' & El & _).
  rewrite E in E'. apply TOk_inj in E'. subst f'. unfold write_help_text in E.
  eapply scripted_width; [exact Ho| |exact E|exact El|exact Hin]. cbv zeta.
  repeat apply scripted_then; try apply scripted_when; try apply scripted_custom; try apply scripted_usage; try apply scripted_argument_sections; assumption.
Qed.

Lemma error_width_lines : forall console d c msg f line, help_ok console d -> labels_ok c -> shapes_ok c -> utf8_command c -> utf8 msg ->
  write_error_message console d c msg = TOk f -> In line (lines_of (w_out (f_writer f))) ->
  narrow (help_width console d) line \/ squeezed (help_width console d) line.
Proof.
  intros console d c msg f line Ho Hl Hs Hu Hm E Hin. destruct (error_layout console d c msg Ho Hl Hs) as (f' & p & E' & El & _).
  rewrite E in E'. apply TOk_inj in E'. subst f'. unfold write_error_message in E.
  eapply scripted_width; [exact Ho| |exact E|exact El|exact Hin].
  repeat apply scripted_then; try apply scripted_newline; try apply scripted_custom; try apply scripted_words; try assumption.
  - apply utf8_join2; [apply Hu|apply utf8_ascii; reflexivity].
  - destruct (get_custom_text c TX_ERROR_USAGE); [apply scripted_skip|apply scripted_usage; assumption].
Qed.

(** ** Hidden items *)

Lemma for_each_filter : forall A (keep : A -> bool) (g : A -> fstep) l f, (forall x f, keep x = false -> g x f = TOk f) ->
  for_each g (filter keep l) f = for_each g l f.
Proof.
  intros A keep g l f H. revert f. induction l as [|x l IH]; intros f; [reflexivity|]. cbn [filter for_each]. destruct (keep x) eqn:K.
  - cbn [for_each]. unfold then_. destruct (g x f); cbn [tbind]; auto.
  - unfold then_. rewrite (H x f K). cbn [tbind]. apply IH.
Qed.

Lemma fold_filter : forall A B (keep : A -> bool) (g : B -> A -> B) l s, (forall s x, keep x = false -> g s x = s) ->
  fold_left g (filter keep l) s = fold_left g l s.
Proof.
  intros A B keep g l s H. revert s. induction l as [|x l IH]; intros s; [reflexivity|]. cbn [filter fold_left]. destruct (keep x) eqn:K.
  - cbn [fold_left]. apply IH.
  - rewrite (H s x K). apply IH.
Qed.

Lemma commands_loop_filter : forall l b f,
  brief_commands_loop b (filter (fun d => shown_item (c_visibility d)) l) f = brief_commands_loop b l f.
Proof.
  induction l as [|d l IH]; intros b f; [reflexivity|]. cbn [filter brief_commands_loop]. unfold shown_item at 1.
  destruct (vis_usage (c_visibility d)) eqn:V; cbn [orb negb].
  - cbn [brief_commands_loop]. rewrite V. cbn [negb]. apply then_ext. intros f1. apply then_ext. intros f2. apply IH.
  - destruct (vis_text (c_visibility d)); [|apply IH]. cbn [brief_commands_loop]. rewrite V. cbn [negb]. apply IH.
Qed.

Lemma not_shown : forall v, shown_item v = false -> vis_usage v = false /\ vis_text v = false.
Proof. intros v H. apply orb_false_iff in H. exact H. Qed.

Section Hidden.
Variable c : cmd_data.
Hypothesis Hc : c_commands c = [] \/ exists d, In d (c_commands c) /\ shown_item (c_visibility d) = true.
Let c' := without_hidden c.

Lemma commands_empty : is_empty (c_commands c') = is_empty (c_commands c).
Proof.
  unfold c', without_hidden. cbn [c_commands]. destruct Hc as [E|(d & Hd & V)]; [rewrite E; reflexivity|].
  assert (X : In d (filter (fun d => shown_item (c_visibility d)) (c_commands c))) by (apply filter_In; auto).
  destruct (filter _ (c_commands c)); [destruct X|]. destruct (c_commands c); [destruct Hd|reflexivity].
Qed.

Lemma hidden_usage : forall b f, write_usage c' b f = write_usage c b f.
Proof.
  assert (Hb : forall b f, write_brief_usage c' b f = write_brief_usage c b f).
  { intros b f. unfold write_brief_usage. apply then_ext. intros f1. apply then_ext. intros f2.
    assert (H1 : forall f, write_stop_and_help_usage c' f = write_stop_and_help_usage c f).
    { intros f3. unfold write_stop_and_help_usage. change (c_full_name c') with (c_full_name c). apply for_each_filter.
      intros o f4 V. apply not_shown in V. destruct V as (V & _). rewrite V. reflexivity. }
    unfold then_ at 1. rewrite H1. fold (then_ (write_stop_and_help_usage c)
      (write_words (c_full_name c') ;> write_words ($" ") ;> push None ;> write_brief_regular_options c' ;> write_brief_arguments c' ;>
       write_brief_commands c' ;> pop_indentation ;> new_line ;> pop_indentation) f2).
    apply then_ext. intros f3. apply then_ext. intros f4. apply then_ext. intros f5. apply then_ext. intros f6.
    assert (H2 : forall f, write_brief_regular_options c' f = write_brief_regular_options c f).
    { intros f7. unfold write_brief_regular_options. apply for_each_filter.
      intros o f8 V. apply not_shown in V. destruct V as (V & _). rewrite V. reflexivity. }
    assert (H3 : forall f, write_brief_arguments c' f = write_brief_arguments c f).
    { intros f7. unfold write_brief_arguments. apply for_each_filter.
      intros o f8 V. apply not_shown in V. destruct V as (V & _). rewrite V. reflexivity. }
    assert (H4 : forall f, write_brief_commands c' f = write_brief_commands c f).
    { intros f7. unfold write_brief_commands. rewrite commands_empty. destruct (is_empty (c_commands c)); [reflexivity|].
      change (c_require c') with (c_require c). apply then_ext. intros f8.
      unfold then_. change (c_commands c') with (filter (fun d => shown_item (c_visibility d)) (c_commands c)).
      rewrite commands_loop_filter. reflexivity. }
    unfold then_. rewrite H2. destruct (write_brief_regular_options c f6) as [f7| | |]; cbn [tbind]; auto.
    rewrite H3. destruct (write_brief_arguments c f7) as [f8| | |]; cbn [tbind]; auto.
    rewrite H4. reflexivity. }
  intros b f. unfold write_usage. change (get_custom_text c') with (get_custom_text c). change (write_custom_text c') with (write_custom_text c).
  destruct (get_custom_text c TX_USAGE) as [[|u0 u]|]; try reflexivity.
  apply then_ext. intros f1. apply then_ext. intros f2. apply then_ext. intros f3. apply Hb.
Qed.

Lemma hidden_sections : forall b, write_argument_sections c' b = write_argument_sections c b.
Proof.
  intros b. unfold write_argument_sections.
  assert (E : add_options c' (add_commands c' (add_arguments c' [])) = add_options c (add_commands c (add_arguments c []))).
  { unfold add_options, add_commands, add_arguments. change (get_custom_text c') with (get_custom_text c).
    unfold c', without_hidden. cbn [c_options c_arguments c_commands].
    rewrite !fold_filter; [reflexivity| | |]; intros s x V; apply not_shown in V; destruct V as (_ & V); rewrite V; reflexivity. }
  rewrite E. reflexivity.
Qed.

Lemma hidden_help : forall console d, write_help_text console d c' = write_help_text console d c.
Proof.
  intros console d. unfold write_help_text. destruct (help_formatter console d) as [f| | |]; [|reflexivity|reflexivity|reflexivity].
  cbn [tbind]. cbv zeta. change (get_custom_text c') with (get_custom_text c). change (write_custom_text c') with (write_custom_text c).
  change (usage_result c') with (usage_result c). apply then_ext. intros f1. unfold then_ at 1. rewrite hidden_usage.
  rewrite hidden_sections. reflexivity.
Qed.

Lemma hidden_error : forall console d msg, write_error_message console d c' msg = write_error_message console d c msg.
Proof.
  intros console d msg. unfold write_error_message. destruct (help_formatter console d) as [f| | |]; [|reflexivity|reflexivity|reflexivity].
  cbn [tbind]. change (get_custom_text c') with (get_custom_text c). change (write_custom_text c') with (write_custom_text c).
  change (c_full_name c') with (c_full_name c). apply then_ext. intros f1. apply then_ext. intros f2. apply then_ext. intros f3. apply then_ext. intros f4.
  destruct (get_custom_text c TX_ERROR_USAGE); [reflexivity|apply hidden_usage].
Qed.
End Hidden.

(** ** Finished definitions *)

Lemma finished_shapes : forall p q c, finish_parser p = Val q -> counts_ok (d_command p) -> within (d_command q) c -> shapes_ok c.
Proof.
  intros p q c H Hc Hw. apply finish_parser_inv in H. destruct H as (_ & F).
  destruct (finished_within _ _ _ _ _ _ F c Hw) as (d0 & f & s & a & W0 & E).
  apply finish_finished in E. destruct E as (opts1 & vid' & aid' & V & _ & I & _).
  apply set_internal_ids_spec in I. destruct I as (_ & _ & _ & S1 & S2). split.
  - intros x Hx. destruct (forall2_in_right _ _ _ S1 x Hx) as (y & Hy & (i & j & ->)). cbn.
    apply within_inv in W0. destruct W0 as [->|(e & He & We)].
    + apply (Hc (d_command p) y); [constructor|exact Hy].
    + apply (Hc d0 y); [|exact Hy]. eapply within_trans; [|exact We]. eapply within_sub; [constructor|exact He].
  - intros o Ho. destruct (forall2_in_right _ _ _ S2 o Ho) as (o1 & I1 & (a1 & v1 & ->)). cbn.
    assert (X : In o1 opts1 \/ hd [] (o_flags o1) <> []).
    { unfold add_help_option in I1. cbv zeta in I1. destruct (negb _); [auto|]. destruct (has_help_option _); [auto|].
      destruct (is_empty (help_flags _ _)) eqn:Eh; [auto|]. apply in_app_iff in I1. destruct I1 as [I1|[<-|[]]]; [auto|].
      right. cbn [o_flags]. clear - Eh. unfold help_flags in *. destruct (s_style (d_settings p)).
      - destruct (negb _); [discriminate|]. cbn [app] in *. destruct (negb _); discriminate.
      - destruct (negb _); discriminate.
      - destruct (negb _); [discriminate|]. destruct (negb _); discriminate. }
    destruct X as [X|X]; [|exact X].
    apply validate_all_forall2 in V. destruct (forall2_in_right _ _ _ V o1 X) as (o2 & _ & Eo).
    destruct (validate_result_proof _ _ _ Eo) as ((Ef & _) & _). rewrite Ef.
    assert (Y : valid_option (s_style (d_settings p)) o2) by (apply validate_iff_proof; eauto).
    destruct Y as (N0 & Vf & _). destruct (o_flags o2) as [|x l]; [congruence|]. cbn [hd].
    destruct (Vf x (or_introl eq_refl)) as (_ & c0 & r & -> & _). discriminate.
Qed.

Lemma copy_within : forall c d, within (copy_command c) d -> exists e, within c e /\ d = copy_command e.
Proof.
  intros c d H. induction H as [|d e H (x & Wx & ->) Hin].
  - exists c. split; [constructor|reflexivity].
  - assert (E : c_commands (copy_command x) = map copy_command (c_commands x)) by (destruct x; reflexivity).
    rewrite E in Hin. apply in_map_iff in Hin. destruct Hin as (y & <- & Hy). exists y. split; [|reflexivity].
    eapply within_sub; eassumption.
Qed.

Lemma copy_counts : forall d, counts_ok (d_command d) -> counts_ok (d_command (make_copy d)).
Proof.
  intros d H x a Hx Ha. cbn [make_copy d_command] in Hx. apply copy_within in Hx. destruct Hx as (e & He & ->).
  apply (H e a He). destruct e. exact Ha.
Qed.

Lemma path_within : forall ci path c d, find_path ci c path = Val d -> within c d.
Proof.
  intros ci. induction path as [|name path IH]; intros c d H; cbn [find_path] in H; [injection H as <-; constructor|].
  destruct (find_command c name ci) as [e|] eqn:E; [|discriminate]. unfold find_command in E. apply find_some in E.
  eapply within_trans; [|apply IH, H]. eapply within_sub; [constructor|apply E].
Qed.

Lemma finish_parser_rest : forall p q, finish_parser p = Val q -> d_line_width q = d_line_width p /\ d_word_rules q = d_word_rules p.
Proof.
  intros p q H. unfold finish_parser in H. destruct (finish_command _ _ _ _ _); [|discriminate]. injection H as <-. auto.
Qed.

Lemma api_help : forall console d q path c, finish_parser (make_copy d) = Val q ->
  find_path (s_case_insensitive (d_settings q)) (d_command q) path = Val c -> counts_ok (d_command d) -> help_ok console d ->
  shapes_ok c /\ help_ok console q /\ help_width console q = help_width console d /\
  write_subcommand_help_text console (Some d) path =
    match write_help_text console q c with TOk f => HText (w_out (f_writer f)) | r => HFormat r end.
Proof.
  intros console d q path c E1 E2 Hc Ho. destruct (finish_parser_rest _ _ E1) as (X1 & X2).
  split; [|split; [|split]].
  - apply (finished_shapes _ _ _ E1); [apply copy_counts, Hc|eapply path_within, E2].
  - unfold help_ok, help_width in *. rewrite X1, X2. exact Ho.
  - unfold help_width. rewrite X1. reflexivity.
  - unfold write_subcommand_help_text. rewrite E1, E2. reflexivity.
Qed.
