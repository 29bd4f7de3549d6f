(** The properties C66-C68: what the results of parsing say about themselves. *)
From Verif Require Import Base MStrings MOptIter MParseInt MData MCounter MValues MParser MText MHelp MApi MResults
  SIndex SDef SValues SText SFormat SHelp SStep SParser SApi SExamples SResults ExProofs HelpExamples
  PrintProofs ResultProofs FloatProofs ResultExamples.
Open Scope nat_scope.

(* ------------------------------------------------------------------------ *)
(** ** C66: print *)

(** Whenever the results of a parser are printed, there is one line for every value,
    with all names of all arguments and options that share it and all its texts, then
    the unprocessed arguments, then the sub-commands. *)
Theorem C66_print : forall p q args st n, made_parser p -> finish_parser p = Val q ->
  reached (d_settings q) (d_command q) args st n ->
  print (toplevel st) = printed (toplevel st).
Proof. exact print_reached. Qed.
Print Assumptions C66_print.

Example C66_print_ex : made_parser res_parser /\ finish_parser res_parser = Val res_done /\
  (exists n, reached (d_settings res_done) (d_command res_done) res_args res_state n) /\
  printed (toplevel res_state) =
    $"-q, -r, --reset:" ++ [c_lf] ++ $"-n, --num, -m: ""1"" ""two"" ""3""" ++ [c_lf] ++
    $"-x, -y: ""0x""" ++ [c_lf] ++ $"-h, --help:" ++ [c_lf] ++ [c_lf] ++ $"Subcommand: add" ++ [c_lf] ++
    $"FILE: ""a b"" ""c""" ++ [c_lf] ++ $"-h, --help:" ++ [c_lf].
Proof.
  split; [exact res_made|]. split; [exact res_finish|]. split; [exact res_reached|]. vm_compute. reflexivity.
Qed.

(** Options that store nothing are on one line though nothing connects them. *)
Theorem C66_none_refuted : exists p q args st n o1 o2, made_parser p /\ finish_parser p = Val q /\
  reached (d_settings q) (d_command q) args st n /\
  In o1 (c_options (d_command q)) /\ In o2 (c_options (d_command q)) /\
  o_flags o1 = [$"-q"] /\ o_flags o2 = [$"-r"; $"--reset"] /\ o_alias o1 = [] /\ o_alias o2 = [] /\
  exists rest, print (toplevel st) = $"-q, -r, --reset:" ++ rest.
Proof.
  destruct res_reached as (n & Hn).
  exists res_parser, res_done, res_args, res_state, n, (nth 1 (c_options (d_command res_done)) (new_option [])),
    (nth 5 (c_options (d_command res_done)) (new_option [])).
  split; [exact res_made|]. split; [exact res_finish|]. split; [exact Hn|].
  split; [apply nth_In; vm_compute; lia|]. split; [apply nth_In; vm_compute; lia|].
  split; [vm_compute; reflexivity|]. split; [vm_compute; reflexivity|].
  split; [vm_compute; reflexivity|]. split; [vm_compute; reflexivity|].
  exists (skipn 16 (print (toplevel res_state))). vm_compute. reflexivity.
Qed.
Print Assumptions C66_none_refuted.

(* ------------------------------------------------------------------------ *)
(** ** C67: values know where they come from *)

(** The argument or option that a value names is the one that gave its text. *)
Theorem C67_supplier : forall p q args st n x, finish_parser p = Val q ->
  no_insertions (d_settings q) (d_command q) -> no_interference (d_settings q) (d_command q) ->
  reached (d_settings q) (d_command q) args st n -> in_result (toplevel st) x ->
  forall name v t, value_by_name x name = VGot v -> av_value v = Some t ->
  exists i, av_argument v = VGot (Some i) /\ given_by args (d_command q) (l_command x) i t /\
    view_value_id i = av_value_id v.
Proof. exact value_supplier_proof. Qed.
Print Assumptions C67_supplier.

(** So it is for the values of values(). *)
Theorem C67_suppliers : forall p q args st n x, finish_parser p = Val q ->
  no_insertions (d_settings q) (d_command q) -> no_interference (d_settings q) (d_command q) ->
  reached (d_settings q) (d_command q) args st n -> in_result (toplevel st) x ->
  forall name vs v t, values_by_name x name = VGot vs -> In v (avs_list vs) -> av_value v = Some t ->
  exists i, av_argument v = VGot (Some i) /\ given_by args (d_command q) (l_command x) i t /\
    In i (avs_arguments vs).
Proof. exact values_supplier_proof. Qed.
Print Assumptions C67_suppliers.

Example C67_suppliers_ex : exists n,
  finish_parser res_parser = Val res_done /\ no_insertions (d_settings res_done) (d_command res_done) /\
  no_interference (d_settings res_done) (d_command res_done) /\
  reached (d_settings res_done) (d_command res_done) res_args res_state n /\
  in_result res_top res_top /\
  value_by_name res_top ($"-y") = VGot (res_value ($"-y")) /\
  av_value (res_value ($"-y")) = Some ($"0x") /\
  (exists i, av_argument (res_value ($"-y")) = VGot (Some i) /\ view_names i = [$"-x"]) /\
  values_by_name res_top ($"-m") = VGot (res_values ($"-m")) /\
  map av_value (avs_list (res_values ($"-m"))) = [Some ($"1"); Some ($"two"); Some ($"3")] /\
  map (fun v => match av_argument v with VGot (Some i) => view_names i | _ => [] end) (avs_list (res_values ($"-m")))
    = [[$"-n"; $"--num"]; [$"-m"]; [$"-n"; $"--num"]].
Proof.
  destruct res_conditions as (n & H1 & H2 & H3 & H4 & H5 & _). exists n.
  split; [exact H1|]. split; [exact H2|]. split; [exact H3|]. split; [exact H4|]. split; [exact H5|].
  split; [vm_compute; reflexivity|]. split; [vm_compute; reflexivity|].
  split; [eexists; split; vm_compute; reflexivity|]. split; [vm_compute; reflexivity|].
  split; vm_compute; reflexivity.
Qed.

(** A value looked up by way of a view names the view's argument or option, even if
    another one gave the text. *)
Theorem C67_view_refuted : exists p q args st n x i v t, finish_parser p = Val q /\
  no_insertions (d_settings q) (d_command q) /\ no_interference (d_settings q) (d_command q) /\
  reached (d_settings q) (d_command q) args st n /\ in_result (toplevel st) x /\
  In i (listed (l_command x)) /\ value_by_view x i = VGot v /\ av_value v = Some t /\
  av_argument v = VGot (Some i) /\ view_names i = [$"-y"] /\
  args = [$"-n1"; $"-m"; $"two"; $"-q"; $"-x"; $"0x"; $"--num=3"; $"add"; $"a b"; $"c"] /\ t = $"0x".
Proof.
  destruct res_conditions as (n & H1 & H2 & H3 & H4 & H5 & _).
  exists res_parser, res_done, res_args, res_state, n, res_top, (res_item 4).
  eexists. eexists.
  split; [exact H1|]. split; [exact H2|]. split; [exact H3|]. split; [exact H4|]. split; [exact H5|].
  split; [unfold res_item; apply nth_In; vm_compute; lia|]. split; [vm_compute; reflexivity|]. split; [vm_compute; reflexivity|].
  split; [vm_compute; reflexivity|]. split; [vm_compute; reflexivity|]. split; reflexivity.
Qed.
Print Assumptions C67_view_refuted.

(** values().arguments() are the arguments and options that store the value. *)
Theorem C67_arguments : forall vs i,
  In i (avs_arguments vs) <-> In i (listed (l_command (avs_args vs))) /\ view_value_id i = avs_value_id vs.
Proof. intros vs i. apply views_iff. Qed.
Print Assumptions C67_arguments.

(** A text that cannot be converted is reported, naming the argument or option that gave it. *)
Theorem C67_error : forall p q args st n x, finish_parser p = Val q ->
  no_insertions (d_settings q) (d_command q) -> no_interference (d_settings q) (d_command q) ->
  reached (d_settings q) (d_command q) args st n -> in_result (toplevel st) x ->
  forall console, counts_ok (d_command p) -> help_ok console q -> labels_ok (l_command x) ->
  forall T (parse : str -> option T) default name v s,
  value_by_name x name = VGot v -> av_value v = Some s -> parse s = None ->
  exists i out, given_by args (d_command q) (l_command x) i s /\
    av_get console q parse v default = ends_with q out /\
    error_text console q (l_command x) (about (view_label i) (invalid s)) out.
Proof. exact value_error_proof. Qed.
Print Assumptions C67_error.

Example C67_error_ex : exists n,
  finish_parser res_parser = Val res_done /\ no_insertions (d_settings res_done) (d_command res_done) /\
  no_interference (d_settings res_done) (d_command res_done) /\
  reached (d_settings res_done) (d_command res_done) res_args res_state n /\
  in_result res_top res_top /\ counts_ok (d_command res_parser) /\
  help_ok 80 res_done /\ labels_ok (l_command res_top) /\
  value_by_name res_top ($"-x") = VGot (res_value ($"-x")) /\
  av_value (res_value ($"-x")) = Some ($"0x") /\ int10 ($"0x") = None /\
  av_get 80 res_done int10 (res_value ($"-x")) 0%Z =
    VThrow XParseError ($"prog: -x: Invalid value: 0x." ++ [c_lf] ++ $"USAGE" ++ [c_lf] ++ $"  prog --help" ++ [c_lf] ++
      $"  prog [-n <N>] [-q] [-m <N>] [-x <X>] [-y <Y>] [-r] add" ++ [c_lf]).
Proof.
  destruct res_conditions as (n & H1 & H2 & H3 & H4 & H5 & H6 & H7 & H8). exists n.
  split; [exact H1|]. split; [exact H2|]. split; [exact H3|]. split; [exact H4|]. split; [exact H5|].
  split; [exact H6|]. split; [exact H7|]. split; [exact H8|].
  split; [vm_compute; reflexivity|]. split; [vm_compute; reflexivity|].
  split; vm_compute; reflexivity.
Qed.

(** as_int() returns the number that the text spells; only if there is no text it
    returns the default. *)
Theorem C67_as_int : forall console q v default base y,
  av_get console q (fun s => parse_int s base) v default = VGot y <->
  (av_value v = None /\ y = default) \/
  exists s neg m, av_value v = Some s /\ integer_text base s neg m /\ y = signed neg m /\ (- 2 ^ 31 <= y < 2 ^ 31)%Z.
Proof. exact value_int_proof. Qed.
Print Assumptions C67_as_int.

Example C67_as_int_ex :
  let v := hd no_argument_value (avs_list (res_values ($"-n"))) in
  av_value v = Some ($"1") /\ av_get 80 res_done int10 v 5%Z = VGot 1%Z /\
  av_get 80 res_done int10 (mk_av None None 0 0) 5%Z = VGot 5%Z.
Proof. vm_compute. split; [reflexivity|]. split; reflexivity. Qed.

(** value() is the only one of values(), or there is none. *)
Theorem C67_same : forall x name v, value_by_name x name = VGot v ->
  exists vs, values_by_name x name = VGot vs /\
    ((av_value v = None /\ avs_list vs = []) \/ avs_list vs = [v]).
Proof. exact value_same_proof. Qed.
Print Assumptions C67_same.

Example C67_same_ex : value_by_name res_top ($"-y") = VGot (res_value ($"-y")) /\
  length (avs_list (res_values ($"-y"))) = 1 /\
  value_by_name res_top ($"--help") = VGot (res_value ($"--help")) /\
  length (avs_list (res_values ($"--help"))) = 0.
Proof. vm_compute. split; [reflexivity|]. split; [reflexivity|]. split; reflexivity. Qed.

(** values()[k] is the value that iterating meets after [k] others. *)
Theorem C67_at : forall vs k v, avs_values vs <> [] ->
  (avs_at vs k = VGot v <-> nth_error (avs_list vs) k = Some v) /\
  (nth_error (avs_list vs) k = None -> avs_at vs k = VThrow XOutOfRange []).
Proof. exact values_at_proof. Qed.
Print Assumptions C67_at.

Example C67_at_ex : avs_values (res_values ($"-n")) <> [] /\
  (exists v, avs_at (res_values ($"-n")) 1 = VGot v /\ av_value v = Some ($"two")) /\
  avs_at (res_values ($"-n")) 3 = VThrow XOutOfRange [].
Proof.
  split; [vm_compute; discriminate|]. split; [eexists; split; vm_compute; reflexivity|]. vm_compute. reflexivity.
Qed.

(** Without values, every index gives a value that is empty. *)
Theorem C67_at_none : forall vs k, avs_values vs = [] ->
  exists v, avs_at vs k = VGot v /\ av_value v = None /\ av_value_id v = avs_value_id vs.
Proof. intros vs k E. unfold avs_at. rewrite E. eexists. repeat split. Qed.
Print Assumptions C67_at_none.

Example C67_at_none_ex : avs_values (res_values ($"--help")) = [] /\ avs_values (res_values ($"-n")) <> [].
Proof. split; [reflexivity|vm_compute; discriminate]. Qed.

(** The same for the first such text among many; if several arguments and options have
    given the texts, none of them is named. *)
Theorem C67_values_error : forall p q args st n x, finish_parser p = Val q ->
  no_insertions (d_settings q) (d_command q) -> no_interference (d_settings q) (d_command q) ->
  reached (d_settings q) (d_command q) args st n -> in_result (toplevel st) x ->
  forall console, counts_ok (d_command p) -> help_ok console q -> labels_ok (l_command x) ->
  forall T (parse : str -> option T) default name vs pre s aid post,
  values_by_name x name = VGot vs -> avs_values vs = pre ++ (s, aid) :: post ->
  (forall t b, In (t, b) pre -> parse t <> None) -> parse s = None ->
  exists out, avs_get console q parse vs default = ends_with q out /\
    ((exists i, (forall v, In v (avs_list vs) -> av_argument v = VGot (Some i)) /\
        given_by args (d_command q) (l_command x) i s /\
        error_text console q (l_command x) (about (view_label i) (invalid s)) out) \/
     ((exists v w, In v (avs_list vs) /\ In w (avs_list vs) /\ av_argument v <> av_argument w) /\
        error_text console q (l_command x) (invalid s) out)).
Proof. exact values_error_proof. Qed.
Print Assumptions C67_values_error.

Example C67_values_error_ex :
  values_by_name res_top ($"-n") = VGot (res_values ($"-n")) /\
  (exists a1 a2 a3, avs_values (res_values ($"-n")) = [($"1", a1)] ++ ($"two", a2) :: [($"3", a3)]) /\
  int10 ($"1") = Some 1%Z /\ int10 ($"two") = None /\
  avs_get 80 res_done int10 (res_values ($"-n")) [] =
    VThrow XParseError ($"prog: Invalid value: two." ++ [c_lf] ++ $"USAGE" ++ [c_lf] ++ $"  prog --help" ++ [c_lf] ++
      $"  prog [-n <N>] [-q] [-m <N>] [-x <X>] [-y <Y>] [-r] add" ++ [c_lf]) /\
  avs_get 80 res_done int10 (res_values ($"-x")) [] =
    VThrow XParseError ($"prog: -x: Invalid value: 0x." ++ [c_lf] ++ $"USAGE" ++ [c_lf] ++ $"  prog --help" ++ [c_lf] ++
      $"  prog [-n <N>] [-q] [-m <N>] [-x <X>] [-y <Y>] [-r] add" ++ [c_lf]).
Proof.
  split; [vm_compute; reflexivity|]. split; [do 3 eexists; vm_compute; reflexivity|].
  split; [vm_compute; reflexivity|]. split; [vm_compute; reflexivity|]. split; vm_compute; reflexivity.
Qed.

(** All texts that can be converted are, in their order. *)
Theorem C67_values : forall T console q (parse : str -> option T) vs default,
  (forall ys, avs_values vs <> [] -> Forall2 (fun v y => parse (fst v) = Some y) (avs_values vs) ys ->
     avs_get console q parse vs default = VGot ys) /\
  (avs_values vs = [] -> avs_get console q parse vs default = VGot default).
Proof. exact values_converted_proof. Qed.
Print Assumptions C67_values.

Example C67_values_ex : avs_values (res_values ($"-n")) <> [] /\
  Forall2 (fun v y => option_map (@length ascii) (Some (fst v)) = Some y) (avs_values (res_values ($"-n"))) [1; 3; 1].
Proof. split; [vm_compute; discriminate|]. vm_compute. repeat constructor. Qed.

(** split() of one value. *)
Theorem C67_split : forall p q args st n x, finish_parser p = Val q ->
  no_insertions (d_settings q) (d_command q) -> no_interference (d_settings q) (d_command q) ->
  reached (d_settings q) (d_command q) args st n -> in_result (toplevel st) x ->
  forall console, counts_ok (d_command p) -> help_ok console q -> labels_ok (l_command x) ->
  forall name v s sep min max parts,
  value_by_name x name = VGot v -> av_value v = Some s -> split_in sep max s parts ->
  ((min <= N.of_nat (length parts))%N ->
     av_split console q v sep min max = VGot (map (fun t => (t, av_argument_id v)) parts)) /\
  ((N.of_nat (length parts) < min)%N ->
     exists i out, given_by args (d_command q) (l_command x) i s /\
       av_split console q v sep min max = ends_with q out /\
       error_text console q (l_command x) (about (view_label i) (too_few ($"have") s min sep)) out).
Proof. exact value_split_proof. Qed.
Print Assumptions C67_split.

Example C67_split_ex :
  value_by_name res_top ($"-x") = VGot (res_value ($"-x")) /\ av_value (res_value ($"-x")) = Some ($"0x") /\
  split_in "x" 0 ($"0x") [$"0"; []] /\
  av_split 80 res_done (res_value ($"-x")) "x" 3 0 =
    VThrow XParseError ($"prog: -x: Invalid value: ""0x"". Must have at least 3 values separated by ""x""." ++ [c_lf] ++
      $"USAGE" ++ [c_lf] ++ $"  prog --help" ++ [c_lf] ++
      $"  prog [-n <N>] [-q] [-m <N>] [-x <X>] [-y <Y>] [-r] add" ++ [c_lf]) /\
  (exists a, av_split 80 res_done (res_value ($"-x")) "x" 2 0 = VGot [($"0", a); ([], a)]).
Proof.
  split; [vm_compute; reflexivity|]. split; [vm_compute; reflexivity|]. split.
  - exists [$"0"], []. split; [reflexivity|]. split; [reflexivity|]. split.
    + intros p [<-|[]] [E|[]]. discriminate.
    + split; [intros []|intros H; congruence].
  - split; [vm_compute; reflexivity|]. eexists. vm_compute. reflexivity.
Qed.

(** split() of all values: the first that has too few parts is reported, *)
Theorem C67_values_split_error : forall p q args st n x, finish_parser p = Val q ->
  no_insertions (d_settings q) (d_command q) -> no_interference (d_settings q) (d_command q) ->
  reached (d_settings q) (d_command q) args st n -> in_result (toplevel st) x ->
  forall console, counts_ok (d_command p) -> help_ok console q -> labels_ok (l_command x) ->
  forall name vs sep min max pre s aid post,
  values_by_name x name = VGot vs -> avs_values vs = pre ++ (s, aid) :: post ->
  (forall t b parts, In (t, b) pre -> split_in sep max t parts -> (min <= N.of_nat (length parts))%N) ->
  (forall parts, split_in sep max s parts -> (N.of_nat (length parts) < min)%N) ->
  exists out, avs_split console q vs sep min max = ends_with q out /\
    ((exists i, (forall v, In v (avs_list vs) -> av_argument v = VGot (Some i)) /\
        given_by args (d_command q) (l_command x) i s /\
        error_text console q (l_command x) (about (view_label i) (too_few ($"be") s min sep)) out) \/
     ((exists v w, In v (avs_list vs) /\ In w (avs_list vs) /\ av_argument v <> av_argument w) /\
        error_text console q (l_command x) (too_few ($"be") s min sep) out)).
Proof. exact values_split_error_proof. Qed.
Print Assumptions C67_values_split_error.

Example C67_values_split_error_ex :
  avs_split 80 res_done (res_values ($"-x")) "," 2 0 =
    VThrow XParseError ($"prog: -x: Invalid value: ""0x"". Must be at least 2 values separated by "",""." ++ [c_lf] ++
      $"USAGE" ++ [c_lf] ++ $"  prog --help" ++ [c_lf] ++
      $"  prog [-n <N>] [-q] [-m <N>] [-x <X>] [-y <Y>] [-r] add" ++ [c_lf]).
Proof. vm_compute. reflexivity. Qed.

(** and if there is none, the parts are those of all values, each with the argument or
    option of the value it is a part of. *)
Theorem C67_values_split : forall console q vs sep min max,
  (forall t b parts, In (t, b) (avs_values vs) -> split_in sep max t parts -> (min <= N.of_nat (length parts))%N) ->
  exists ws, avs_split console q vs sep min max = VGot ws /\ avs_arguments ws = avs_arguments vs /\
    exists pss, avs_values ws = concat pss /\
      Forall2 (fun v ps => exists parts, split_in sep max (fst v) parts /\ ps = map (fun t => (t, snd v)) parts)
        (avs_values vs) pss.
Proof. exact values_split_parts_proof. Qed.
Print Assumptions C67_values_split.

Example C67_values_split_ex : exists a1 a2 a3, 
  avs_values (res_values ($"-n")) = [($"1", a1); ($"two", a2); ($"3", a3)] /\
  (match avs_split 80 res_done (res_values ($"-n")) "w" 1 0 with VGot ws => avs_values ws | _ => [] end) =
    [($"1", a1); ($"t", a2); ($"o", a2); ($"3", a3)].
Proof. do 3 eexists. split; vm_compute; reflexivity. Qed.

(* ------------------------------------------------------------------------ *)
(** ** C68: floating point numbers *)

(** as_float() and as_double() convert a text exactly if the whole of it is a number
    and strtof or strtod does not report a range error; [convert] is what they make of it. *)
Theorem C68_float : forall F (convert : float_text -> F * bool) s x,
  parse_floating_point convert s = Some x <-> exists t, whole_float s t /\ convert t = (x, true).
Proof. exact @float_proof. Qed.
Print Assumptions C68_float.

(** A text is one number at most. *)
Theorem C68_unique : forall s t t', whole_float s t -> whole_float s t' -> t = t'.
Proof. exact whole_float_unique. Qed.
Print Assumptions C68_unique.

Definition exact_text (t : float_text) : float_text * bool := (t, true).
Example C68_float_ex :
  map (fun s => parse_floating_point exact_text s)
    [$" -0x1.8p3"; $"1e5"; $"+12.50"; $".5E-2"; $"inf"; $"-Infinity"; $"nan(1_a)"; $"0x.8"; $"1."] =
    [Some (FNum true 24 2 (-1)); Some (FNum false 1 10 5); Some (FNum false 1250 10 (-2)); Some (FNum false 5 10 (-3));
     Some (FInf false); Some (FInf true); Some (FNan false); Some (FNum false 8 2 (-4)); Some (FNum false 1 10 0)] /\
  map (fun s => parse_floating_point exact_text s)
    [[]; $" "; $"."; $"1e"; $"0x"; $"1 "; $"1.2.3"; $"infinit"; $"nan("; $"--1"; $"0x1e"; $"e5"] =
    [None; None; None; None; None; None; None; None; None; None; Some (FNum false 30 2 0); None].
Proof. split; vm_compute; reflexivity. Qed.
