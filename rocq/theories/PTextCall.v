(** Property C82: texts that are callbacks. *)
From Verif Require Import Base MStrings MData MText MHelp MTextCall STextCall TextCallProofs TextCallProofs2.

(** A command with texts of its own, two arguments of which one is hidden, two
    sub-commands and an option. *)
Definition ex_texts_command : cmd_data :=
  mk_cmd
    [mk_arg ($"<file>") [] [] [] None 1 1 vis_normal 0 1; mk_arg ($"<old>") [] [] [] None 0 1 vis_hidden 0 2]
    [mk_opt [$"-o"] [] [] [] [] [] [] None OP_ASSIGN OT_NORMAL vis_normal true 3 0]
    [mk_cmd [] [] [] [] ($"add") ($"x add") [(TX_HELP, [])] vis_normal None false [] 4 [];
     mk_cmd [] [] [] [] ($"del") ($"x del") [] vis_normal None false [] 5 []]
    [] ($"x") ($"x")
    [(TX_INITIAL_TEXT, $"Welcome."); (TX_USAGE, []); (TX_HELP, []); (TX_ABOUT, []); (TX_ERROR_USAGE, [])]
    vis_normal None false [] 0 [].
Definition ex_texts_data : parser_data :=
  mk_data ex_texts_command default_settings [] 0 [].
(** Everything but INITIAL_TEXT is a callback, which returns its name; the callback of ABOUT returns
    nothing. *)
Definition ex_is_callback (s : slot) : bool := match s with S_text TX_INITIAL_TEXT => false | _ => true end.
Definition ex_answer (s : slot) : str :=
  match s with
  | S_text TX_USAGE => $"x FILE"
  | S_text TX_HELP => $"Does things."
  | S_text TX_ABOUT => []
  | S_text TX_ERROR_USAGE => $"Try again."
  | S_argument _ => $"A file."
  | S_subcommand _ => $"Adds."
  | S_option _ => $"An option."
  | _ => []
  end.
Definition ex_callbacks : text_calls := mk_calls ex_is_callback (fun _ s => Some (ex_answer s)).
(** The callbacks of the argument's help and of ERROR_USAGE throw. *)
Definition ex_throwing : text_calls :=
  mk_calls ex_is_callback (fun l s => match s with S_argument _ | S_text TX_ERROR_USAGE => None | _ => Some (ex_answer s) end).

Definition ex_order : list slot :=
  [S_text TX_USAGE; S_text TX_USAGE; S_text TX_ABOUT; S_text TX_HELP; S_argument 0; S_subcommand 0; S_option 0].
Definition ex_lines (l : list str) : str := concat (map (fun x => x ++ [c_lf]) l).
Definition ex_output (x : cres unit) : str :=
  match x with CDone _ f _ | CThrown f _ => printed f | _ => [] end.
Definition ex_called (x : cres unit) : list slot :=
  match x with CDone _ _ l | CThrown _ l => l | _ => [] end.

(** C82: when a help text has been written, the callbacks of exactly the texts that it
    needs have been called, in the order of the text, each of them has returned, and
    the text is that of a parser whose texts are the returned ones. *)
Theorem C82_help : forall console d t c f l, write_help_calls console d t c [] = CDone tt f l ->
  exists q, l = map fst q /\ returned t [] q /\ needs_help t c q /\
    forall ans, (forall s a, In (s, a) q -> ans s = a) ->
      write_help_text console d (answered (tc_called t) ans c) = TOk f.
Proof. exact help_done. Qed.
Print Assumptions C82_help.

Example C82_help_example :
  exists f, write_help_calls 80 ex_texts_data ex_callbacks ex_texts_command [] = CDone tt f ex_order /\
  printed f = ex_lines
    [$"Welcome."; []; $"USAGE"; $"x FILE"; []; $"Does things."; []; $"ARGUMENTS"; $"  <file> A file."; [];
     $"COMMANDS"; $"  add    Adds."; $"  del"; []; $"OPTIONS"; $"  -o     An option."].
Proof. eexists. split; vm_compute; reflexivity. Qed.

(** The same for error messages. *)
Theorem C82_error : forall console d t c msg f l, write_error_calls console d t c msg [] = CDone tt f l ->
  exists q, l = map fst q /\ returned t [] q /\ needs_error t c q /\
    forall ans, (forall s a, In (s, a) q -> ans s = a) ->
      write_error_message console d (answered (tc_called t) ans c) msg = TOk f.
Proof. exact error_done. Qed.
Print Assumptions C82_error.

Example C82_error_example :
  exists f, write_error_calls 80 ex_texts_data ex_callbacks ex_texts_command ($"No such file.") [] = CDone tt f [S_text TX_ERROR_USAGE] /\
  printed f = ex_lines [$"x: No such file."; $"Try again."].
Proof. eexists. split; vm_compute; reflexivity. Qed.

(** Callbacks that always return the same are as good as texts: in all outcomes, not only
    when the text could be written. *)
Theorem C82_always : forall console d t ans c msg,
  (forall l s, tc_called t s = true -> tc_answer t l s = Some (ans s)) ->
  same_outcome (write_help_text console d (answered (tc_called t) ans c)) (write_help_calls console d t c []) /\
  same_outcome (write_error_message console d (answered (tc_called t) ans c) msg) (write_error_calls console d t c msg []).
Proof. intros. split; [apply help_always|apply error_always]; exact H. Qed.
Print Assumptions C82_always.

(** Without callbacks the texts are those of the other properties. *)
Theorem C82_none : forall console d t c msg, (forall s, tc_called t s = false) ->
  same_outcome (write_help_text console d c) (write_help_calls console d t c []) /\
  same_outcome (write_error_message console d c msg) (write_error_calls console d t c msg []).
Proof. exact without_callbacks. Qed.
Print Assumptions C82_none.

Example C82_always_example :
  answered ex_is_callback ex_answer ex_texts_command <> ex_texts_command /\
  exists f, write_help_text 80 ex_texts_data ex_texts_command = TOk f /\
    printed f <> ex_output (write_help_calls 80 ex_texts_data ex_callbacks ex_texts_command []).
Proof. split; [discriminate|]. eexists. split; [vm_compute; reflexivity|]. vm_compute. discriminate. Qed.

(** No callback is called more than once, that of USAGE no more than twice; those of
    hidden items, and of texts that are not in a help text, are never called. *)
Theorem C82_once : forall console d t c f l s, write_help_calls console d t c [] = CDone tt f l ->
  times s l <= (if slot_eqb s (S_text TX_USAGE) then 2 else 1) /\
  (In s l -> tc_called t s = true /\ shown_in_help c s).
Proof. exact help_once. Qed.
Print Assumptions C82_once.

Example C82_once_example :
  times (S_argument 0) ex_order = 1 /\ times (S_text TX_USAGE) ex_order = 2 /\
  times (S_argument 1) ex_order = 0 /\ ex_is_callback (S_argument 1) = true /\
  ex_called (write_help_calls 80 ex_texts_data ex_callbacks ex_texts_command []) = ex_order.
Proof. repeat split; vm_compute; reflexivity. Qed.

(** An error message never calls the callbacks of help texts. *)
Theorem C82_error_once : forall console d t c msg f l s, write_error_calls console d t c msg [] = CDone tt f l ->
  times s l <= (if slot_eqb s (S_text TX_USAGE) then 2 else 1) /\
  (In s l -> tc_called t s = true /\ shown_in_error c s).
Proof. exact error_once. Qed.
Print Assumptions C82_error_once.

Example C82_error_once_example :
  ex_called (write_error_calls 80 ex_texts_data ex_callbacks ex_texts_command ($"No such file.") []) = [S_text TX_ERROR_USAGE] /\
  ex_called (write_error_calls 80 twice_data twice_calls twice_command ($"No such file.") []) = [S_text TX_USAGE; S_text TX_USAGE].
Proof. split; vm_compute; reflexivity. Qed.

(** What a callback throws is not swallowed: the last call is the one that has thrown,
    and what has been written and called until then is how the text begins that is
    written if the callback does not throw. *)
Theorem C82_throws : forall console d c t f l, write_help_calls console d t c [] = CThrown f l ->
  exists p s, l = p ++ [s] /\ tc_answer t p s = None /\
    forall t2, tc_called t2 = tc_called t ->
      (forall b r before, p = before ++ b :: r -> tc_answer t2 before b = tc_answer t before b) ->
    forall f2 l2, write_help_calls console d t2 c [] = CDone tt f2 l2 ->
      (exists y, printed f2 = printed f ++ y) /\ exists y, l2 = l ++ y.
Proof. exact help_thrown. Qed.
Print Assumptions C82_throws.

Example C82_throws_example :
  exists f, write_help_calls 80 ex_texts_data ex_throwing ex_texts_command [] = CThrown f (firstn 5 ex_order) /\
  printed f = ex_lines [$"Welcome."; []; $"USAGE"; $"x FILE"; []; $"Does things."].
Proof. eexists. split; vm_compute; reflexivity. Qed.

Theorem C82_error_throws : forall console d c msg t f l, write_error_calls console d t c msg [] = CThrown f l ->
  exists p s, l = p ++ [s] /\ tc_answer t p s = None /\
    forall t2, tc_called t2 = tc_called t ->
      (forall b r before, p = before ++ b :: r -> tc_answer t2 before b = tc_answer t before b) ->
    forall f2 l2, write_error_calls console d t2 c msg [] = CDone tt f2 l2 ->
      (exists y, printed f2 = printed f ++ y) /\ exists y, l2 = l ++ y.
Proof. exact error_thrown. Qed.
Print Assumptions C82_error_throws.

Example C82_error_throws_example :
  exists f, write_error_calls 80 ex_texts_data ex_throwing ex_texts_command ($"No such file.") [] = CThrown f [S_text TX_ERROR_USAGE] /\
  printed f = ex_lines [$"x: No such file."].
Proof. eexists. split; vm_compute; reflexivity. Qed.

(** A callback of USAGE is called twice, the first time only to see whether it returns
    nothing. If it returns something else the second time, then the help text is one
    that neither of the two texts gives: here a title with nothing below it. *)
Theorem C82_usage_refuted : exists console d t c f l q, write_help_calls console d t c [] = CDone tt f l /\
  returned t [] q /\ map fst q = l /\ times (S_text TX_USAGE) l = 2 /\
  forall ans, (forall s, In s l -> In (s, ans s) q) -> write_help_text console d (answered (tc_called t) ans c) <> TOk f.
Proof. exact usage_twice. Qed.
Print Assumptions C82_usage_refuted.
