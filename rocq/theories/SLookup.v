(** Specification used by PLookup.v. *)
From Verif Require Import Base MData MValues MResults SResults.

(** The names under which an argument or option can be looked up. *)
Definition item_names (i : iview) : list str :=
  match i with
  | ArgumentView a => a_name a :: match a_alias a with [] => [] | s => [s] end
  | OptionView o => o_flags o ++ match o_alias o with [] => [] | s => [s] end
  end.

(** Every item of [c] with the name [name] that has a value shares it with [i]. *)
Definition shared_name (c : cmd_data) (i : iview) (name : str) : Prop :=
  In i (listed c) /\ valueless i = false /\ In name (item_names i) /\
  forall j, In j (listed c) -> valueless j = false -> In name (item_names j) ->
    view_value_id j = view_value_id i.

(** An option that stops the parsing. *)
Definition stops (o : opt_data) : Prop :=
  o_type o = OT_STOP \/ o_type o = OT_EXIT \/ o_type o = OT_HELP.

(** No option of operation NONE has been given an initial value. *)
Definition no_idle_values (c : cmd_data) : Prop :=
  forall o, In o (c_options c) -> o_operation o = OP_NONE -> o_initial_value o = [].
