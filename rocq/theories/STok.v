(** Specification of the tokenizers (C01-C03, C06-C08). Only the type of the
    iterator and its operations come from the model. *)
From Verif Require Import Base MOptIter.

(** What a parser may ask of a tokenizer. Copying is included because the parser
    looks ahead on a copy; in the model a copy is the same value. *)
Inductive tok_op := TNext | TNextValue | TRemaining | TInsert (new : list str) | TCopy.

(** One operation; [Bad] is an access out of range or an exception. *)
Definition tok_step (op : tok_op) (it : opt_iter) : res opt_iter :=
  match op with
  | TNext => match it_next it with Ok (_, it') => Ok it' | Bad => Bad end
  | TNextValue => match it_next_value it with Ok (_, it') => Ok it' | Bad => Bad end
  | TRemaining => match it_remaining it with Ok (_, it') => Ok it' | Bad => Bad end
  | TInsert new => it_insert it new
  | TCopy => Ok it
  end.

Fixpoint tok_run (ops : list tok_op) (it : opt_iter) : res opt_iter :=
  match ops with
  | [] => Ok it
  | op :: r => match tok_step op it with Ok it' => tok_run r it' | Bad => Bad end
  end.

(** [it] can be reached from a fresh tokenizer of kind [k]. *)
Definition tok_reachable (k : iter_kind) (it : opt_iter) : Prop :=
  exists args ops, tok_run ops (it_start k args) = Ok it.

(** [drains it ts]: asking for the next token repeatedly gives exactly [ts] and
    then the end. *)
Inductive drains : opt_iter -> list str -> Prop :=
| drains_end : forall it it', it_next it = Ok (None, it') -> drains it []
| drains_token : forall it it' t ts,
    it_next it = Ok (Some t, it') -> drains it' ts -> drains it (t :: ts).

(** [value_drains it vs]: likewise when asking for values, as the parser does
    after a LAST_OPTION option. *)
Inductive value_drains : opt_iter -> list str -> Prop :=
| vdrains_end : forall it it', it_next_value it = Ok (None, it') -> value_drains it []
| vdrains_value : forall it it' v vs,
    it_next_value it = Ok (Some v, it') -> value_drains it' vs ->
    value_drains it (v :: vs).

(** The tokens of one argument, standard style. *)
Inductive std_arg_tokens : str -> list str -> Prop :=
| sat_short : forall a, length a <= 2 -> std_arg_tokens a [a]
| sat_plain : forall a, hd_error a <> Some "-"%char -> std_arg_tokens a [a]
| sat_group : forall c cs, c <> "-"%char ->
    std_arg_tokens ("-"%char :: c :: cs) (map (fun f => ["-"%char; f]) (c :: cs))
| sat_long : forall r, ~ In "="%char r ->
    std_arg_tokens ("-"%char :: "-"%char :: r) ["-"%char :: "-"%char :: r]
| sat_long_eq : forall r v, ~ In "="%char r ->
    std_arg_tokens ("-"%char :: "-"%char :: r ++ "="%char :: v)
      ["-"%char :: "-"%char :: r ++ ["="%char]].

(** The token of one argument, slash or dash style. *)
Inductive prefix_arg_token (prefix : ascii) : str -> str -> Prop :=
| pat_short : forall a, length a <= 2 -> prefix_arg_token prefix a a
| pat_plain : forall a, hd_error a <> Some prefix -> prefix_arg_token prefix a a
| pat_no_eq : forall a, ~ In "="%char a -> prefix_arg_token prefix a a
| pat_eq : forall r v, hd_error r = Some prefix -> ~ In "="%char r ->
    2 < length (r ++ "="%char :: v) ->
    prefix_arg_token prefix (r ++ "="%char :: v) (r ++ ["="%char]).

(** [suffix_of s l]: [s] is the end of [l]. *)
Definition suffix_of {A} (s l : list A) : Prop := exists p, l = p ++ s.
