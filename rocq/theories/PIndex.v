(** Properties of the option index and of flag lookup: C09-C13.
    The specification is in SIndex.v. *)
From Coq Require Import Permutation Sorting.Sorted.
From Verif Require Import Base MStrings MData SStrings SIndex IndexProofs.

(** C09. A flag written in full selects the option that declares it. *)
Theorem C09_own_flag : forall opts index f o abbrev,
  build_option_index false opts = Val index -> declared opts f o ->
  find_option_in index f abbrev false = Some o.
Proof. exact own_flag_proof. Qed.
Print Assumptions C09_own_flag.

Definition ex_opts : list opt_data :=
  [new_option [$"--all"; $"-a"];
   new_option [$"--all-files"];
   mk_opt [$"--file="; $"-f"] [] [] [] ($"FILE") [] [] None OP_APPEND OT_NORMAL
     vis_normal true 0 0;
   mk_opt [$"--output"] [] [] [] ($"FILE") [] [] None OP_ASSIGN OT_NORMAL
     vis_normal true 0 0].

Example C09_example : exists index,
  build_option_index false ex_opts = Val index /\
  declared ex_opts ($"--all") (new_option [$"--all"; $"-a"]) /\
  find_option_in index ($"--all") true false = Some (new_option [$"--all"; $"-a"]).
Proof.
  eexists. split; [vm_compute; reflexivity|]. split.
  - split; [left; reflexivity|]. left. reflexivity.
  - vm_compute. reflexivity.
Qed.

(** C10. Lookup of any string, case-sensitively. *)
Theorem C10_lookup : forall opts index s abbrev o,
  build_option_index false opts = Val index ->
  (find_option_in index s abbrev false = Some o <-> selects false abbrev opts s o).
Proof.
  exact (fun opts index s abbrev o =>
    lookup_proof false opts index s abbrev o
      (fun E => match Bool.diff_false_true E with end)
      (fun E => match Bool.diff_false_true E with end)).
Qed.
Print Assumptions C10_lookup.

(** A string selects at most one option: the rules are unambiguous. *)
Theorem C10_selects_unique : forall opts index s abbrev o1 o2,
  build_option_index false opts = Val index ->
  selects false abbrev opts s o1 -> selects false abbrev opts s o2 -> o1 = o2.
Proof. exact selects_unique_proof. Qed.
Print Assumptions C10_selects_unique.

Example C10_example : exists index,
  build_option_index false ex_opts = Val index /\
  find_option_in index ($"--fil") true false = nth_error ex_opts 2 /\
  find_option_in index ($"--fil") false false = None /\
  find_option_in index ($"--al") true false = None /\
  find_option_in index ($"--output=") false false = nth_error ex_opts 3 /\
  find_option_in index ($"--all=") false false = None.
Proof. eexists. split; [vm_compute; reflexivity|]. vm_compute. repeat split. Qed.

(** C11. Lookup without regard to case, over the safe alphabet. *)
Theorem C11_lookup_ci : forall opts index s abbrev o,
  (forall f, In f (all_flags opts) -> safe f) -> safe s ->
  build_option_index true opts = Val index ->
  (find_option_in index s abbrev true = Some o <-> selects true abbrev opts s o).
Proof.
  exact (fun opts index s abbrev o S Ss =>
    lookup_proof true opts index s abbrev o (fun _ => S) (fun _ => Ss)).
Qed.
Print Assumptions C11_lookup_ci.

Theorem C11_own_flag_ci : forall opts index f g o abbrev,
  (forall f, In f (all_flags opts) -> safe f) -> safe g ->
  build_option_index true opts = Val index -> declared opts f o ->
  lower f = lower g -> find_option_in index g abbrev true = Some o.
Proof.
  exact (fun opts index f g o abbrev S =>
    own_flag_ci_proof opts index f g o abbrev (fun _ => S)).
Qed.
Print Assumptions C11_own_flag_ci.

Example C11_example : exists index,
  (forall f, In f (all_flags ex_opts) -> safe f) /\ safe ($"--ALL") /\
  build_option_index true ex_opts = Val index /\
  find_option_in index ($"--ALL") true true = nth_error ex_opts 0 /\
  find_option_in index ($"--OUT=") true true = nth_error ex_opts 3.
Proof.
  eexists. split; [|split; [|split; [vm_compute; reflexivity|]]].
  - intros f Hf c Hc. simpl in Hf. intuition subst; simpl in Hc; intuition subst; reflexivity.
  - intros c Hc. simpl in Hc. intuition subst; reflexivity.
  - vm_compute. split; reflexivity.
Qed.

(** C11 fails outside the safe alphabet: with the flags "--_" and "--a" the
    definition is accepted, but whichever way the index is ordered one of the two
    flags is not found. *)
Theorem C11_lookup_ci_refuted : exists opts,
  NoDup (map lower (all_flags opts)) /\
  (exists index, build_option_index true opts = Val index) /\
  forall index, Permutation (index_entries opts) index ->
    exists f o, declared opts f o /\ find_option_in index f false true = None.
Proof. exact lookup_ci_refuted_proof. Qed.
Print Assumptions C11_lookup_ci_refuted.

(** C12. A definition is rejected by the index iff a flag occurs twice. *)
Theorem C12_duplicates : forall opts,
  (exists index, build_option_index false opts = Val index) <-> NoDup (all_flags opts).
Proof. exact duplicates_cs_proof. Qed.
Print Assumptions C12_duplicates.

Theorem C12_duplicates_ci : forall opts,
  (forall f, In f (all_flags opts) -> safe f) ->
  ((exists index, build_option_index true opts = Val index) <->
   NoDup (map lower (all_flags opts))).
Proof. exact (fun opts S => duplicates_proof true opts (fun _ => S)). Qed.
Print Assumptions C12_duplicates_ci.

(** Without regard to case and outside the safe alphabet, duplicates may go
    undetected: "--A" and "--a" are both accepted if "--`" is there too. *)
Theorem C12_duplicates_ci_refuted : exists opts index,
  build_option_index true opts = Val index /\ ~ NoDup (map lower (all_flags opts)).
Proof. exact duplicates_ci_refuted_proof. Qed.
Print Assumptions C12_duplicates_ci_refuted.

Example C12_example :
  NoDup (all_flags ex_opts) /\
  build_option_index false (ex_opts ++ [new_option [$"-x"; $"--all"]]) =
    Exn (EDuplicateFlag ($"--all")) /\
  build_option_index true [new_option [$"-x"]; new_option [$"-X"]] =
    Exn (EConflictingFlags ($"-x") ($"-X")).
Proof.
  split; [|split; vm_compute; reflexivity].
  vm_compute. repeat (constructor; [simpl; intuition discriminate|]). constructor.
Qed.

(** C13. Acceptance and lookups are the same for all sorting algorithms. *)
Theorem C13_sort_independent : forall ci opts i1 i2, safe_flags ci opts ->
  sorted_index ci opts i1 -> sorted_index ci opts i2 ->
  ((exists r, check_index ci i1 = Val r) <-> (exists r, check_index ci i2 = Val r)) /\
  (forall r1 r2 s abbrev, (ci = true -> safe s) ->
     check_index ci i1 = Val r1 -> check_index ci i2 = Val r2 ->
     find_option_in r1 s abbrev ci = find_option_in r2 s abbrev ci).
Proof. exact sort_independent_proof. Qed.
Print Assumptions C13_sort_independent.

(** Case-sensitively the accepted index itself is the same. *)
Theorem C13_index_unique : forall opts i1 i2,
  sorted_index false opts i1 -> sorted_index false opts i2 ->
  check_index false i1 = Val i1 -> i1 = i2.
Proof. exact index_unique_proof. Qed.
Print Assumptions C13_index_unique.

(** The index of the model is one of the sorted ones. *)
Theorem C13_model_index_sorted : forall ci opts index, safe_flags ci opts ->
  build_option_index ci opts = Val index -> sorted_index ci opts index.
Proof. exact model_index_sorted_proof. Qed.
Print Assumptions C13_model_index_sorted.

Example C13_example : exists index,
  build_option_index false ex_opts = Val index /\
  map fst index = [$"--all"; $"--all-files"; $"--file="; $"--output"; $"-a"; $"-f"].
Proof. eexists. split; vm_compute; reflexivity. Qed.
