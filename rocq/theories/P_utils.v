(** Properties C15-C18: /repo/aemcmc/utils.py *)
From Verif Require Import M_utils S_utils L_utils.

(** ** A small model used in the examples: a random variable [Y] (0) observed at
    [y] (1), a random variable [p] (2) with value [v] (3), a tracked variable
    [d] (4); [q] (6) is another variable, [e] (5) has an empty name. *)
Definition ex_var (s : string) (k : kind) : var := Var (Some s) (VType false 0) k None.
Definition ex_heap : heap :=
  Heap (list_to_map
    [(0, ex_var "Y" KPlain); (1, ex_var "y" KPlain); (2, ex_var "p" KPlain);
     (3, ex_var "v" KPlain); (4, ex_var "d" KPlain); (5, ex_var "" KPlain);
     (6, ex_var "q" KPlain); (7, ex_var "c" (KConst 3))]) ∅.

(** ** C15 *)

(** The result is the list of those arguments that are variables and not
    constants, in order, with multiplicity. *)
Theorem C15_remove_constants h inputs :
  remove_constants h inputs =
  omap (fun i => match i with
                 | PVar v => if is_constant h v then None else Some v
                 | PNum _ => None
                 end) inputs.
Proof. exact (remove_constants_filter h inputs). Qed.
Print Assumptions C15_remove_constants.

Theorem C15_remove_constants_idempotent h inputs :
  remove_constants h (map PVar (remove_constants h inputs)) = remove_constants h inputs.
Proof. exact (remove_constants_idem h inputs). Qed.
Print Assumptions C15_remove_constants_idempotent.

(** Position by position: keeping [v] is the same as being a variable that is no
    constant, and the number of occurrences is unchanged. *)
Theorem C15_remove_constants_count h inputs v :
  is_constant h v = false ->
  length (filter (fun w => w = v) (remove_constants h inputs)) =
  length (filter (fun i => i = PVar v) inputs).
Proof. exact (remove_constants_count h inputs v). Qed.
Print Assumptions C15_remove_constants_count.

Theorem C15_remove_constants_no_constant h inputs v :
  v ∈ remove_constants h inputs -> is_constant h v = false.
Proof. exact (remove_constants_no_constant h inputs v). Qed.
Print Assumptions C15_remove_constants_no_constant.

Example C15_example :
  remove_constants ex_heap [PVar 2; PNum 1; PVar 7; PVar 0; PVar 2] = [2; 0; 2].
Proof. vm_compute. done. Qed.

(** ** C16 *)

Theorem C16_model_info_accepts_iff h iter obs r2v det :
  set_order iter -> NoDup (dkeys r2v) ->
  (exists mi, model_info_post_init h iter obs r2v det = Ok mi) <->
  has_values obs r2v /\
  all_named h (tracked obs r2v det) /\ names_unique h (tracked obs r2v det).
Proof. intros Hi Hd. exact (model_info_accepts_iff h iter Hi obs r2v det Hd). Qed.
Print Assumptions C16_model_info_accepts_iff.

(** Otherwise a [KeyError] is raised exactly when an observed variable has no
    value, and a [ValueError] in the remaining cases. *)
Theorem C16_model_info_error h iter obs r2v det e :
  model_info_post_init h iter obs r2v det = Raise e ->
  (e = KeyError <-> ~ has_values obs r2v) /\ (e = KeyError \/ e = ValueError).
Proof. exact (model_info_error h iter obs r2v det e). Qed.
Print Assumptions C16_model_info_error.

Theorem C16_model_info_fields h iter obs r2v det mi :
  set_order iter -> NoDup (dkeys r2v) ->
  model_info_post_init h iter obs r2v det = Ok mi ->
  mi_observed_rvs mi = obs /\
  mi_unobserved_rvs mi = filter (fun k => k ∉ obs) (dkeys r2v) /\
  Forall2 (fun k v => (k, v) ∈ r2v) (mi_observed_rvs mi) (mi_observed_values mi) /\
  Forall2 (fun k v => (k, v) ∈ r2v) (mi_unobserved_rvs mi) (mi_unobserved_values mi) /\
  (forall s v, dget (mi_names_to_vars mi) s = Some v <-> tracked obs r2v det v /\ named h v s).
Proof. intros Hi Hd. exact (model_info_fields h iter Hi obs r2v det Hd mi). Qed.
Print Assumptions C16_model_info_fields.

Example C16_example_accept :
  exists mi, model_info_post_init ex_heap (fun l => rev l) [0] [(0, 1); (2, 3)] [4] = Ok mi /\
    mi_unobserved_rvs mi = [2] /\ dget (mi_names_to_vars mi) "v" = Some 3.
Proof. eexists. split; [vm_compute; reflexivity|]. vm_compute. done. Qed.
Example C16_example_set_order : set_order (fun l => rev l).
Proof. intros l. apply Permutation_sym, Permutation_rev. Qed.
Example C16_example_reject_unnamed :
  model_info_post_init ex_heap (fun l => l) [0] [(0, 1); (2, 5)] [] = Raise ValueError.
Proof. vm_compute. done. Qed.
Example C16_example_reject_missing :
  model_info_post_init ex_heap (fun l => l) [0] [(2, 3)] [] = Raise KeyError.
Proof. vm_compute. done. Qed.

(** ** C17 *)

(** The full claim, "[values_to_rvs] maps the value of each random variable back
    to it", is false: nothing forbids two random variables to share a value
    variable, and then one of them is lost. *)
Theorem C17_values_to_rvs_refuted :
  exists h iter obs r2v det mi k v,
    set_order iter /\ NoDup (dkeys r2v) /\
    model_info_post_init h iter obs r2v det = Ok mi /\
    dget r2v k = Some v /\ dget (mi_values_to_rvs mi) v <> Some k.
Proof.
  exists ex_heap, (fun l => l), [0], [(0, 1); (2, 3); (6, 3)], [], (ModelInfo [0] [(0, 1); (2, 3); (6, 3)] []
    [(1, 0); (3, 6)] [("Y", 0); ("p", 2); ("q", 6); ("y", 1); ("v", 3)] [1] [2; 6] [3; 3]), 2, 3.
  split_and!; [by intros l| |vm_compute; reflexivity|done|vm_compute; congruence].
  repeat constructor; set_solver.
Qed.
Print Assumptions C17_values_to_rvs_refuted.

(** It holds for every accepted model whose value variables are distinct. *)
Theorem C17_values_to_rvs_partial h iter obs r2v det mi :
  NoDup (dkeys r2v) ->
  model_info_post_init h iter obs r2v det = Ok mi ->
  (forall k k' v, dget r2v k = Some v -> dget r2v k' = Some v -> k = k') ->
  forall k v, dget (mi_values_to_rvs mi) v = Some k <-> dget r2v k = Some v.
Proof. intros Hd. exact (values_to_rvs_inverse h iter obs r2v det Hd mi). Qed.
Print Assumptions C17_values_to_rvs_partial.

(** With no hypothesis on the values: every value variable is mapped to one of
    the random variables that have it as value, and nothing else is mapped. *)
Theorem C17_values_to_rvs_section_partial h iter obs r2v det mi :
  NoDup (dkeys r2v) ->
  model_info_post_init h iter obs r2v det = Ok mi ->
  (forall v k, dget (mi_values_to_rvs mi) v = Some k -> dget r2v k = Some v) /\
  (forall v k, dget r2v k = Some v -> exists k', dget (mi_values_to_rvs mi) v = Some k').
Proof.
  intros Hd Hmi. split; intros v k.
  - exact (values_to_rvs_sound h iter obs r2v det Hd mi v k Hmi).
  - exact (values_to_rvs_total h iter obs r2v det mi v k Hmi).
Qed.
Print Assumptions C17_values_to_rvs_section_partial.

Example C17_example :
  exists mi, model_info_post_init ex_heap (fun l => l) [0] [(0, 1); (2, 3)] [4] = Ok mi /\
    dget (mi_values_to_rvs mi) 3 = Some 2 /\
    (forall k k' v, dget [(0, 1); (2, 3)] k = Some v -> dget [(0, 1); (2, 3)] k' = Some v -> k = k').
Proof.
  eexists. split; [vm_compute; reflexivity|]. split; [done|].
  intros k k' v. cbn. repeat case_decide; intros; simplify_eq; done.
Qed.

(** ** C18 *)

(** get_rv_updates succeeds exactly when no ancestor is an RNG that is not a
    shared variable and no ancestor has a default update other than the one the
    stream recorded for it. *)
Theorem C18_get_rv_updates_accepts_iff h su rvs anc :
  NoDup (map fst su) -> enumerates_ancestors h rvs anc ->
  (exists upd, get_rv_updates h su anc = Ok upd) <->
  (forall v, reachable h rvs v -> ~ rng_not_shared h v /\ ~ conflicting_update h su v).
Proof. intros Hsu. exact (get_rv_updates_iff h su Hsu rvs anc). Qed.
Print Assumptions C18_get_rv_updates_accepts_iff.

Theorem C18_get_rv_updates_exact h su rvs anc upd :
  NoDup (map fst su) -> enumerates_ancestors h rvs anc ->
  get_rv_updates h su anc = Ok upd ->
  NoDup (dkeys upd) /\
  forall v u, dget upd v = Some u <-> reachable h rvs v /\ wanted_update h su v u.
Proof. intros Hsu. exact (get_rv_updates_exact h su Hsu rvs anc upd). Qed.
Print Assumptions C18_get_rv_updates_exact.

(** a conflict is an [AssertionError], an RNG that is not shared an
    [AttributeError] *)
Theorem C18_get_rv_updates_error h su anc e :
  NoDup (map fst su) ->
  get_rv_updates h su anc = Raise e ->
  exists v, v ∈ anc /\
    ((e = AssertionError /\ conflicting_update h su v) \/
     (e = AttributeError /\ rng_not_shared h v)).
Proof. intros Hsu. exact (get_rv_updates_error h su Hsu anc e). Qed.
Print Assumptions C18_get_rv_updates_error.

(** The full claim says the function always returns the updates; it does not when
    a random variable was drawn with an RNG that is the output of another draw
    (e.g. [normal(rng=normal(rng=r).owner.outputs[0])]): the code reads
    [default_update], which such a variable does not have. *)
Definition chain_heap : heap :=
  Heap (list_to_map
    [(0, Var None (VType true 1) (KShared (Some 1)) None);
     (1, Var None (VType true 1) KPlain (Some (0, 0)));
     (2, Var (Some "x") (VType false 0) KPlain (Some (0, 1)));
     (3, Var None (VType true 1) KPlain (Some (1, 0)));
     (4, Var (Some "y") (VType false 0) KPlain (Some (1, 1)))])
   (list_to_map [(0, Node (ORV 0) [0] [1; 2]); (1, Node (ORV 0) [1; 2] [3; 4])]).

Example enumerates_chain : enumerates_ancestors chain_heap [4] [4; 1; 2; 0].
Proof. apply enumerates_compute. vm_compute. done. Qed.

Theorem C18_get_rv_updates_refuted :
  exists h su rvs anc, NoDup (map fst su) /\ enumerates_ancestors h rvs anc /\
    get_rv_updates h su anc = Raise AttributeError.
Proof.
  exists chain_heap, [(0, 1)], [4], [4; 1; 2; 0].
  split_and!; [repeat constructor; set_solver|exact enumerates_chain|vm_compute; reflexivity].
Qed.
Print Assumptions C18_get_rv_updates_refuted.

Example C18_example :
  enumerates_ancestors chain_heap [2] [2; 0] /\
  get_rv_updates chain_heap [(0, 1)] [2; 0] = Ok [(0, 1)].
Proof.
  split; [|vm_compute; reflexivity].
  apply enumerates_compute. vm_compute. done.
Qed.
