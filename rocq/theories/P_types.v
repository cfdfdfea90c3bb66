(** Property C12: the stages of a [Sampler] (/repo/aemcmc/types.py) *)
From Verif Require Import M_types S_types L_types.

(** A [Sampler] can be built exactly when every step is the output of a node. *)
Theorem C12_stages_defined_iff opkey steps :
  (exists st, sampler_stages opkey steps = Ok st) <->
  (forall rv s, (rv, s) ∈ steps -> exists k, opkey s = Some k).
Proof. exact (sampler_stages_total opkey steps). Qed.
Print Assumptions C12_stages_defined_iff.

(** The stages: the kernels in order of first use, each with its variables in the
    order of [sample_steps]. *)
Theorem C12_stages_exact opkey steps st l :
  sampler_stages opkey steps = Ok st -> tagged opkey steps = Some l ->
  dkeys st = first_uses l.*1 /\
  forall k, dget st k = if decide (k ∈ l.*1) then Some (members k l) else None.
Proof. exact (sampler_stages_exact opkey steps st l). Qed.
Print Assumptions C12_stages_exact.

(** Every variable of [sample_steps] is listed exactly once, under the operator
    of its step, and nothing else is listed. *)
Theorem C12_stages_partition_partial opkey steps st :
  NoDup (dkeys steps) -> sampler_stages opkey steps = Ok st ->
  concat (dvalues st) ≡ₚ dkeys steps /\
  NoDup (dkeys st) /\
  (forall k rvs rv, dget st k = Some rvs ->
     (rv ∈ rvs <-> exists s, (rv, s) ∈ steps /\ opkey s = Some k)) /\
  (forall k rvs, dget st k = Some rvs -> sublist rvs (dkeys steps)).
Proof. exact (sampler_stages_partition opkey steps st). Qed.
Print Assumptions C12_stages_partition_partial.

(** Reading the stages one after the other gives the scan order exactly when steps
    with equal operators are not separated by another operator. *)
Theorem C12_stages_scan_order_iff opkey steps st l :
  NoDup (dkeys steps) -> sampler_stages opkey steps = Ok st -> tagged opkey steps = Some l ->
  (concat (dvalues st) = dkeys steps <-> contiguous l.*1).
Proof. exact (sampler_stages_order_iff opkey steps st l). Qed.
Print Assumptions C12_stages_scan_order_iff.

(** The claim that the stages are sorted in scan order (types.py:34) is false: the
    closed-form steps of two beta variables have equal operators, so a model with
    variables p1 ~ Beta, z ~ Gamma, p2 ~ Beta (steps 10, 11, 12) gives the stages
    [{Beta: [p1, p2], Gamma: [z]}]. *)
Theorem C12_stages_scan_order_refuted :
  exists opkey steps st, NoDup (dkeys steps) /\ sampler_stages opkey steps = Ok st /\
    concat (dvalues st) <> dkeys steps.
Proof.
  exists (fun s => if decide (s = 11) then Some 7 else Some 5), [(0, 10); (1, 11); (2, 12)],
    [(5, [0; 2]); (7, [1])].
  split_and!; [repeat constructor; set_solver|vm_compute; reflexivity|vm_compute; congruence].
Qed.
Print Assumptions C12_stages_scan_order_refuted.

(** non-vacuity: two horseshoe scales under one kernel, then beta *)
Example C12_example :
  let steps := [(0, 10); (1, 11); (2, 12)] in
  let opkey := fun s => if decide (s = 12) then Some 7 else Some 5 in
  NoDup (dkeys steps) /\ sampler_stages opkey steps = Ok [(5, [0; 1]); (7, [2])] /\
  tagged opkey steps = Some [(5, 0); (5, 1); (7, 2)].
Proof. split_and!; [repeat constructor; set_solver|vm_compute; reflexivity|vm_compute; reflexivity]. Qed.
