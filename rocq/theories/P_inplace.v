(** Property C65: construct_ir_fgraph with [clone=False] (/repo/aemcmc/rewriting.py:54-100, 268-375)
    works on the caller's own model and leaves it the same model. *)
From Verif Require Import L_inplace L_tensor E_basic E_scan E_real P_subsume P_copy.

(** The outputs are the model's random variables themselves, each is its own original, and the
    observations are those given. *)
Theorem C65_outputs_are_the_variables T visits after h obs topo :
  canon_ok after -> model_ok h obs -> topo_order h (dkeys obs) topo ->
  let i := construct_ir_fgraph_inplace (ir_canon T visits after) h obs topo in
  (forall rv, rv ∈ ir_outputs i <-> model_rv h obs rv) /\ NoDup (ir_outputs i) /\
  (forall u rv, dget (ir_new_to_old i) u = Some rv <-> u = rv /\ model_rv h obs rv) /\
  ir_obs i = obs.
Proof.
  intros Hc Hm Ht. cbn zeta. pose proof (ir_canon_ok T visits after Hc) as Hcan.
  destruct (inplace_heap (ir_canon T visits after) h obs topo Hcan Hm Ht) as [_ ->]. split_and!.
  - intros rv. apply (rv_outputs_spec h obs topo Ht).
  - by eapply rvs_nodup.
  - intros u rv. rewrite (inplace_n2o _ h obs topo Hcan Hm Ht). by rewrite (rv_outputs_spec h obs topo Ht).
  - by apply inplace_obs.
Qed.
Print Assumptions C65_outputs_are_the_variables.

(** The model is rewritten in place: its variables stay what they are, no node outside the model
    changes, and the graph stays well formed ... *)
Theorem C65_only_the_model_is_rewritten T visits after h obs topo :
  canon_ok after -> model_ok h obs -> topo_order h (dkeys obs) topo ->
  let i := construct_ir_fgraph_inplace (ir_canon T visits after) h obs topo in
  good_heap (ir_heap i) /\
  (forall v x, hv h v = Some x -> hv (ir_heap i) v = Some x) /\
  (forall n nd, hn h n = Some nd -> (forall rv, model_rv h obs rv -> ~ node_reachable h [rv] n) -> hn (ir_heap i) n = Some nd).
Proof.
  intros Hc Hm Ht. cbn zeta. pose proof (ir_canon_ok T visits after Hc) as Hcan.
  destruct (inplace_heap (ir_canon T visits after) h obs topo Hcan Hm Ht) as [-> _].
  destruct (Hcan h _ (mo_good _ _ Hm) (mo_shuffles _ _ Hm) (rvs_draws h obs topo Hm Ht)) as (_ & H2 & _ & H4 & H5 & _).
  split_and!; [done|done|]. intros n nd Hn Hnr. apply H5; [done|]. intros (v & j & (r & Hr & Hrv) & Ho).
  apply (rv_outputs_spec h obs topo Ht) in Hr. apply (Hnr r Hr). exists v, j. split; [|done].
  exists r. split; [by left|done].
Qed.
Print Assumptions C65_only_the_model_is_rewritten.

(** ... and every variable, of the model or computed from it elsewhere, still has the value it
    had, whatever values random variables, data and generators take (given that Aesara's
    canonicalisation [after] has this property), ... *)
Theorem C65_values_kept {A} scalar other (cval : nat -> tensor A) T visits after h obs topo rho v x :
  canon_ok after -> keeps_values (tensor_base scalar other) cval after ->
  model_ok h obs -> topo_order h (dkeys obs) topo -> state_env h rho -> is_Some (hv h v) ->
  let i := construct_ir_fgraph_inplace (ir_canon T visits after) h obs topo in
  evals (tensor_base scalar other) cval h rho v x <-> evals (tensor_base scalar other) cval (ir_heap i) rho v x.
Proof.
  intros Hc Hk Hm Ht He Hv. cbn zeta.
  destruct (inplace_heap (ir_canon T visits after) h obs topo (ir_canon_ok T visits after Hc) Hm Ht) as [-> _].
  apply ir_canon_values; [apply tensor_shuffle_law|done|apply (mo_good _ _ Hm)|apply (mo_shuffles _ _ Hm)| |done|done].
  by eapply rvs_draws.
Qed.
Print Assumptions C65_values_kept.

(** ... so the model still has its joint density. *)
Theorem C65_density_kept {A} scalar other (cval : nat -> tensor A) ld T visits after
    h obs topo (rho sigma : vid -> option (tensor A)) l :
  canon_ok after -> keeps_densities (tensor_base scalar other) cval ld after ->
  model_ok h obs -> topo_order h (dkeys obs) topo ->
  data_env h rho -> (forall v, is_Some (sigma v) -> model_rv h obs v) ->
  let i := construct_ir_fgraph_inplace (ir_canon T visits after) h obs topo in
  joint (tensor_base scalar other) cval ld h rho sigma (rv_outputs h topo) l <->
  joint (tensor_base scalar other) cval ld (ir_heap i) rho sigma (ir_outputs i) l.
Proof.
  intros Hc Hk Hm Ht Hd Hs. cbn zeta.
  destruct (inplace_heap (ir_canon T visits after) h obs topo (ir_canon_ok T visits after Hc) Hm Ht) as [-> ->].
  pose proof (ir_canon_keeps (tensor_base scalar other) cval ld T visits after (tensor_shuffle_law scalar other) Hk
    h (rv_outputs h topo) (mo_good _ _ Hm) (mo_shuffles _ _ Hm) (rvs_draws h obs topo Hm Ht) rho sigma Hd) as Hf.
  assert (Hdr : draws_env h sigma).
  { intros v Hv. apply (rvs_draws h obs topo Hm Ht). apply (rv_outputs_spec h obs topo Ht). by apply Hs. }
  specialize (Hf Hdr). unfold joint.
  assert (Hall : forall rs ls, (forall r, r ∈ rs -> r ∈ rv_outputs h topo) ->
    Forall2 (factor (tensor_base scalar other) cval ld h rho sigma) rs ls <->
    Forall2 (factor (tensor_base scalar other) cval ld (ir_canon T visits after h (rv_outputs h topo)).1 rho sigma) rs ls).
  { induction rs as [|r rs IH]; intros ls Hrs; [split; intros Hx; inversion Hx; constructor|].
    assert (IH' := fun ls => IH ls (fun q Hq => Hrs q (elem_of_list_further _ _ _ Hq))).
    split; intros Hx; inversion Hx as [|? y ? ys Hy Hys]; subst; constructor.
    - apply Hf; [apply Hrs; by left|done].
    - by apply IH'.
    - apply Hf; [apply Hrs; by left|done].
    - by apply IH'. }
  split; intros (ls & Hls & ->); exists ls; (split; [|done]); by apply Hall.
Qed.
Print Assumptions C65_density_kept.

(** ** The model of C56 again *)
Definition ip_i : ir := construct_ir_fgraph_inplace (ir_canon sub_T cp_visits cp_after) cp_h cp_obs cp_topo.

Example C65_example_hypotheses :
  canon_ok cp_after /\ model_ok cp_h cp_obs /\ topo_order cp_h (dkeys cp_obs) cp_topo /\
  (forall D base (cval : nat -> D), keeps_values base cval cp_after) /\
  (forall D base (cval : nat -> D) ld, keeps_densities base cval ld cp_after) /\ state_env cp_h cp_rho.
Proof.
  split_and!; [apply cp_after_ok|apply cp_model_ok|apply cp_topo_ok| |apply cp_after_ok|].
  - by intros D base cval h outs _ _ _ rho _ v x _.
  - intros v Hv. destruct (proj1 C56_example_env v Hv) as (H1 & H2 & H3). split_and!; [done|done|by left].
Qed.

(** the observed variable 10 now reads the subsumed product instead of 8, in the caller's graph *)
Example C65_example :
  ir_outputs ip_i = [6; 10] /\
  match hn (ir_heap ip_i) 3 with
  | Some nd => exists v, n_ins nd !! 3 = Some v /\ v <> 8 /\
      owner_op (ir_heap ip_i) v = Some (OSubsume E_mul [SIn 0 (Some [None; Some 0]); SIn 1 None])
  | None => False
  end /\
  joint_eval cp_base cp_cval cp_ld (ir_heap ip_i) cp_rho cp_sigma (ir_outputs ip_i) = Some [-52; -7]%Z /\
  is_Some (hv cp_h 8).
Proof.
  split; [vm_compute; reflexivity|]. split; [vm_compute; eexists; repeat split; discriminate|].
  split; [vm_compute; reflexivity|vm_compute; by eauto].
Qed.
