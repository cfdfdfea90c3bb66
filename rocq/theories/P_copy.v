(** Property C56: the copy of the model that samplers are looked up in is the caller's model
    (/repo/aemcmc/rewriting.py:54-100, 268-375) *)
From Verif Require Import S_copy L_copy L_tensor E_basic E_scan E_real P_subsume.

(** construct_ir_fgraph clones the model and rewrites the clone with sampler_ir_db: the
    dimension-shuffle subsumption of aemcmc, on whatever nodes and in whatever order, then
    Aesara's canonicalisation [after], of which it is assumed that it keeps the graph well
    formed and the densities of the random variables.  The copy has one random variable for
    each one of the model, and, whatever values the random variables take, the same joint
    log-density.  Tensors have any rank and shape; [scalar] is any family of scalar functions,
    [other] any meaning of all other operators, and [ld] any family of log-densities. *)
Theorem C56_copy_has_the_density {A} scalar other (cval : nat -> tensor A) ld T visits after
    h obs topo topo_rv (rho sigma : vid -> option (tensor A)) l :
  canon_ok after -> keeps_densities (tensor_base scalar other) cval ld after ->
  model_ok h obs -> topo_order h (dkeys obs) topo -> topo_order h (rv_outputs h topo) topo_rv ->
  data_env h rho -> (forall v, is_Some (sigma v) -> model_rv h obs v) ->
  let i := construct_ir_fgraph (ir_canon T visits after) h obs topo topo_rv in
  joint (tensor_base scalar other) cval ld h rho sigma (rv_outputs h topo) l <->
  joint (tensor_base scalar other) cval ld (ir_heap i) rho
    (fun u => rv ← dget (ir_new_to_old i) u; sigma rv) (ir_outputs i) l.
Proof.
  intros Hc Hk Hm Ht Htr Hd Hs. cbn zeta. apply ir_joint; try done.
  - by apply ir_canon_ok.
  - apply ir_canon_keeps; [apply tensor_shuffle_law|done].
Qed.
Print Assumptions C56_copy_has_the_density.

(** Variable by variable: the copies are, in order, copies of the model's random variables,
    each with the density of its original given the other variables. *)
Theorem C56_copies_have_the_conditionals {A} scalar other (cval : nat -> tensor A) ld T visits after
    h obs topo topo_rv (rho sigma : vid -> option (tensor A)) :
  canon_ok after -> keeps_densities (tensor_base scalar other) cval ld after ->
  model_ok h obs -> topo_order h (dkeys obs) topo -> topo_order h (rv_outputs h topo) topo_rv ->
  data_env h rho -> (forall v, is_Some (sigma v) -> model_rv h obs v) ->
  let i := construct_ir_fgraph (ir_canon T visits after) h obs topo topo_rv in
  Forall2 (fun rv u => dget (ir_new_to_old i) u = Some rv /\
      forall l, factor (tensor_base scalar other) cval ld h rho sigma rv l <->
        factor (tensor_base scalar other) cval ld (ir_heap i) rho
          (fun u => rv ← dget (ir_new_to_old i) u; sigma rv) u l)
    (rv_outputs h topo) (ir_outputs i).
Proof.
  intros Hc Hk Hm Ht Htr Hd Hs. cbn zeta. apply ir_factors; try done.
  - by apply ir_canon_ok.
  - apply ir_canon_keeps; [apply tensor_shuffle_law|done].
Qed.
Print Assumptions C56_copies_have_the_conditionals.

(** The copies of the observed variables, and nothing else, are observed, with the same values. *)
Theorem C56_copy_has_the_observations T visits after h obs topo topo_rv :
  canon_ok after ->
  model_ok h obs -> topo_order h (dkeys obs) topo -> topo_order h (rv_outputs h topo) topo_rv ->
  let i := construct_ir_fgraph (ir_canon T visits after) h obs topo topo_rv in
  forall u w, dget (ir_obs i) u = Some w <-> exists k, dget (ir_new_to_old i) u = Some k /\ dget obs k = Some w.
Proof. intros Hc Hm Ht Htr. cbn zeta. intros u w. apply ir_obs_eq; try done. by apply ir_canon_ok. Qed.
Print Assumptions C56_copy_has_the_observations.

(** The part of the rewriting that is aemcmc's own meets the contract that the theorems on
    construct_sampler assume of the whole: it keeps the graph well formed and acyclic, keeps
    its outputs, touches nothing outside and brings in only new objects. *)
Theorem C56_rewriting_meets_contract T visits after : canon_ok after -> canon_ok (ir_canon T visits after).
Proof. apply ir_canon_ok. Qed.
Print Assumptions C56_rewriting_meets_contract.

(** ** A concrete case: a ~ normal(1, 1) is a vector, Y ~ normal(a.dimshuffle("x", 0) * X, 1) a
    matrix, Y observed.  The product is subsumed. *)
Definition cp_h : heap :=
  let rng k ow := Var None (VType true 20) k ow in
  Heap (list_to_map
    [(0, rng (KShared None) None); (1, Var None (rk 0) (KConst 0) None); (2, Var None (rk 0) (KConst 0) None);
     (3, Var None (rk 0) (KConst 1) None); (4, Var None (rk 2) KPlain None);
     (5, rng KPlain (Some (0, 0))); (6, Var None (rk 1) KPlain (Some (0, 1)));
     (7, Var None (rk 2) KPlain (Some (1, 0))); (8, Var None (rk 2) KPlain (Some (2, 0)));
     (9, rng KPlain (Some (3, 0))); (10, Var None (rk 2) KPlain (Some (3, 1)));
     (11, Var None (rk 2) KPlain None)])
   (list_to_map
    [(0, Node (ORV RV_normal) [0; 1; 2; 3; 3] [5; 6]); (1, Node (ODimShuffle [None; Some 0]) [6] [7]);
     (2, Node (OElem E_mul) [7; 4] [8]); (3, Node (ORV RV_normal) [0; 1; 2; 8; 3] [9; 10])]).
Definition cp_obs : dict nat nat := [(10, 11)].
Definition cp_topo : list nid := [0; 1; 2; 3].
Definition cp_after (h : heap) (outs : list vid) : heap * list vid := (h, outs).
Definition cp_visits (h : heap) (outs : list vid) : list nid := elements (fg_nodes h outs).
Definition cp_i : ir := construct_ir_fgraph (ir_canon sub_T cp_visits cp_after) cp_h cp_obs cp_topo cp_topo.

Lemma cp_topo_ok : topo_order cp_h (dkeys cp_obs) cp_topo.
Proof. apply topo_check_spec. vm_compute. reflexivity. Qed.
Lemma cp_topo_rv_ok : topo_order cp_h (rv_outputs cp_h cp_topo) cp_topo.
Proof. apply topo_check_spec. vm_compute. reflexivity. Qed.
Lemma cp_model_ok : model_ok cp_h cp_obs.
Proof. apply (model_check_ok _ _ _ cp_topo_ok). vm_compute. reflexivity. Qed.
Lemma cp_after_ok : canon_ok cp_after /\
  forall D base (cval : nat -> D) ld, keeps_densities base cval ld cp_after.
Proof. split; [apply (ct_canon _ re_contracts)|]. by intros D base cval ld h outs _ _ _ rho sigma _ _ r l _. Qed.

Definition cp_rho : vid -> option (tensor Z) := fun v => if decide (v = 4) then Some (Tensor [2; 2] [1; 2; 3; 4]%Z) else None.
Definition cp_sigma : vid -> option (tensor Z) := fun v =>
  if decide (v = 6) then Some (Tensor [2] [5; 7]%Z)
  else if decide (v = 10) then Some (Tensor [2; 2] [6; 15; 14; 30]%Z) else None.
Definition cp_cval (c : nat) : tensor Z := Tensor [] [Z.of_nat c].
Definition cp_base := tensor_base (fun s xs => if decide (s = E_mul) then Some (foldr Z.mul 1%Z xs) else None)
  (fun _ _ => @None (list (tensor Z))).
(** the log-density of a normal with unit scale, up to a factor and a constant; a scalar
    location is repeated *)
Definition cp_ld (d : nat) (xs : list (tensor Z)) (x : tensor Z) : Z :=
  match xs with
  | [_; _; mu; _] =>
      foldr Z.add 0%Z (imap (fun k y => - (y - default 1 (t_data mu !! k)) * (y - default 1 (t_data mu !! k)))%Z (t_data x))
  | _ => 0%Z
  end.

Example C56_example_env : data_env cp_h cp_rho /\ (forall v, is_Some (cp_sigma v) -> model_rv cp_h cp_obs v).
Proof.
  split.
  - intros v. unfold cp_rho. case_decide as H; [|by intros [? ?]]. subst. intros _. vm_compute. split_and!; [by eauto|reflexivity|reflexivity].
  - intros v Hv. apply (rv_outputs_spec cp_h cp_obs cp_topo cp_topo_ok).
    assert (Hd : v = 6 \/ v = 10).
    { unfold cp_sigma in Hv. case_decide; [by left|]. case_decide; [by right|]. by destruct Hv. }
    apply (bool_decide_eq_true_1 _). destruct Hd as [-> | ->]; vm_compute; reflexivity.
Qed.

Example C56_example :
  (* the copy reads the subsumed product *)
  match ir_outputs cp_i with
  | [_; y] => match owner (ir_heap cp_i) y with
              | Some (n, _) => match hn (ir_heap cp_i) n with
                 | Some nd => exists v, n_ins nd !! 3 = Some v /\ v <> 8 /\
                     owner_op (ir_heap cp_i) v = Some (OSubsume E_mul [SIn 0 (Some [None; Some 0]); SIn 1 None])
                 | None => False
                 end
              | None => False
              end
  | _ => False
  end /\
  joint_eval cp_base cp_cval cp_ld cp_h cp_rho cp_sigma (rv_outputs cp_h cp_topo) = Some [-52; -7]%Z /\
  joint_eval cp_base cp_cval cp_ld (ir_heap cp_i) cp_rho (fun u => rv ← dget (ir_new_to_old cp_i) u; cp_sigma rv) (ir_outputs cp_i) =
    Some [-52; -7]%Z.
Proof. split; [vm_compute; eexists; repeat split; discriminate|]. split; vm_compute; reflexivity. Qed.
