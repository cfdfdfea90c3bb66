(** construct_sampler with the finders that aemcmc registers, its own nuts.step and Aesara's
    graph_inputs (M_whole.v).  Every theorem of P_basic.v about an environment that meets
    [contracts] applies to it, whatever the rewriter calls, in whatever order, and whatever the
    log-density graph of joint_logprob. *)
From Verif Require Import L_whole E_nuts.

(** The contracts assumed in P_basic.v are met by the modelled code.  What remains assumed
    concerns code outside aemcmc: canonicalisation keeps the graph well-formed ([canon_ok]),
    the rewriter calls the registered finders on nodes of the graph ([sched_ok]), in2out visits
    the nodes of the graph ([order_ok]), iterating over a set yields its elements ([iter_ok]),
    and joint_logprob only creates nodes ([lp_ok]). *)
Theorem C01_modelled_code_meets_the_contracts canon sched order iter B tr lp nr kernel :
  canon_ok canon -> sched_ok sched -> order_ok order -> iter_ok iter -> lp_ok lp ->
  contracts (whole canon sched order iter B tr lp nr kernel) /\
  nuts_pairable (whole canon sched order iter B tr lp nr kernel).
Proof. intros A1 A2 A3 A4 A5. split; [exact (whole_contracts _ _ _ _ B tr _ nr kernel A1 A2 A3 A4 A5)|exact (whole_pairable _ _ _ _ B tr _ nr kernel A5)]. Qed.
Print Assumptions C01_modelled_code_meets_the_contracts.

(** C01 for the modelled code: construct_sampler returns when the observed values and the
    discovered steps have the types of their variables, and the steps are for exactly the
    unobserved random variables of the model. *)
Theorem C01_modelled_code_returns_one_step_per_variable canon sched order iter B tr lp nr kernel h obs topo topo_rv :
  canon_ok canon -> sched_ok sched -> order_ok order -> iter_ok iter -> lp_ok lp ->
  let o := whole canon sched order iter B tr lp nr kernel in
  model_ok h obs -> topo_order h (dkeys obs) topo -> topo_order h (rv_outputs h topo) topo_rv ->
  (forall k v, (k, v) ∈ obs -> ty_of h k = ty_of h v) ->
  (forall i outs inits st0 rv f, sampler_init o h obs topo topo_rv = (i, outs, inits, st0) ->
     rv ∈ outs -> chosen (st_found st0) rv = Some f -> ty_of (st_heap st0) (f_step f) = ty_of (st_heap st0) rv) ->
  exists s, construct_sampler o h obs topo topo_rv = Ok s /\
    NoDup (dkeys (s_steps s)) /\ forall rv, rv ∈ dkeys (s_steps s) <-> model_rv h obs rv /\ rv ∉ dkeys obs.
Proof.
  intros A1 A2 A3 A4 A5 o Hm Ht Htr Hobs Hst.
  pose proof (whole_contracts _ _ _ _ B tr _ nr kernel A1 A2 A3 A4 A5) as Hc.
  destruct (construct_total o h obs topo topo_rv Hc Hm Ht Htr Hobs Hst (whole_pairable _ _ _ _ B tr _ nr kernel A5)) as [s Hs].
  exists s. split; [exact Hs|exact (steps_keys o h obs topo topo_rv Hc Hm Ht Htr s Hs)].
Qed.
Print Assumptions C01_modelled_code_returns_one_step_per_variable.

(** A model with a normal, a beta and two observed variables: the beta variable gets the
    conjugate step that the registered finder discovers, the normal one a NUTS step. *)
Definition wh_o : oracles :=
  whole (fun h outs => (h, outs)) out_calls (fun h roots => elements (fg_nodes h roots)) (fun l => rev l)
    re_B aeppl_default nu_lp 1 99.
Lemma wh_ok : canon_ok (fun h outs => (h, outs)) /\ sched_ok out_calls /\
  order_ok (fun h roots => elements (fg_nodes h roots)) /\ iter_ok (fun l => rev l) /\ lp_ok nu_lp.
Proof.
  split_and!; [apply (ct_canon _ re_contracts)|apply out_calls_ok|apply (ct_order _ re_contracts)|apply (ct_iter _ re_contracts)|apply nu_lp_ok].
Qed.
Definition wh_types : bool :=
  match sampler_init wh_o (re_h 3) re_obs re_topo re_topo with
  | (_, outs, _, st0) => forallb (fun rv => match chosen (st_found st0) rv with
      | Some f => bool_decide (ty_of (st_heap st0) (f_step f) = ty_of (st_heap st0) rv)
      | None => true end) outs
  end.
Example C01_modelled_code_hypotheses_met :
  model_ok (re_h 3) re_obs /\ topo_order (re_h 3) (dkeys re_obs) re_topo /\
  topo_order (re_h 3) (rv_outputs (re_h 3) re_topo) re_topo /\
  (forall k v, (k, v) ∈ re_obs -> ty_of (re_h 3) k = ty_of (re_h 3) v) /\
  (forall i outs inits st0 rv f, sampler_init wh_o (re_h 3) re_obs re_topo re_topo = (i, outs, inits, st0) ->
     rv ∈ outs -> chosen (st_found st0) rv = Some f -> ty_of (st_heap st0) (f_step f) = ty_of (st_heap st0) rv).
Proof.
  split_and!; [apply re_model_ok; by left|apply re_topo_ok; by left|apply re_topo_rv_ok; by left| |].
  - intros k v Hk. apply elem_of_list_In in Hk. destruct Hk as [Hk|[Hk|[]]]; injection Hk as <- <-; vm_compute; reflexivity.
  - assert (Hw : wh_types = true) by (vm_compute; reflexivity). unfold wh_types in Hw. intros i outs inits st0 rv f Hi Hrv Hf.
    rewrite Hi in Hw. rewrite forallb_forall in Hw. apply elem_of_list_In in Hrv. specialize (Hw _ Hrv). rewrite Hf in Hw.
    by apply bool_decide_eq_true in Hw.
Qed.
Example C01_modelled_code_example :
  exists s, construct_sampler wh_o (re_h 3) re_obs re_topo re_topo = Ok s /\ s_steps s = [(6, 41); (8, 28)] /\
    owner (s_heap s) <$> dvalues (s_steps s) = [Some (16, 0); Some (11, 1)] /\ s_updates s = [(34, 42)] /\ s_parameters s = [(99, (32, 33))].
Proof. apply okP_ex. vm_compute. done. Qed.
