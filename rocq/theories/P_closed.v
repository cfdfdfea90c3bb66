(** Property C54: which variables get a closed-form sampling step.  [closed_form]
    (S_discovery.v) is the specification: the documented conjugate pairs, the horseshoe prior
    and the logistic regressions. *)
From Verif Require Import L_gibbs L_closed L_whole E_nuts E_real L_graph.

(** Whatever calls the rewriter makes in whatever order, as long as it calls every registered
    finder on every random variable of its family at least once: finder [k] gives a step for
    [v] exactly if the model has the form that [k] supports. *)
Theorem C54_discovered_iff_supported B sched h outs :
  sched_ok sched -> covers sched -> good_heap h -> (forall r, r ∈ outs -> is_Some (hv h r)) ->
  (forall v, reachable h outs v -> shared_var h v -> owner h v = None) ->
  forall k v, step_from (discover B sched h outs).2 k v <-> exists y, rv_output h outs y /\ closed_form B h k y v.
Proof. intros A1 A2 A3 A4 A5. exact (discovered_iff B h outs A3 A4 A5 sched A1 A2). Qed.
Print Assumptions C54_discovered_iff_supported.

(** the caller's variable [rv] has a closed-form step in the clone [i] of the model that the
    finders see (after canonicalisation) *)
Definition supported (B : builder) (i : ir) (rv : vid) : Prop :=
  exists k y, rv_output (ir_heap i) (ir_outputs i) y /\ closed_form B (ir_heap i) k y (memo_get (ir_memo i) rv).

(** construct_sampler with the modelled finders and nuts.step: NUTS is used if and only if
    some unobserved variable is not supported, and it updates exactly those. *)
Theorem C54_nuts_exactly_for_the_unsupported canon sched order iter B tr lp nr kernel h obs topo topo_rv s :
  canon_ok canon -> sched_ok sched -> covers sched -> order_ok order -> iter_ok iter -> lp_ok lp ->
  let o := whole canon sched order iter B tr lp nr kernel in
  let i := construct_ir_fgraph canon h obs topo topo_rv in
  model_ok h obs -> topo_order h (dkeys obs) topo -> topo_order h (rv_outputs h topo) topo_rv ->
  (forall v, reachable (ir_heap i) (ir_outputs i) v -> shared_var (ir_heap i) v -> owner (ir_heap i) v = None) ->
  construct_sampler o h obs topo topo_rv = Ok s ->
  (s_parameters s = [] <-> forall rv, model_rv h obs rv -> rv ∉ dkeys obs -> supported B i rv) /\
  (s_parameters s <> [] -> exists n nd p,
     hn (s_heap s) n = Some nd /\ n_op nd = OOther kernel /\ s_parameters s = [(kernel, p)] /\
     forall rv w, dget (s_steps s) rv = Some w ->
       (exists j, owner (s_heap s) w = Some (n, j)) <-> ~ supported B i rv).
Proof.
  intros A1 A2 Ac A3 A4 A5 o i Hm Ht Htr Hl Hs.
  pose proof (whole_contracts canon sched order iter B tr lp nr kernel A1 A2 A3 A4 A5) as Hc. fold o in Hc.
  destruct (ir_good o h obs topo topo_rv Hc Hm Ht Htr) as [Hg Ho].
  assert (Hsf : forall rv, sampler_for o h obs topo topo_rv rv <> None <-> supported B i rv).
  { intros rv. rewrite sampler_for_eq, <- chosen_some.
    change (o_finders o) with (discover B sched). change (o_canon o) with canon in *. fold i in Hg, Ho |- *. split.
    - intros (k & Hst). apply (C54_discovered_iff_supported B sched _ _ A2 Ac Hg Ho Hl) in Hst as (y & Hy & Hcf). by exists k, y.
    - intros (k & y & Hy & Hcf). exists k. apply (C54_discovered_iff_supported B sched _ _ A2 Ac Hg Ho Hl). by exists y. }
  destruct (nuts_left o h obs topo topo_rv Hc Hm Ht Htr s Hs) as [H1 H2]. split.
  - rewrite H1. split; intros H rv R1 R2; apply Hsf; by apply H.
  - intros Hne. destruct (H2 Hne) as (n & nd & p & E1 & E2 & E3 & E4 & _). exists n, nd, p. split; [done|]. split; [done|]. split; [done|].
    intros rv w Hw. rewrite <- Hsf, (E4 rv w Hw). split; [intros -> Hx; by apply Hx|].
    intros Hx. destruct (sampler_for o h obs topo topo_rv rv); [|done]. exfalso. apply Hx. done.
Qed.
Print Assumptions C54_nuts_exactly_for_the_unsupported.

(** ** Examples *)

(** a schedule that covers: every registered finder on every random variable, twice *)
Definition all_calls (h : heap) (outs : list vid) : list (entry * nid) := out_calls h (elements (reach_set h outs)).
Lemma all_calls_reach h outs v : reachable h (elements (reach_set h outs)) v -> reachable h outs v.
Proof.
  intros (r & Hr & Hrv). apply elem_of_elements, elem_of_reach_set in Hr as (r0 & Hr0 & Hr1). exists r0. split; [done|]. by eapply rtc_transitive.
Qed.
Lemma all_calls_ok : sched_ok all_calls.
Proof.
  intros h outs e n Hin. destruct (out_calls_ok h _ e n Hin) as (H1 & (v & k & Hv & Ho) & H3). split; [done|]. split.
  - exists v, k. split; [by apply all_calls_reach|done].
  - intros nd d w Hn Hop Hw. by eapply all_calls_reach, H3.
Qed.
Lemma all_calls_cover : covers all_calls.
Proof.
  intros h outs y n nd e Hg Hy Ho Hn He _. apply elem_of_list_In, in_flat_map. exists e. split; [by apply elem_of_list_In|].
  apply in_flat_map. exists y. split; [apply elem_of_list_In, elem_of_elements; by apply elem_of_reach_set|].
  destruct (wf_owner h (proj1 Hg) _ _ _ Ho) as (nd' & Hn' & Hi). rewrite Ho, Hn'. rewrite decide_True by done. by left.
Qed.

Definition cl_leaves (h : heap) (outs : list vid) : bool :=
  forallb (fun v => negb (is_shared h v) || bool_decide (owner h v = None)) (elements (reach_set h outs)).
Lemma cl_leaves_ok h outs : cl_leaves h outs = true -> forall v, reachable h outs v -> shared_var h v -> owner h v = None.
Proof.
  intros H v Hv Hs. unfold cl_leaves in H. rewrite forallb_forall in H. specialize (H v).
  apply is_shared_spec in Hs. rewrite Hs in H. cbn in H. apply bool_decide_eq_true in H; [done|].
  apply elem_of_list_In, elem_of_elements. by apply elem_of_reach_set.
Qed.

(** s ~ normal, p ~ beta, Y ~ binomial(5, p), Z ~ normal(s, 1): [p] gets the beta-binomial
    step, [s] gets none *)
Example C54_example :
  good_heap (re_h 3) /\ step_from (discover re_B all_calls (re_h 3) [6; 8; 10; 12]).2 beta_binomial_name 8 /\
  forall k, ~ step_from (discover re_B all_calls (re_h 3) [6; 8; 10; 12]).2 k 6.
Proof.
  assert (Hg : good_heap (re_h 3)) by (apply (mo_good _ _ (re_model_ok 3 (or_introl eq_refl)))).
  assert (Hr : forall r, r ∈ [6; 8; 10; 12] -> is_Some (hv (re_h 3) r)).
  { intros r Hr. repeat (apply elem_of_cons in Hr as [->|Hr]; [vm_compute; eauto|]). by apply elem_of_nil in Hr. }
  assert (Hl : forall v, reachable (re_h 3) [6; 8; 10; 12] v -> shared_var (re_h 3) v -> owner (re_h 3) v = None).
  { apply cl_leaves_ok. vm_compute. reflexivity. }
  pose proof (C54_discovered_iff_supported re_B all_calls (re_h 3) _ all_calls_ok all_calls_cover Hg Hr Hl) as H.
  split; [done|]. split.
  - apply H. exists 10. split; [split; [apply reachable_root; do 2 right; left|exists 2; reflexivity]|].
    apply (cf_beta_binomial _ _ 10 4 8 3 3).
    + exists 2, 1, (Node (ORV RV_binomial) [0; 1; 2; 4; 8] [9; 10]), 0, 1, 2. split_and!; vm_compute; reflexivity.
    + exists 1, 1, (Node (ORV RV_beta) [0; 1; 2; 3; 3] [7; 8]), 0, 1, 2. split_and!; vm_compute; reflexivity.
  - intros k (fs & f & Hd & _). vm_compute in Hd. discriminate Hd.
Qed.

Definition cl_o : oracles :=
  whole (fun h outs => (h, outs)) all_calls (fun h roots => elements (fg_nodes h roots)) (fun l => rev l)
    re_B aeppl_default nu_lp 1 99.
Example C54_nuts_example :
  exists s, construct_sampler cl_o (re_h 3) re_obs re_topo re_topo = Ok s /\ s_parameters s <> [] /\
    let i := construct_ir_fgraph (o_canon cl_o) (re_h 3) re_obs re_topo re_topo in
    supported re_B i 8 /\ ~ supported re_B i 6.
Proof.
  destruct (okP_ex (construct_sampler cl_o (re_h 3) re_obs re_topo re_topo) (fun s => s_parameters s = [(99, (32, 33))]))
    as (s & Hs & Hp); [vm_compute; done|]. exists s. split; [exact Hs|]. split; [by rewrite Hp|]. cbv zeta.
  set (i := construct_ir_fgraph (o_canon cl_o) (re_h 3) re_obs re_topo re_topo).
  assert (Hc : contracts cl_o).
  { apply whole_contracts; [apply (ct_canon _ re_contracts)|apply all_calls_ok|apply (ct_order _ re_contracts)|apply (ct_iter _ re_contracts)|apply nu_lp_ok]. }
  destruct (ir_good cl_o (re_h 3) re_obs re_topo re_topo Hc (re_model_ok 3 (or_introl eq_refl)) (re_topo_ok 3 (or_introl eq_refl)) (re_topo_rv_ok 3 (or_introl eq_refl))) as [Hg Ho].
  assert (Hl : forall v, reachable (ir_heap i) (ir_outputs i) v -> shared_var (ir_heap i) v -> owner (ir_heap i) v = None).
  { apply cl_leaves_ok. vm_compute. reflexivity. }
  pose proof (C54_discovered_iff_supported re_B all_calls _ _ all_calls_ok all_calls_cover Hg Ho Hl) as H. fold i in H. split.
  - destruct (H 3 (memo_get (ir_memo i) 8)) as [H8 _]. destruct H8 as (y & Hy & Hcf); [|exists 3, y; split; [exact Hy|exact Hcf]].
    assert (Hd : dget (discover re_B all_calls (ir_heap i) (ir_outputs i)).2 (memo_get (ir_memo i) 8) = Some [Found 3 28 []]) by (vm_compute; reflexivity).
    exists [Found 3 28 []], (Found 3 28 []). split; [exact Hd|]. split; [by left|reflexivity].
  - intros (k & y & Hy & Hcf). destruct (proj2 (H k (memo_get (ir_memo i) 6))) as (fs & f & Hd & _); [exists y; split; [exact Hy|exact Hcf]|].
    assert (Hd' : dget (discover re_B all_calls (ir_heap i) (ir_outputs i)).2 (memo_get (ir_memo i) 6) = None) by (vm_compute; reflexivity).
    rewrite Hd' in Hd. discriminate Hd.
Qed.
