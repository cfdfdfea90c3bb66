(** C59: the draws of a sampler do not share random generators. *)
From Verif Require Import S_generators L_generators E_real P_gibbs.

(** ** C59: every generator that the search for samplers creates is read by one node only,
    among all the nodes that the steps found and their updates are computed from: no two
    draws, in one step or in two steps, come from the same generator.  (The steps built with
    OpFromGraph are one node each.) *)
Theorem C59_one_reader (B : builder) sched h outs :
  sched_ok sched -> good_heap h -> constant_leaves h -> (forall r, r ∈ outs -> is_Some (hv h r)) ->
  let h' := (discover B sched h outs).1 in let found := (discover B sched h outs).2 in
  forall rv1 fs1 f1 rv2 fs2 f2 r n1 n2,
    dget found rv1 = Some fs1 -> f1 ∈ fs1 -> dget found rv2 = Some fs2 -> f2 ∈ fs2 ->
    hv h r = None -> shared_var h' r ->
    node_reachable h' (roots_of f1) n1 -> reads h' n1 r ->
    node_reachable h' (roots_of f2) n2 -> reads h' n2 r ->
    n1 = n2.
Proof.
  intros Hs Hg Hc Ho h' fd rv1 fs1 f1 rv2 fs2 f2 r n1 n2 D1 I1 D2 I2 Hr Hsh N1 R1 N2 R2.
  assert (Hc' : forall v, is_constant h v = true -> owner h v = None).
  { intros v. unfold is_constant, owner. destruct (hv h v) as [[nm ty [| |] ow]|] eqn:Hv; try done. intros _. cbn. by eapply Hc. }
  refine (discover_one_reader B h outs Hg Ho Hc' sched Hs (roots_of f1) (roots_of f2) r n1 n2 _ _ Hr Hsh N1 R1 N2 R2).
  - exists rv1, fs1, f1. done.
  - exists rv2, fs2, f2. done.
Qed.
Print Assumptions C59_one_reader.

(** The negative binomial regression of C48: two steps are found, for the coefficients and
    for the dispersion, and each reads generators of its own. *)
Definition c59 := discover gb_B out_calls (rr_h KPlain 1) [16].
Example C59_example : exists f1 f2,
  dget c59.2 9 = Some [f1] /\ dget c59.2 14 = Some [f2] /\
  owner c59.1 (f_step f1) = Some (97, 0) /\ owner c59.1 (f_step f2) = Some (115, 0) /\
  (n_ins <$> hn c59.1 97) = Some [9; 6; 5; 14; 16; 46; 22; 99] /\ (n_ins <$> hn c59.1 115) = Some [14; 109; 7; 16; 111; 130] /\
  forall r, r ∈ [46; 22; 99; 111; 130] -> hv (rr_h KPlain 1) r = None /\ is_shared c59.1 r = true.
Proof.
  do 2 eexists. split; [vm_compute; reflexivity|]. split; [vm_compute; reflexivity|]. split; [vm_compute; reflexivity|].
  split; [vm_compute; reflexivity|]. split; [vm_compute; reflexivity|]. split; [vm_compute; reflexivity|].
  intros r Hr. repeat (apply elem_of_cons in Hr as [->|Hr]; [split; vm_compute; reflexivity|]). by apply elem_of_nil in Hr.
Qed.
Example C59_hypotheses : sched_ok out_calls /\ good_heap (rr_h KPlain 1) /\ constant_leaves (rr_h KPlain 1) /\
  forall r, r ∈ [16] -> is_Some (hv (rr_h KPlain 1) r).
Proof.
  split; [apply out_calls_ok|]. split; [apply rr_good|]. split; [|intros r ->%elem_of_list_singleton; vm_compute; eauto].
  destruct C48_instance as (h' & es & _ & _ & H & _). exact H.
Qed.

(** ** C60: after a call of the compiled sampler every generator holds the state that its
    draw left.  Proved for the steps of conjugates.py: whatever generator a step uses, its
    next value is the state that the step's draw from it leaves.  (For the dispersion step it is C48.)
    Missing: it is false of the steps built with OpFromGraph that come without updates. *)
Definition conjugate_finders (B : builder) : list finder :=
  [local_beta_binomial_posterior B; local_gamma_poisson_posterior B; local_beta_negative_binomial_posterior B].
Definition kernel_finders (B : builder) : list finder :=
  [normal_horseshoe_finder B; nbinom_logistic_finder B; bern_logistic_finder B].

Theorem C60_conjugate_steps_partial (B : builder) h n f h' es rv step ups r m :
  good_heap h -> f ∈ conjugate_finders B -> f h n = (h', Ok es) -> (rv, step, ups) ∈ es ->
  hv h r = None -> shared_var h' r -> node_reachable h' [step] m -> reads h' m r ->
  advanced_by_draw h' step ups r.
Proof.
  intros Hg Hf He Hin Hr Hs Hm Hrd. unfold conjugate_finders in Hf.
  assert (H : drawn_once h (f h n)).
  { apply elem_of_cons in Hf as [->|[->| ->%elem_of_list_singleton]%elem_of_cons];
      [by apply beta_binomial_single|by apply gamma_poisson_single|by apply beta_nb_single]. }
  rewrite He in H. destruct H as [_ H]. exact (H es eq_refl rv step ups r m Hin (conj Hr Hs) Hm Hrd).
Qed.
Print Assumptions C60_conjugate_steps_partial.

(** In every graph: a step that one of the other finders returns without updates uses
    generators whose next value is not computed by the step. *)
Theorem C60_kernel_steps_refuted (B : builder) h n f h' es rv step r :
  good_heap h -> constant_leaves h -> f ∈ kernel_finders B -> f h n = (h', Ok es) -> (rv, step, []) ∈ es ->
  hv h r = None -> shared_var h' r -> ~ advanced_by_step h' step [] r.
Proof.
  intros Hg Hc Hf He Hin Hr Hs. unfold kernel_finders in Hf.
  assert (Hc' : forall v, is_constant h v = true -> owner h v = None).
  { intros v. unfold is_constant, owner. destruct (hv h v) as [[nm ty [| |] ow]|] eqn:Hv; try done. intros _. cbn. by eapply Hc. }
  assert (H : kernel_once h (f h n)).
  { apply elem_of_cons in Hf as [->|[->| ->%elem_of_list_singleton]%elem_of_cons];
      [by apply horseshoe_single|apply nbinom_single; [done|by auto]|by apply bern_single]. }
  rewrite He in H. destruct H as [_ H]. exact (H es eq_refl rv step r Hin (conj Hr Hs)).
Qed.
Print Assumptions C60_kernel_steps_refuted.

(** In the regression above the step for the coefficients (9) uses the generator 22, and the
    next value of 22 is computed from the coefficients themselves: from a draw of their prior,
    not from the value the step is given for them. *)
Example C60_example : exists es h' step u,
  nbinom_logistic_finder gb_B (rr_h KPlain 1) 25 = (h', Ok es) /\ (9, step, []) ∈ es /\
  hv (rr_h KPlain 1) 22 = None /\ shared_var h' 22 /\ owner h' step = Some (97, 0) /\ reads h' 97 22 /\
  next_value h' [] 22 u /\ reachable h' [u] 9.
Proof.
  destruct (nbinom_logistic_finder gb_B (rr_h KPlain 1) 25) as [h' out] eqn:Hf.
  assert (Hh : h' = (nbinom_logistic_finder gb_B (rr_h KPlain 1) 25).1) by (by rewrite Hf).
  assert (Ho : exists es, out = Ok es /\ (9, 106, []) ∈ es).
  { assert (out = (nbinom_logistic_finder gb_B (rr_h KPlain 1) 25).2) as -> by (by rewrite Hf). eexists. split; [vm_compute; reflexivity|by left]. }
  destruct Ho as (es & -> & Hin). exists es, h', 106, 23. clear Hf.
  split; [done|]. split; [done|]. split; [vm_compute; reflexivity|].
  assert (H22 : exists nm ty ow, hv h' 22 = Some (Var nm ty (KShared (Some 23)) ow)) by (rewrite Hh; do 3 eexists; vm_compute; reflexivity).
  destruct H22 as (nm & ty & ow & H22). split; [by exists nm, ty, (Some 23), ow|].
  split; [rewrite Hh; vm_compute; reflexivity|].
  split.
  { assert (Hr : exists nd, hn h' 97 = Some nd /\ n_ins nd = [9; 6; 5; 14; 16; 46; 22; 99]) by (rewrite Hh; eexists; split; vm_compute; reflexivity).
    destruct Hr as (nd & H1 & H2). exists nd. split; [done|]. rewrite H2. do 6 right. by left. }
  split; [right; split; [done|]; by exists nm, ty, ow|].
  exists 23. split; [by left|]. eapply rtc_l; [|eapply rtc_l; [|apply rtc_refl]].
  - assert (Hp : parents h' 23 = [22; 20; 21; 18; 19]) by (rewrite Hh; vm_compute; reflexivity). unfold input_of. rewrite Hp. do 4 right. by left.
  - assert (Hp : parents h' 19 = [5; 9]) by (rewrite Hh; vm_compute; reflexivity). unfold input_of. rewrite Hp. right. by left.
Qed.

(** The beta-binomial step uses one new generator, and that is the case the theorem is about. *)
From Verif Require P_conjugates.
Example C60_conjugate_example : exists es h' step r m,
  local_beta_binomial_posterior P_conjugates.cj_B (P_conjugates.cj_h RV_beta RV_binomial [5] 0) 21 = (h', Ok es) /\
  (7, step, []) ∈ es /\ good_heap (P_conjugates.cj_h RV_beta RV_binomial [5] 0) /\
  hv (P_conjugates.cj_h RV_beta RV_binomial [5] 0) r = None /\ shared_var h' r /\ node_reachable h' [step] m /\ reads h' m r.
Proof.
  set (h := P_conjugates.cj_h RV_beta RV_binomial [5] 0).
  destruct (local_beta_binomial_posterior P_conjugates.cj_B h 21) as [h' out] eqn:Hf.
  assert (Hh : h' = (local_beta_binomial_posterior P_conjugates.cj_B h 21).1) by (by rewrite Hf).
  assert (Ho : exists es step, out = Ok es /\ (7, step, []) ∈ es /\ step = default 0 (((fun e => e.1.2) <$> head es))).
  { assert (out = (local_beta_binomial_posterior P_conjugates.cj_B h 21).2) as -> by (by rewrite Hf).
    do 2 eexists. split; [vm_compute; reflexivity|]. split; [by left|reflexivity]. }
  destruct Ho as (es & step & -> & Hin & Hst). 
  assert (Hes : step = 16).
  { assert (Ok es = (local_beta_binomial_posterior P_conjugates.cj_B h 21).2) as Hes by (by rewrite Hf).
    assert (Hv : (local_beta_binomial_posterior P_conjugates.cj_B h 21).2 = Ok [(7, 16, [])]) by (vm_compute; reflexivity).
    rewrite Hv in Hes. injection Hes as ->. exact Hst. }
  subst step. clear Hf. exists es, h', 16, 14, 25. rewrite Hes in *.
  split; [done|]. split; [done|]. split; [apply P_conjugates.cj_good; by right|]. split; [vm_compute; reflexivity|].
  split; [apply is_shared_spec; rewrite Hh; vm_compute; reflexivity|].
  split. { exists 16, 1. split; [exists 16; split; [by left|apply rtc_refl]|rewrite Hh; vm_compute; reflexivity]. }
  assert (Hr : exists nd, hn h' 25 = Some nd /\ n_ins nd = [14; 1; 2; 11; 13]) by (rewrite Hh; eexists; split; vm_compute; reflexivity).
  destruct Hr as (nd & H1 & H2). exists nd. split; [done|]. rewrite H2. by left.
Qed.
