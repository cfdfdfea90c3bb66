(** Proofs for property C62: the steps of the beta variables leave their conditional laws
    invariant, and the whole sampler the posterior. *)
From Coq Require Import Reals Lra FunctionalExtensionality.
From Verif Require Import L_sweep L_exact L_pairs L_conjugates L_conditional L_elem_value L_whole L_trace L_made.
From Verif Require Export L_binomial.

Lemma on_iff {D} (V : list vid) (x : vid -> D) v : is_Some (on V x v) <-> v ∈ V.
Proof. unfold on. case_decide; split; try done. by intros [? ?]. Qed.
Lemma over_old h V (x : vid -> tensor R) rho : (forall r, r ∈ V -> is_Some (hv h r)) -> gives_old h rho -> gives_old h (over (on V x) rho).
Proof.
  intros HV Hr v Hv. unfold over in Hv. destruct (on V x v) as [z|] eqn:E; [|by apply Hr]. apply HV, (on_iff V x). by rewrite E.
Qed.
Lemma product_over_eq s A A' C C' t : (forall i, in_range s i -> bval A i = bval A' i /\ bval C i = bval C' i) ->
  beta_array s A C t = beta_array s A' C' t.
Proof. intros H. unfold beta_array. apply product_over_ext. intros i Hi. by destruct (H i Hi) as [-> ->]. Qed.
Lemma split_pair (V : list vid) p y : p ∈ V -> y ∈ V -> p <> y -> exists others, V ≡ₚ p :: y :: others.
Proof.
  intros Hp Hy Hne. apply elem_of_Permutation in Hp as [k Hk]. rewrite Hk in Hy. apply elem_of_cons in Hy as [->|Hy]; [done|].
  apply elem_of_Permutation in Hy as [k' Hk']. exists k'. by rewrite Hk, Hk'.
Qed.

Section value.
  Context (B : builder) (HB : builder_ok B) (h0 : heap) (V obs : list vid).
  Hypothesis Hg0 : good_heap h0.
  Hypothesis HV0 : forall r, r ∈ V -> is_Some (hv h0 r).
  Hypothesis HVn : NoDup V.
  Context (hD h3 : heap) (d : dict nat (list found)) (cs : list call_rec).
  Hypothesis HE : extends hD h3.
  Context (scalar : nat -> list R -> option R) (other : op -> list (tensor R) -> option (list (tensor R)))
    (cval : nat -> tensor R) (ld : nat -> list (tensor R) -> tensor R -> R).
  Hypothesis Hops : real_ops B scalar cval.
  Hypothesis Hld : log_densities ld.
  Context (rho : vid -> option (tensor R)) (data : vid -> tensor R) (shape : vid -> list nat).
  Hypothesis Hrho : gives_old h0 rho.
  Context (dom : (vid -> tensor R) -> Prop) (w : (vid -> tensor R) -> R).
  Hypothesis HP : posterior_on B scalar other cval ld h0 rho V obs data shape dom w.
  Notation base := (tensor_base scalar other).

  Context (p y size dtype a b nn : vid) (f : found) (c : call_rec).
  Hypothesis Hb : beta_of h0 V p y size dtype a b nn.
  Hypothesis Hc : bb_call B h0 V hD cs p y size dtype a b nn f c.
  Hypothesis Hpo : p ∉ obs.
  Context (state : tensor R -> Prop) (test : ((vid -> tensor R) -> R) -> Prop) (g : vid) (K : step_block (tensor R)).
  Hypothesis HK : beta_block scalar other cval h0 rho V shape h3 (f_step f) state test dom p g K.
  Notation s := (shape p).
  Notation S := (array_in unit_interval s).

  Lemma gen_facts : hv (k_pre c) g = None /\ is_Some (hv (k_post c) g) /\ owner h3 g = None /\ is_constant h3 g = false /\ g <> f_step f.
  Proof using HE Hc HK.
    destruct (call_ext B h0 V hD h3 HE c (bc_good _ _ _ _ _ _ _ _ _ _ _ _ _ _ Hc)) as (E1 & E2 & E3 & G1 & G2).
    destruct (cs_draw _ _ _ _ _ (bc_conj _ _ _ _ _ _ _ _ _ _ _ _ _ _ Hc)) as (n & r & r' & sz & dt & a' & b' & Ho & Hn & H1 & H2 & H3 & H4).
    destruct (bb_input _ _ _ _ _ _ _ _ _ _ _ _ _ _ _ HK) as (n' & i & nd & Ho' & Hn' & Hi).
    pose proof (extends_owner _ _ _ _ _ E3 Ho) as Ho3. rewrite Ho' in Ho3. injection Ho3 as -> ->.
    rewrite (proj2 E3 _ _ Hn) in Hn'. injection Hn' as <-. cbn in Hi. injection Hi as ->.
    split; [done|]. split; [done|]. split; [by rewrite (extends_owner_old (k_post c) h3 g E3 H2)|]. split.
    - revert H4. unfold is_shared, is_constant. destruct H2 as [z Hz]. rewrite (proj1 E3 _ _ Hz), Hz. by destruct z as [? ? [] ?].
    - intros ->. rewrite Ho in H3. done.
  Qed.

  (** the parameters of the step at [x], the law they give, and the draw *)
  Lemma at_state x : dom x -> exists sv dv A C,
    evals base cval h0 (over (on V x) rho) size sv /\ evals base cval h0 (over (on V x) rho) dtype dv /\
    t_shape A = s /\ fits s A /\ t_shape C = s /\ fits s C /\ (forall i, in_range s i -> (0 < bval A i)%R /\ (0 < bval C i)%R) /\
    full_conditional scalar other cval ld h0 rho V (on V x) p S (fun t => beta_array s A C (bval t)) /\
    forall e nx t, other (ORV RV_beta) [e g; sv; dv; A; C] = Some [nx; t] ->
      evals base cval h3 (over (on V x) (over (on [g] e) rho)) (f_step f) t.
  Proof using HB Hg0 HV0 HVn HE Hops Hld Hrho HP Hb Hc Hpo HK.
    intros Hx. destruct (po_density _ _ _ _ _ _ _ _ _ _ _ _ _ HP x Hx) as (l & Hj & _).
    destruct (call_ext B h0 V hD h3 HE c (bc_good _ _ _ _ _ _ _ _ _ _ _ _ _ _ Hc)) as (E1 & E2 & E3 & G1 & G2).
    pose proof (bo_p _ _ _ _ _ _ _ _ _ Hb) as HpV. pose proof (bo_y _ _ _ _ _ _ _ _ _ Hb) as HyV.
    pose proof (bo_beta _ _ _ _ _ _ _ _ _ Hb) as Hfp. destruct (bo_binomial _ _ _ _ _ _ _ _ _ Hb) as (sz & dt & Hfy).
    pose proof (bo_used _ _ _ _ _ _ _ _ _ Hb) as Hu.
    assert (Hne : p <> y).
    { intros ->. destruct (rv_same _ _ _ _ _ _ (rv_full_node _ _ _ _ _ _ Hfp) (rv_full_node _ _ _ _ _ _ Hfy)) as [? _]. done. }
    destruct (split_pair V p y HpV HyV Hne) as [others Hperm].
    destruct (joint_factor _ _ _ _ _ _ _ _ _ Hj HpV) as (lp & Fp). destruct (factor_params _ _ _ _ _ _ _ _ _ _ _ _ Fp Hfp) as [xs Hxs].
    rewrite evals_list_Forall2 in Hxs. inversion Hxs as [|? sv ? xs1 Hsv Hxs1]; subst. inversion Hxs1 as [|? dv ? xs2 Hdv _]; subst.
    destruct (po_params _ _ _ _ _ _ _ _ _ _ _ _ _ HP x p y size dtype a b nn Hb Hpo Hx) as
      (Av & Bv & Nv & cn & cy & HA & FA & HBv & FB & Hpos & HN & FN & CN & HY & Yok & Ys & CY & Hle).
    pose proof (over_old h0 V x rho HV0 Hrho) as Hold.
    assert (Hold1 : gives_old (k_pre c) (over (on V x) rho)).
    { intros v Hv. eapply extends_some; [exact E1|]. by apply Hold. }
    (* the run on the graph itself *)
    destruct (bc_node _ _ _ _ _ _ _ _ _ _ _ _ _ _ Hc) as (nd & Hn & Hy).
    destruct (beta_binomial_pair B h0 (k_n c) nd y nn p size dtype sz dt a b HB Hg0 Hn Hy Hfy Hfp) as (h' & post' & a1 & b1 & _ & _ & _ & Hpair).
    destruct (Hpair scalar other cval ld rho (on V x) V others l s Av Bv Nv (x y) cn cy Hops Hld Hrho) as (A1 & C1 & _ & _ & V1 & _ & Hfc); try done.
    { intros v. apply on_iff. }
    { eapply only_params; [exact Hfy|exact Hu]. }
    specialize (Hfc Hu).
    (* the run of the call *)
    pose proof (proj2 E1 _ _ Hn) as Hn1.
    pose proof (bc_run _ _ _ _ _ _ _ _ _ _ _ _ _ _ Hc) as Hrun.
    destruct (beta_binomial_built B HB (k_pre c) (k_n c) nd y nn p size dtype a b G1 Hn1 Hy) as (h'' & post & a' & b' & Hr & _ & _ & Hfull & Hval).
    { eapply rv_full_node, rv_full_extends; [exact E1|exact Hfy]. }
    { eapply rv_full_extends; [exact E1|exact Hfp]. }
    rewrite Hrun in Hr. injection Hr as <- <-.
    pose proof (has_extends B scalar other cval (over (on V x) rho) h0 (k_pre c)) as Hlift.
    destruct (Hval scalar other cval (over (on V x) rho) s Av Bv Nv (x y) Hops Hold1) as (A & C & HA' & HC' & FA' & FC' & SA & SC & V2);
      try done; try (apply Hlift; [apply Hg0|done|done|done]).
    exists sv, dv, A, C. split; [done|]. split; [done|]. split; [done|]. split; [done|]. split; [done|]. split; [done|]. split; [|split].
    - intros i Hi. destruct (V2 i Hi) as [-> ->]. destruct (Hpos i Hi) as [P1 P2]. assert (Y1 : bval (x y) i = INR (cy i)) by (unfold bval; by rewrite (CY i Hi)).
      assert (N1 : bval Nv i = INR (cn i)) by (unfold bval; by rewrite (CN i Hi)). rewrite Y1, N1.
      pose proof (pos_INR (cy i)). pose proof (le_INR _ _ (Hle i Hi)). split; lra.
    - intros t t' m m' St St' J1 J2. pose proof (Hfc t t' m m' St St' J1 J2) as He. cbv beta in He |- *.
      rewrite (product_over_eq s A A1 C C1), (product_over_eq s A A1 C C1 (bval t')); [exact He| |];
        intros i Hi; destruct (V2 i Hi) as [-> ->]; by destruct (V1 i Hi) as [-> ->].
    - intros e nx t Ht. destruct gen_facts as (Fg1 & Fg2 & Fg3 & Fg4 & Fg5).
      assert (Hg_old : hv h0 g = None).
      { destruct (hv h0 g) as [z|] eqn:Hz; [|done]. by rewrite (proj1 E1 _ _ Hz) in Fg1. }
      assert (E03 : extends h0 h3) by (by eapply extends_trans; [|eapply extends_trans]).
      assert (HgV : g ∉ V). { intros Hin. destruct (HV0 g Hin) as [z Hz]. congruence. }
      assert (Hmore : forall v z, evals base cval h3 (over (on V x) rho) v z -> evals base cval h3 (over (on V x) (over (on [g] e) rho)) v z).
      { intros v z. apply evals_more.
        - intros u z'. unfold over. destruct (on V x u) eqn:Eu; [done|]. intros Hz. unfold on. rewrite decide_False; [done|].
          intros ->%elem_of_list_singleton. destruct (Hrho g ltac:(by eauto)) as [q Hq]. congruence.
        - intros u. unfold over. destruct (on V x u) eqn:Eu; [done|]. intros Hz. unfold on. case_decide as Hin; [|by rewrite Hz; intros [? ?]].
          apply elem_of_list_singleton in Hin as ->. by intros _. }
      destruct Hfull as (n & nd' & r & Ho & Hnn & Hop & Hins & Houts).
      pose proof (extends_owner _ _ _ _ _ E3 Ho) as Ho3. pose proof (proj2 E3 _ _ Hnn) as Hn3.
      assert (r = g) as ->.
      { destruct (bb_input _ _ _ _ _ _ _ _ _ _ _ _ _ _ _ HK) as (n' & i & nd2 & Ho' & Hn' & Hi). rewrite Ho3 in Ho'. injection Ho' as <- <-.
        rewrite Hn3 in Hn'. injection Hn' as <-. rewrite Hins in Hi. by injection Hi. }
      assert (Hstep : over (on V x) (over (on [g] e) rho) (f_step f) = None).
      { pose proof (cs_new _ _ _ _ _ (bc_conj _ _ _ _ _ _ _ _ _ _ _ _ _ _ Hc)) as Hnew.
        assert (Hst : hv h0 (f_step f) = None).
        { destruct (hv h0 (f_step f)) as [z|] eqn:Hz; [|done]. by rewrite (proj1 E1 _ _ Hz) in Hnew. }
        unfold over, on. rewrite decide_False.
        - rewrite decide_False by (intros ?%elem_of_list_singleton; congruence).
          destruct (rho (f_step f)) as [z|] eqn:Hz; [|done]. destruct (Hrho (f_step f) ltac:(by eauto)) as [q Hq]. congruence.
        - intros Hin. destruct (HV0 _ Hin) as [q Hq]. congruence. }
      eapply (ev_app _ _ _ _ (f_step f) n 1 nd' [e g; sv; dv; A; C] [nx; t] t); [exact Hstep|exact Ho3|exact Hn3| | |done].
      + rewrite Hins. apply evals_list_Forall2. constructor; [|constructor; [|constructor; [|constructor; [|constructor; [|constructor]]]]].
        * apply ev_given. unfold over, on. rewrite decide_False by done. by rewrite decide_True by (by left).
        * apply Hmore. eapply extends_evals; [apply Hg0|exact E03| |exact Hsv]. eapply ev_exists; [exact Hold|exact Hsv].
        * apply Hmore. eapply extends_evals; [apply Hg0|exact E03| |exact Hdv]. eapply ev_exists; [exact Hold|exact Hdv].
        * apply Hmore. apply (has_extends B scalar other cval (over (on V x) rho) (k_post c) h3); [apply G2|done| |done].
          intros v Hv. eapply extends_some; [exact E2|]. by apply Hold1.
        * apply Hmore. apply (has_extends B scalar other cval (over (on V x) rho) (k_post c) h3); [apply G2|done| |done].
          intros v Hv. eapply extends_some; [exact E2|]. by apply Hold1.
      + rewrite Hop. exact Ht.
  Qed.

  Lemma block_value x e : dom x -> state (e g) ->
    S (b_step K x e p) /\ evals base cval h3 (over (on V x) (over (on [g] e) rho)) (f_step f) (b_step K x e p).
  Proof using HB Hg0 HV0 HVn HE Hops Hld Hrho HP Hb Hc Hpo HK.
    intros Hx He. destruct (at_state x Hx) as (sv & dv & A & C & H1 & H2 & H3 & H4 & H5 & H6 & H7 & _ & Hev).
    destruct (db_draw _ _ _ _ _ _ _ _ _ _ _ _ _ (bb_draw _ _ _ _ _ _ _ _ _ _ _ _ _ _ _ HK) x y size dtype a b nn sv dv A C Hb Hx H1 H2 H3 H4 H5 H6 H7)
      as (draw & next & Hd & _). destruct (Hd (e g) He) as [Ho Hin]. pose proof (Hev e _ _ Ho) as Hval.
    rewrite (bb_value _ _ _ _ _ _ _ _ _ _ _ _ _ _ _ HK x e _ Hx Hval). done.
  Qed.

  Lemma block_keeps : keeps_conditional test w K.
  Proof using HB Hg0 HV0 HVn HE Hops Hld Hrho HP Hb Hc Hpo HK.
    assert (HS : exists t, S t).
    { destruct (array_of unit_interval s (fun _ => (1 / 2)%R)) as (t & Ht & _); [|by exists t]. intros i _. unfold unit_interval. lra. }
    apply (exact_keeps scalar other cval ld h0 rho V p S (bo_p _ _ _ _ _ _ _ _ _ Hb) test w K (bb_vars _ _ _ _ _ _ _ _ _ _ _ _ _ _ _ HK)
      (bb_own _ _ _ _ _ _ _ _ _ _ _ _ _ _ _ HK) HS).
    assert (Hfree : forall x t t', S (t p) -> S (t' p) -> dom (put [p] t x) -> dom (put [p] t' x)).
    { intros x t t' _ Ht' Hd. rewrite <- (put_put [p] t t' x). apply (po_free _ _ _ _ _ _ _ _ _ _ _ _ _ HP _ p y); [|done|done|done].
      by exists size, dtype, a, b, nn. }
    intros x. destruct HS as [t0 Ht0]. destruct (po_outside _ _ _ _ _ _ _ _ _ _ _ _ _ HP (put [p] (fun _ => t0) x)) as [Hd|[Hd _]].
    2:{ left. intros t Ht. destruct (po_outside _ _ _ _ _ _ _ _ _ _ _ _ _ HP (put [p] t x)) as [Hd'|[_ ?]]; [|done].
        exfalso. apply Hd. by apply (Hfree x t). }
    right. assert (Hall : forall t, S (t p) -> dom (put [p] t x)) by (intros t Ht; by apply (Hfree x (fun _ => t0))).
    split; [intros t Ht; apply (po_density _ _ _ _ _ _ _ _ _ _ _ _ _ HP); by apply Hall|].
    intros t Ht. pose proof (Hall t Ht) as Hx. set (x1 := put [p] t x) in *.
    destruct (at_state x1 Hx) as (sv & dv & A & C & H1 & H2 & H3 & H4 & H5 & H6 & H7 & Hfc & Hev).
    destruct (db_draw _ _ _ _ _ _ _ _ _ _ _ _ _ (bb_draw _ _ _ _ _ _ _ _ _ _ _ _ _ _ _ HK) x1 y size dtype a b nn sv dv A C Hb Hx H1 H2 H3 H4 H5 H6 H7)
      as (draw & next & Hdr & Hnz & Hlaw).
    exists (fun t => beta_array s A C (bval t)). split; [|split; [exact Hfc|]].
    { intros u _. pose proof (beta_array_pos s A C (bval u)). lra. }
    split; [exact Hnz|]. intros g0 Hg. rewrite <- (Hlaw x1 g0 Hg). unfold kernel. rewrite (bb_vars _ _ _ _ _ _ _ _ _ _ _ _ _ _ _ HK).
    apply (db_support _ _ _ _ _ _ _ _ _ _ _ _ _ (bb_draw _ _ _ _ _ _ _ _ _ _ _ _ _ _ _ HK)). intros e He. f_equal. apply put_ext.
    intros u ->%elem_of_list_singleton. destruct (Hdr (e g) He) as [Ho _].
    apply (bb_value _ _ _ _ _ _ _ _ _ _ _ _ _ _ _ HK x1 e _ Hx). exact (Hev e _ _ Ho).
  Qed.
End value.

Section sampler.
  Context (canon : heap -> list vid -> heap * list vid) (sched : heap -> list vid -> list (entry * nid)).
  Context (order : heap -> list vid -> list nid) (iter : list vid -> list vid) (B : builder) (tr : transforms).
  Context (lp : heap -> dict nat nat -> dict nat nat -> heap * list vid) (nr kn : nat).
  Hypothesis Hcanon : canon_ok canon.
  Hypothesis Hsched : sched_ok sched.
  Hypothesis Hcov : covers sched.
  Hypothesis Horder : order_ok order.
  Hypothesis Hiter : iter_ok iter.
  Hypothesis HB : builder_ok B.
  Hypothesis Hlp : lp_ok lp.
  Notation o := (whole canon sched order iter B tr lp nr kn).
  Context (h : heap) (obs : dict nat nat) (topo topo_rv : list nid).
  Hypothesis Hmo : model_ok h obs.
  Hypothesis Htopo : topo_order h (dkeys obs) topo.
  Hypothesis Htopo_rv : topo_order h (rv_outputs h topo) topo_rv.
  Context (s : sampler) (i : ir) (outs : list vid) (inits : dict nat nat) (st0 : state).
  Hypothesis Hs : construct_sampler o h obs topo topo_rv = Ok s.
  Hypothesis Hi : sampler_init o h obs topo topo_rv = (i, outs, inits, st0).
  Notation h0 := (ir_heap i).
  Notation h3 := (st_heap st0).
  Notation Obs := (dkeys (ir_obs i)).
  Hypothesis Hm : binomial_model B h0 (ir_outputs i) Obs.

  Let Hct : contracts o := whole_contracts canon sched order iter B tr lp nr kn Hcanon Hsched Horder Hiter Hlp.
  Notation D := (discover B sched h0 (ir_outputs i)).

  Lemma bb_init : outs = ir_outputs i /\ good_heap h0 /\ (forall r, r ∈ outs -> is_Some (hv h0 r)) /\
    extends h0 D.1 /\ good_heap D.1 /\ extends D.1 h3 /\ good_heap h3 /\ st_found st0 = D.2 /\
    (forall w, w ∈ dvalues inits -> hv D.1 w = None) /\ exists cs, log B h0 outs D.1 D.2 cs.
  Proof using All.
    destruct (init_plain o h obs topo topo_rv Hct Hmo Htopo Htopo_rv i outs inits st0 Hi (bm_plain _ _ _ _ Hm))
      as (H1 & H2 & H3 & H4 & H5 & H6 & H7 & _ & H9 & H10).
    split; [done|]. split; [done|]. split; [done|]. split; [done|]. split; [done|]. split; [done|]. split; [done|]. split; [done|].
    split; [intros w Hw; by apply H10|]. rewrite H1 in H3 |- *. by destruct (discover_log B h0 (ir_outputs i) H2 H3 sched Hsched) as (_ & _ & ?).
  Qed.

  Lemma bb_chosen r : r ∈ outs -> r ∉ Obs -> is_Some (chosen (st_found st0) r) <-> exists y, beta_binomial h0 outs r y.
  Proof using All.
    intros Hr Ho. destruct bb_init as (H1 & H2 & H3 & H4 & H5 & H6 & H7 & H8 & _). rewrite H8.
    assert (Hst : is_Some (chosen D.2 r) <-> exists k, step_from D.2 k r).
    { rewrite chosen_some. destruct (chosen D.2 r); split; try done. by intros [? ?]. }
    rewrite H1 in *. pose proof (discovered_iff B h0 (ir_outputs i) H2 H3 (bm_shared _ _ _ _ Hm) sched Hsched Hcov) as Hdi.
    rewrite Hst. split.
    - intros [k Hk]. apply Hdi in Hk as (y & Hy & Hcf). destruct (bm_cases _ _ _ _ Hm r Hr Ho) as [?|Hno]; [done|]. by destruct (Hno k y Hy).
    - intros (y & size & dtype & a & b & nn & Hb). exists beta_binomial_name. apply Hdi. exists y. split.
      + split; [exists y; split; [apply (bo_y _ _ _ _ _ _ _ _ _ Hb)|apply rtc_refl]|].
        destruct (bo_binomial _ _ _ _ _ _ _ _ _ Hb) as (sz & dt & n & nd & rr & Hn & _). by exists n.
      + eapply cf_beta_binomial; [eapply bo_py; exact Hb|eapply bo_pp; exact Hb].
  Qed.

  Section calls.
    Context (cs : list call_rec).
    Hypothesis HL : log B h0 outs D.1 D.2 cs.

    Lemma bb_call_of p f : p ∈ outs -> p ∉ Obs -> chosen (st_found st0) p = Some f ->
      exists y size dtype a b nn c, beta_of h0 outs p y size dtype a b nn /\ bb_call B h0 outs D.1 cs p y size dtype a b nn f c.
    Proof using All.
      intros Hp Ho Hf. destruct bb_init as (H1 & H2 & H3 & H4 & H5 & H6 & H7 & H8 & _).
      destruct (proj1 (bb_chosen p Hp Ho) ltac:(by eauto)) as (y & size & dtype & a & b & nn & Hb). rewrite H8 in Hf.
      pose proof Hm as Hm'. rewrite <- H1 in Hm'.
      destruct (the_call B h0 outs Obs H2 H3 Hm' D.1 D.2 cs HL p y size dtype a b nn f Hb Hf) as [c Hc].
      by exists y, size, dtype, a, b, nn, c.
    Qed.

    Lemma bb_sep r1 r2 f g : r1 ∈ outs -> r2 ∈ outs -> r1 ∉ Obs -> r2 ∉ Obs -> r1 <> r2 ->
      chosen (st_found st0) r1 = Some f -> chosen (st_found st0) r2 = Some g -> separated h3 outs f g.
    Proof using All.
      intros R1 R2 O1 O2 Hne Hf Hg. destruct bb_init as (H1 & H2 & H3 & H4 & H5 & H6 & H7 & H8 & _).
      destruct (bb_call_of r1 f R1 O1 Hf) as (y & size & dtype & a & b & nn & c & Hb & Hc).
      destruct (bb_call_of r2 g R2 O2 Hg) as (y' & size' & dtype' & a' & b' & nn' & c' & Hb' & Hc').
      pose proof Hm as Hm'. rewrite <- H1 in Hm'.
      exact (bb_separated B h0 outs Obs H2 H3 Hm' D.1 h3 D.2 cs HL H6 H7 r1 y size dtype a b nn f c r2 y' size' dtype' a' b' nn' g c' Hb Hb' Hc Hc' Hne).
    Qed.

    Lemma bb_caller rv g x v m j : rv ∈ outs -> rv ∉ Obs -> chosen (st_found st0) rv = Some g ->
      x ∈ dvalues obs -> cut_reachable h3 outs (roots_of g) v -> v ∉ outs ->
      owner h3 v = Some (m, j) -> reads_model h3 outs m -> ~ node_reachable h [x] m.
    Proof using All.
      intros Hr Ho Hg Hx Hv HvV Hov Hrm (u & k & Hu & Hou). destruct bb_init as (H1 & H2 & H3 & H4 & H5 & H6 & H7 & H8 & _).
      destruct (bb_call_of rv g Hr Ho Hg) as (y & size & dtype & a & b & nn & c & Hb & Hc).
      pose proof Hm as Hm'. rewrite <- H1 in Hm'.
      pose proof (own_new B h0 outs Obs H2 H3 Hm' D.1 h3 cs H6 rv y size dtype a b nn g c Hb Hc v m j Hv HvV Hov Hrm) as Hnew.
      destruct (sampler_parts o h obs topo topo_rv Hct Hmo Htopo Htopo_rv s Hs) as (i' & outs' & inits' & st0' & st & pss & Hp).
      pose proof (pt_init _ _ _ _ _ _ _ _ _ _ _ _ Hp) as Hi'. rewrite Hi in Hi'. injection Hi' as <- <- <- <-.
      pose proof (if_ext _ _ _ _ _ _ _ _ (pt_facts _ _ _ _ _ _ _ _ _ _ _ _ Hp)) as E0.
      destruct (call_ext B h0 outs D.1 h3 H6 c (bc_good _ _ _ _ _ _ _ _ _ _ _ _ _ _ Hc)) as (E1 & E2 & E3 & G1 & G2).
      destruct (wf_owner h0 (proj1 H2) u m k) as (nd & Hnd & _); [by eapply extends_owner|].
      assert (E03 : extends h0 h3) by (by eapply extends_trans; [|eapply extends_trans]).
      destruct (out_back h0 h3 m nd v j H2 H7 E03 Hnd Hov) as [z Hz]. rewrite (proj1 E1 _ _ Hz) in Hnew. done.
    Qed.
  End calls.

  Context (scalar : nat -> list R -> option R) (other : op -> list (tensor R) -> option (list (tensor R)))
    (cval : nat -> tensor R) (ld : nat -> list (tensor R) -> tensor R -> R).
  Hypothesis Hops : real_ops B scalar cval.
  Hypothesis Hld : log_densities ld.
  Context (rho : vid -> option (tensor R)) (data : vid -> tensor R) (shape : vid -> list nat).
  Hypothesis Hrho : gives_old h0 rho.
  Hypothesis Hdata : forall k v, (k, v) ∈ ir_obs i -> evals (tensor_base scalar other) cval h0 rho v (data k).
  Context (dom : (vid -> tensor R) -> Prop) (w : (vid -> tensor R) -> R).
  Hypothesis HP : posterior_on B scalar other cval ld h0 rho outs Obs data shape dom w.
  Context (state : tensor R -> Prop) (test : ((vid -> tensor R) -> R) -> Prop) (gen : vid -> vid) (blk : vid -> step_block (tensor R)).
  Hypothesis HK : forall p f, p ∈ outs -> p ∉ Obs -> chosen (st_found st0) p = Some f ->
    beta_block scalar other cval h0 rho outs shape h3 (f_step f) state test dom p (gen p) (blk p).
  Context (N : step_block (tensor R)).
  Notation sampled := (filter (fun r => r ∉ Obs /\ is_Some (chosen (st_found st0) r)) outs).
  Notation bs := (blk <$> sampled).
  Notation base := (tensor_base scalar other).
  Hypothesis HN1 : b_vars N = filter (fun r => r ∉ Obs /\ chosen (st_found st0) r = None) outs.
  Hypothesis HN2 : NoDup (b_gens N).
  Hypothesis HN3 : forall g, g ∈ b_gens N -> hv h3 g = None.
  Hypothesis HN4 : forall x e e', (forall g, g ∈ b_gens N -> e g = e' g) -> forall r, r ∈ b_vars N -> b_step N x e r = b_step N x e' r.
  Notation ok := (fun x e : vid -> tensor R => dom x /\ forall p, p ∈ sampled -> state (e (gen p))).

  Lemma outs_nodup : NoDup outs.
  Proof using All.
    destruct (sampler_parts o h obs topo topo_rv Hct Hmo Htopo Htopo_rv s Hs) as (i' & outs' & inits' & st0' & st & pss & Hp).
    pose proof (pt_init _ _ _ _ _ _ _ _ _ _ _ _ Hp) as Hi'. rewrite Hi in Hi'. injection Hi' as <- <- <- <-.
    exact (if_nodup _ _ _ _ _ _ _ _ (pt_facts _ _ _ _ _ _ _ _ _ _ _ _ Hp)).
  Qed.
  Lemma in_sampled p : p ∈ sampled -> p ∈ outs /\ p ∉ Obs /\ exists f, chosen (st_found st0) p = Some f.
  Proof using Type. intros [[H1 [f H2]] H3]%elem_of_list_filter. split; [done|]. split; [done|]. by exists f. Qed.
  Lemma in_bs K : K ∈ bs -> exists p f, K = blk p /\ p ∈ sampled /\ p ∈ outs /\ p ∉ Obs /\ chosen (st_found st0) p = Some f /\ b_vars K = [p] /\ b_gens K = [gen p].
  Proof using HK.
    intros (p & -> & Hp)%elem_of_list_fmap. destruct (in_sampled p Hp) as (H1 & H2 & f & H3). exists p, f. pose proof (HK p f H1 H2 H3) as Hk.
    split; [done|]. split; [done|]. split; [done|]. split; [done|]. split; [done|]. split; [apply (bb_vars _ _ _ _ _ _ _ _ _ _ _ _ _ _ _ Hk)|apply (bb_gens _ _ _ _ _ _ _ _ _ _ _ _ _ _ _ Hk)].
  Qed.
  Lemma concat_bs {A} (F : step_block (tensor R) -> list A) (G : vid -> A) l : (forall p, p ∈ l -> F (blk p) = [G p]) -> concat (F <$> (blk <$> l)) = G <$> l.
  Proof using Type.
    induction l as [|p l IH]; intros H; [done|]. cbn. rewrite H by (by left). cbn. f_equal. apply IH. intros q Hq. apply H. by right.
  Qed.
  Lemma gen_new p : p ∈ sampled -> hv h0 (gen p) = None /\ is_Some (hv h3 (gen p)).
  Proof using All.
    intros (H1 & H2 & f & H3)%in_sampled. destruct bb_init as (I1 & I2 & I3 & I4 & I5 & I6 & I7 & I8 & _ & cs & HL).
    destruct (bb_call_of cs HL p f H1 H2 H3) as (y & size & dtype & a & b & nn & c & Hb & Hc).
    destruct (gen_facts B h0 outs D.1 h3 cs I6 scalar other cval rho shape dom p y size dtype a b nn f c Hc state test (gen p) (blk p) (HK p f H1 H2 H3)) as (A1 & A2 & _).
    destruct (call_ext B h0 outs D.1 h3 I6 c (bc_good _ _ _ _ _ _ _ _ _ _ _ _ _ _ Hc)) as (E1 & E2 & E3 & G1 & G2).
    split; [|by eapply extends_some]. destruct (hv h0 (gen p)) as [z|] eqn:Hz; [|done]. by rewrite (proj1 E1 _ _ Hz) in A1.
  Qed.
  Lemma gen_inj p q : p ∈ sampled -> q ∈ sampled -> gen p = gen q -> p = q.
  Proof using All.
    intros (H1 & H2 & f & H3)%in_sampled (H1' & H2' & f' & H3')%in_sampled Heq. destruct (decide (p = q)) as [|Hne]; [done|]. exfalso.
    destruct bb_init as (I1 & I2 & I3 & I4 & I5 & I6 & I7 & I8 & _ & cs & HL).
    destruct (bb_call_of cs HL p f H1 H2 H3) as (y & size & dtype & a & b & nn & c & Hb & Hc).
    destruct (bb_call_of cs HL q f' H1' H2' H3') as (y' & size' & dtype' & a' & b' & nn' & c' & Hb' & Hc').
    destruct (gen_facts B h0 outs D.1 h3 cs I6 scalar other cval rho shape dom p y size dtype a b nn f c Hc state test (gen p) (blk p) (HK p f H1 H2 H3)) as (A1 & A2 & _).
    destruct (gen_facts B h0 outs D.1 h3 cs I6 scalar other cval rho shape dom q y' size' dtype' a' b' nn' f' c' Hc' state test (gen q) (blk q) (HK q f' H1' H2' H3')) as (A1' & A2' & _).
    rewrite <- Heq in A1', A2'.
    exact (gens_differ B h0 outs D.1 D.2 cs HL p y size dtype a b nn f c q y' size' dtype' a' b' nn' f' c' Hc Hc' Hne (gen p) A2 A1 A2' A1').
  Qed.

  Section env.
    Context (x x0 e : vid -> tensor R) (env : vid -> option (tensor R)).
    Hypothesis Hin : inputs h3 inits (bs ++ [N]) rho x0 e env.
    Lemma env_rho u z : rho u = Some z -> env u = Some z.
    Proof using All.
      intros Hu. destruct bb_init as (I1 & I2 & I3 & I4 & I5 & I6 & I7 & I8 & I9 & _).
      destruct (Hrho u ltac:(by eauto)) as [q Hq]. rewrite <- Hu.
      pose proof (proj1 (extends_trans _ _ _ I4 I6) _ _ Hq) as Hq3.
      apply (in_rest _ _ _ _ _ _ _ Hin); [by eauto| |].
      - intros Hw. pose proof (I9 u Hw) as Hno. by rewrite (proj1 I4 _ _ Hq) in Hno.
      - intros K [HKin|HKin]%elem_of_app.
        + destruct (in_bs K HKin) as (p & f & _ & Hp & _ & _ & _ & _ & ->). intros ->%elem_of_list_singleton. destruct (gen_new p Hp) as [Hn _]. congruence.
        + apply elem_of_list_singleton in HKin as ->. intros Hg. rewrite (HN3 u Hg) in Hq3. done.
    Qed.
    Lemma env_data v z : evals base cval h0 rho v z -> evals base cval h3 env v z.
    Proof using All.
      intros Hv. destruct bb_init as (I1 & I2 & I3 & I4 & I5 & I6 & I7 & I8 & I9 & _).
      apply (evals_more _ _ _ rho); [apply env_rho| |].
      - intros u _ Hu. by destruct (in_leaves _ _ _ _ _ _ _ Hin u Hu) as (_ & ? & ?).
      - eapply extends_evals; [apply I2|by eapply extends_trans| |exact Hv]. eapply ev_exists; [exact Hrho|exact Hv].
    Qed.
    Lemma env_step p f : p ∈ sampled -> chosen (st_found st0) p = Some f -> ok x e ->
      array_in unit_interval (shape p) (b_step (blk p) x e p) /\ f_updates f = [] /\
      evals base cval h3 (over (on outs x) env) (f_step f) (b_step (blk p) x e p).
    Proof using All.
      intros Hp Hf [Hx He]. destruct bb_init as (I1 & I2 & I3 & I4 & I5 & I6 & I7 & I8 & I9 & cs & HL).
      destruct (in_sampled p Hp) as (H1 & H2 & _).
      destruct (bb_call_of cs HL p f H1 H2 Hf) as (y & size & dtype & a & b & nn & c & Hb & Hc).
      destruct (block_value B HB h0 outs Obs I2 I3 outs_nodup D.1 h3 cs I6 scalar other cval ld Hops Hld rho data shape Hrho dom w HP
        p y size dtype a b nn f c Hb Hc H2 state test (gen p) (blk p) (HK p f H1 H2 Hf) x e Hx (He p Hp)) as [Hin' Hev].
      split; [done|]. split; [exact (bc_updates _ _ _ _ _ _ _ _ _ _ _ _ _ _ Hc)|]. revert Hev. apply evals_more.
      - intros u z. unfold over. destruct (on outs x u); [done|]. unfold on. case_decide as Hg; [|apply env_rho].
        apply elem_of_list_singleton in Hg as ->. intros [= <-]. apply (in_gens _ _ _ _ _ _ _ Hin (blk p)).
        + apply elem_of_app. left. apply elem_of_list_fmap. by exists p.
        + rewrite (bb_gens _ _ _ _ _ _ _ _ _ _ _ _ _ _ _ (HK p f H1 H2 Hf)). by left.
        + by apply gen_new.
      - intros u. unfold over. destruct (on outs x u); [done|]. intros _ Hu. by destruct (in_leaves _ _ _ _ _ _ _ Hin u Hu) as (_ & ? & ?).
    Qed.
  End env.

  Lemma put_data x : dom x -> put Obs data x = x.
  Proof using HP.
    intros Hx. apply functional_extensionality. intros u. unfold put. case_decide as Hu; [|done].
    symmetry. by apply (po_data _ _ _ _ _ _ _ _ _ _ _ _ _ HP).
  Qed.

  Lemma bb_discovered : discovered base cval h3 (ir_obs i) (st_found st0) outs inits rho data ok bs N.
  Proof using All.
    destruct bb_init as (I1 & I2 & I3 & I4 & I5 & I6 & I7 & I8 & I9 & cs & HL).
    assert (Hvars : forall p, p ∈ sampled -> b_vars (blk p) = [p]).
    { intros p Hp. destruct (in_sampled p Hp) as (H1 & H2 & f & H3). apply (bb_vars _ _ _ _ _ _ _ _ _ _ _ _ _ _ _ (HK p f H1 H2 H3)). }
    assert (Hgens : forall p, p ∈ sampled -> b_gens (blk p) = [gen p]).
    { intros p Hp. destruct (in_sampled p Hp) as (H1 & H2 & f & H3). apply (bb_gens _ _ _ _ _ _ _ _ _ _ _ _ _ _ _ (HK p f H1 H2 H3)). }
    constructor.
    - rewrite (concat_bs b_vars (fun p => p) sampled Hvars). apply list_fmap_id.
    - exact HN1.
    - intros K HKin. destruct (in_bs K HKin) as (p & f & _ & _ & _ & _ & _ & -> & _). done.
    - intros K r1 r2 f1 f2 n j HKin Hr1 Hr2 Hf1 Hf2 Ho. destruct (in_bs K HKin) as (p & f & _ & _ & _ & _ & _ & HV & _). rewrite HV in Hr1, Hr2.
      apply elem_of_list_singleton in Hr1 as ->. apply elem_of_list_singleton in Hr2 as ->. assert (f1 = f2) as -> by congruence. by exists j.
    - intros K1 K2 r1 r2 f1 f2 n j k HK1 HK2 Hr1 Hr2 Hf1 Hf2 Ho1 Ho2.
      destruct (in_bs K1 HK1) as (p1 & g1 & _ & P1 & Q1 & R1 & _ & V1 & _). destruct (in_bs K2 HK2) as (p2 & g2 & _ & P2 & Q2 & R2 & _ & V2 & _).
      rewrite V1 in Hr1 |- *. rewrite V2 in Hr2 |- *. apply elem_of_list_singleton in Hr1 as ->. apply elem_of_list_singleton in Hr2 as ->.
      destruct (decide (p1 = p2)) as [->|Hne]; [done|]. exfalso.
      destruct (bb_call_of cs HL p1 f1 Q1 R1 Hf1) as (y & size & dtype & a & b & nn & c & Hb & Hc).
      destruct (bb_call_of cs HL p2 f2 Q2 R2 Hf2) as (y' & size' & dtype' & a' & b' & nn' & c' & Hb' & Hc').
      eapply (apart B h0 outs I2 I3 D.1 h3 D.2 cs HL I6 I7 p1 y size dtype a b nn f1 c p2 y' size' dtype' a' b' nn' f2 c' Hc Hc' Hne
        (f_step f1) (f_step f2) n j k); [apply step_self|exact Ho1|apply step_self|exact Ho2|].
      exact (cs_new _ _ _ _ _ (bc_conj _ _ _ _ _ _ _ _ _ _ _ _ _ _ Hc')).
    - intros K r f HKin Hr Hf. destruct (in_bs K HKin) as (p & g & _ & P1 & Q1 & R1 & _ & V1 & _). rewrite V1 in Hr. apply elem_of_list_singleton in Hr as ->.
      destruct (bb_call_of cs HL p f Q1 R1 Hf) as (y & size & dtype & a & b & nn & c & Hb & Hc).
      destruct (call_ext B h0 outs D.1 h3 I6 c (bc_good _ _ _ _ _ _ _ _ _ _ _ _ _ _ Hc)) as (E1 & E2 & E3 & G1 & G2).
      destruct (cs_draw _ _ _ _ _ (bc_conj _ _ _ _ _ _ _ _ _ _ _ _ _ _ Hc)) as (n & rr & r' & sz & dt & a' & b' & Ho & _). exists (n, 1). by eapply extends_owner.
    - rewrite fmap_app, concat_app. cbn. rewrite app_nil_r, (concat_bs b_gens gen sampled Hgens). apply NoDup_app. split; [|split; [|exact HN2]].
      + apply NoDup_fmap_2_strong; [intros p q Hp Hq; by apply gen_inj|]. apply NoDup_filter, outs_nodup.
      + intros g (p & -> & Hp)%elem_of_list_fmap Hg. destruct (gen_new p Hp) as [_ [z Hz]]. rewrite (HN3 _ Hg) in Hz. done.
    - intros K x e e' [HKin|HKin]%elem_of_app Hee r Hr.
      + destruct (in_bs K HKin) as (p & f & -> & P1 & Q1 & R1 & Hf & V1 & G1). rewrite V1 in Hr. apply elem_of_list_singleton in Hr as ->.
        apply (bb_local _ _ _ _ _ _ _ _ _ _ _ _ _ _ _ (HK p f Q1 R1 Hf)). apply Hee. rewrite G1. by left.
      + apply elem_of_list_singleton in HKin as ->. by apply HN4.
    - intros K r f x x0 e env HKin Hr Hf Hok Hin. destruct (in_bs K HKin) as (p & g & -> & P1 & Q1 & R1 & _ & V1 & _).
      rewrite V1 in Hr. apply elem_of_list_singleton in Hr as ->. rewrite (put_data x (proj1 Hok)).
      destruct (env_step x x0 e env Hin p f P1 Hf Hok) as (_ & Hup & Hev). split; [exact Hev|]. rewrite Hup. by intros u ?%elem_of_nil.
    - intros K x e HKin [Hx He]. destruct (in_bs K HKin) as (p & f & -> & P1 & Q1 & R1 & Hf & -> & _). split; [|done].
      destruct (bb_call_of cs HL p f Q1 R1 Hf) as (y & size & dtype & a & b & nn & c & Hb & Hc).
      apply (po_free _ _ _ _ _ _ _ _ _ _ _ _ _ HP x p y); [by exists size, dtype, a, b, nn|done|done|].
      apply (block_value B HB h0 outs Obs I2 I3 outs_nodup D.1 h3 cs I6 scalar other cval ld Hops Hld rho data shape Hrho dom w HP
        p y size dtype a b nn f c Hb Hc R1 state test (gen p) (blk p) (HK p f Q1 R1 Hf) x e Hx (He p P1)).
    - intros k v x e env Hkv Hin. apply (env_data x x e env Hin). by apply Hdata.
  Qed.

  Lemma bb_sampler mu :
    (forall x z e env, ok x e -> ok z e -> inputs (s_heap s) inits (bs ++ [N]) rho x e env ->
      (forall rv v, dget (s_steps s) rv = Some v -> sampler_for o h obs topo topo_rv rv <> None ->
         evals base cval (s_heap s) env v (z (memo_get (ir_memo i) rv))) ->
      (forall u, u ∈ b_vars N -> z u = x u) ->
      forall rv v, dget (s_steps s) rv = Some v -> sampler_for o h obs topo topo_rv rv = None ->
        evals base cval (s_heap s) env v (b_step N z e (memo_get (ir_memo i) rv))) ->
    targets test mu w N ->
    (forall p, p ∈ sampled -> iterated test mu w (blk p) /\ forall g, test g -> test (fun x => kernel (blk p) x g)) ->
    exists out : (vid -> tensor R) -> (vid -> tensor R) -> vid -> tensor R,
      (forall x e env, ok x e -> inputs (s_heap s) inits (bs ++ [N]) rho x e env ->
         forall rv v, dget (s_steps s) rv = Some v ->
           evals base cval (s_heap s) env v (out x e (memo_get (ir_memo i) rv))) /\
      (forall x e u, (forall K, K ∈ bs ++ [N] -> u ∉ b_vars K) -> out x e u = x u) /\
      forall e g, test g ->
        mu (fun x => w x * draw_gens (bs ++ [N]) e (fun e' => g (out x e')))%R = mu (fun x => w x * g x)%R.
  Proof using All.
    intros Hnuts HN HT. destruct bb_init as (I1 & I2 & I3 & I4 & I5 & I6 & I7 & I8 & I9 & cs & HL).
    apply (sampler_keeps o h obs topo topo_rv Hct Hmo Htopo Htopo_rv s base cval i outs inits st0 rho data ok bs N Hs Hi
      (bb_sep cs HL) (bb_caller cs HL) bb_discovered Hnuts test mu w).
    intros K [HKin|HKin]%elem_of_app; [|by apply elem_of_list_singleton in HKin as ->].
    destruct (in_bs K HKin) as (p & f & -> & P1 & Q1 & R1 & Hf & _). destruct (HT p P1) as [T1 T2].
    destruct (bb_call_of cs HL p f Q1 R1 Hf) as (y & size & dtype & a & b & nn & c & Hb & Hc).
    constructor; [exact T1|exact T2|].
    exact (block_keeps B HB h0 outs Obs I2 I3 outs_nodup D.1 h3 cs I6 scalar other cval ld Hops Hld rho data shape Hrho dom w HP
        p y size dtype a b nn f c Hb Hc R1 state test (gen p) (blk p) (HK p f Q1 R1 Hf)).
  Qed.
End sampler.
