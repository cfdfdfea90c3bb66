(** Proofs for property C62. *)
From Coq Require Import Reals Lra FunctionalExtensionality.
From Verif Require Import L_sweep L_exact L_pairs L_conjugates L_conditional L_trace L_made L_whole.
From Verif Require Export S_binomial.

Lemma inline_all_plain h roots ns : (forall n, n ∈ ns -> ~ is_subsume h n) -> inline_all h roots ns = (h, roots).
Proof.
  induction ns as [|n ns IH]; intros Hn; [done|]. cbn [inline_all].
  assert (Hi : inline_node h n = None).
  { unfold inline_node. destruct (hn h n) as [nd|] eqn:Hnd; [|done]. cbn. destruct (n_op nd) eqn:Hop; try done.
    exfalso. apply (Hn n); [by left|]. by exists nd, s, args. }
  rewrite Hi. apply IH. intros m Hm. apply Hn. by right.
Qed.

Lemma node_reachable_extends h h' roots n : wf_heap h -> extends h h' -> (forall r, r ∈ roots -> is_Some (hv h r)) ->
  node_reachable h' roots n <-> node_reachable h roots n.
Proof.
  intros Hwf He Hr. split; intros (v & j & Hv & Ho).
  - apply (extends_reachable_list h h' roots v Hwf He Hr) in Hv. exists v, j. split; [done|].
    rewrite (extends_owner_old h h' v He) in Ho; [done|]. by eapply wf_reachable.
  - exists v, j. split; [by apply (extends_reachable_list h h' roots v Hwf He Hr)|]. by eapply extends_owner.
Qed.

Section init.
  Context (o : oracles) (h : heap) (obs : dict nat nat) (topo topo_rv : list nid).
  Hypothesis Hct : contracts o.
  Hypothesis Hm : model_ok h obs.
  Hypothesis Htopo : topo_order h (dkeys obs) topo.
  Hypothesis Htopo_rv : topo_order h (rv_outputs h topo) topo_rv.
  Context (i : ir) (outs : list vid) (inits : dict nat nat) (st0 : state).
  Hypothesis Hi : sampler_init o h obs topo topo_rv = (i, outs, inits, st0).
  Hypothesis Hpl : forall n, node_reachable (ir_heap i) (ir_outputs i) n -> ~ is_subsume (ir_heap i) n.
  Notation D := (o_finders o (ir_heap i) (ir_outputs i)).

  Lemma init_plain : outs = ir_outputs i /\ good_heap (ir_heap i) /\ (forall r, r ∈ outs -> is_Some (hv (ir_heap i) r)) /\
    extends (ir_heap i) D.1 /\ good_heap D.1 /\ extends D.1 (st_heap st0) /\ good_heap (st_heap st0) /\
    (forall n, hn (st_heap st0) n = hn D.1 n) /\ st_found st0 = D.2 /\
    forall w, w ∈ dvalues inits -> hv D.1 w = None /\ exists nm ty, hv (st_heap st0) w = Some (Var nm ty KPlain None).
  Proof using All.
    pose proof (ir_good o h obs topo topo_rv Hct Hm Htopo Htopo_rv) as [G0 S0]. revert Hi. unfold sampler_init.
    set (ii := construct_ir_fgraph _ _ _ _ _) in *. destruct (o_finders o (ir_heap ii) (ir_outputs ii)) as [h1 fnd] eqn:HD.
    intros Hi'. pose proof Hi' as Hi2. assert (Hii : i = ii).
    { destruct (expand_subsumptions (o_order o) h1 (ir_outputs ii)) as [h2 outs2]. destruct (clone_all h2 _) as [h3 l]. by injection Hi' as ->. }
    rewrite <- Hii in *. clear Hi2.
    pose proof (ct_finders o Hct (ir_heap i) (ir_outputs i) G0 S0) as (E1 & G1 & _). rewrite HD in E1, G1 |- *. cbn [fst snd] in *.
    unfold expand_subsumptions in Hi'. rewrite inline_all_plain in Hi'.
    2:{ intros n Hn. apply (ct_order o Hct) in Hn. apply (node_reachable_extends (ir_heap i) h1) in Hn; [|apply G0|done|done].
        intros (nd & s & args & Hnd & Hop). apply (Hpl n Hn). destruct Hn as (v & j & Hv & Ho).
        destruct (wf_owner _ (proj1 G0) _ _ _ Ho) as (nd0 & Hnd0 & _). pose proof (proj2 E1 _ _ Hnd0). exists nd0, s, args. split; [done|]. congruence. }
    set (l := filter (fun rv => rv ∉ dkeys (ir_obs i)) (ir_outputs i)) in *.
    assert (Hl : forall v, v ∈ l -> is_Some (hv h1 v)).
    { intros v [_ Hv]%elem_of_list_filter. eapply extends_some; [exact E1|]. by apply S0. }
    pose proof (clone_all_spec l h1 G1 Hl) as HC. cbv zeta in HC. destruct (clone_all h1 l) as [h3 ini]. cbn [fst snd] in HC.
    destruct HC as (C1 & C2 & C3 & C4 & C5 & C6). injection Hi' as <- <- <-. cbn [st_heap st_found].
    split; [done|]. split; [done|]. split; [done|]. split; [done|]. split; [done|]. split; [done|]. split; [done|]. split; [done|]. split; [done|].
    intros w Hw. apply elem_of_list_fmap in Hw as ([k v] & -> & Hkv).
    assert (Hin : (k, v) ∈ ini).
    { apply dget_dof_in. apply dget_of_in; [apply NoDup_dkeys_dof|done]. }
    destruct (C6 k v Hin) as (H1 & x & _ & H2). cbn. split; [done|]. eauto.
  Qed.
End init.

Lemma cut_reachable_trans h V us v w : cut_reachable h V us v -> cut_reachable h V [v] w -> cut_reachable h V us w.
Proof.
  intros Hv Hw. induction Hw as [r ->%elem_of_list_singleton|u u' Hu IH Hn Hi]; [done|]. by eapply cut_step.
Qed.

Section used.
  Context (h : heap) (V : list vid) (p y : vid).
  Hypothesis Hu : only_used_by h V p y.
  Lemma climb v w : cut_reachable h V [v] p -> input_of h w v -> w <> y -> w ∉ V /\ cut_reachable h V [w] p.
  Proof using Hu.
    intros Hc Hi Hw.
    assert (HV : w ∉ V).
    { intros Hin. apply (proj1 Hu w Hin Hw). eapply cut_mono; [|exact Hc]. intros u ->%elem_of_list_singleton. exact Hi. }
    split; [done|]. eapply cut_reachable_trans; [|exact Hc]. apply (cut_step h V [w] w v); [apply cut_root; by left|done|done].
  Qed.
End used.

Lemma applied_input h v o ins u : applied h v o ins -> u ∈ ins -> input_of h v u.
Proof. intros (n & k & nd & Ho & Hn & _ & <-) Hu. unfold input_of, parents. by rewrite Ho, Hn. Qed.
Lemma rv_input h v d ps u : rv_node h v d ps -> u ∈ ps -> input_of h v u.
Proof. intros (n & k & nd & r & sz & dt & Ho & Hn & _ & Hi) Hu. unfold input_of, parents. rewrite Ho, Hn, Hi. set_solver. Qed.
Lemma applied_rv h v e ins d ps : applied h v e ins -> rv_node h v d ps -> (forall x, e <> ORV x) -> False.
Proof.
  intros (n & k & nd & Ho & Hn & Hst & _) (n' & k' & nd' & r & sz & dt & Ho' & Hn' & Hop & _) He.
  rewrite Ho in Ho'. injection Ho' as <- <-. rewrite Hn in Hn'. injection Hn' as <-. rewrite Hop in Hst. cbn in Hst. by apply (He d).
Qed.
Lemma rv_same h v d ps d' ps' : rv_node h v d ps -> rv_node h v d' ps' -> d = d' /\ ps = ps'.
Proof.
  intros (m & k & md & r & sz & dt & Ho & Hm & Hop & Hi) (m' & k' & md' & r' & sz' & dt' & Ho' & Hm' & Hop' & Hi').
  rewrite Ho in Ho'. injection Ho' as <- <-. rewrite Hm in Hm'. injection Hm' as <-. rewrite Hop in Hop'. rewrite Hi in Hi'.
  injection Hop' as <-. by injection Hi' as _ _ _ <-.
Qed.

Section closed.
  Context (T : typing) (h : heap) (V : list vid) (p y size dtype a b nn : vid).
  Hypothesis Hb : beta_of h V p y size dtype a b nn.

  Lemma bo_py : rv_node h y RV_binomial [nn; p].
  Proof using Hb. destruct (bo_binomial _ _ _ _ _ _ _ _ _ Hb) as (sz & dt & H). by eapply rv_full_node. Qed.
  Lemma bo_pp : rv_node h p RV_beta [a; b].
  Proof using Hb. eapply rv_full_node. apply (bo_beta _ _ _ _ _ _ _ _ _ Hb). Qed.

  Lemma user y' v : input_of h y' v -> cut_reachable h V [v] p -> y' ∈ V -> y' = y.
  Proof using Hb.
    intros Hi Hc Hy. destruct (decide (y' = y)) as [|Hne]; [done|]. by destruct (climb _ _ _ _ (bo_used _ _ _ _ _ _ _ _ _ Hb) v y' Hc Hi Hne).
  Qed.
  Lemma user_sigmoid y' q c X : input_of h y' q -> sigmoid_dot h q c X p -> y' ∈ V -> y' = y.
  Proof using Hb.
    intros Hi (m & d & H1 & H2 & H3) Hy. pose proof bo_py as Hyb. pose proof (bo_used _ _ _ _ _ _ _ _ _ Hb) as Hu.
    assert (C0 : cut_reachable h V [p] p) by (apply cut_root; by left).
    destruct (climb _ _ _ _ Hu p d C0) as [_ C1].
    { eapply applied_input; [exact H3|]. right. by left. }
    { intros ->. eapply applied_rv; [exact H3|exact Hyb|done]. }
    destruct (climb _ _ _ _ Hu d m C1) as [_ C2].
    { eapply applied_input; [exact H2|]. right. by left. }
    { intros ->. eapply applied_rv; [exact H2|exact Hyb|done]. }
    destruct (climb _ _ _ _ Hu m q C2) as [_ C3].
    { eapply applied_input; [exact H1|]. by left. }
    { intros ->. eapply applied_rv; [exact H1|exact Hyb|done]. }
    by eapply user.
  Qed.
  Lemma only_beta_binomial k y' : y' ∈ V -> closed_form T h k y' p -> k = beta_binomial_name /\ y' = y.
  Proof using Hb.
    intros Hy Hc. pose proof bo_py as Hyb. pose proof bo_pp as Hpb.
    assert (C0 : cut_reachable h V [p] p) by (apply cut_root; by left).
    inversion Hc as [? nn' ? a' b' H1 H2|? ? a' b' H1 H2|? nn' ? a' b' H1 H2|? mu scale c d v H1 H2 H3 H4 H5 H6|? c X ? (q & H1 & H2)|? hh c X ? (q & H1 & H2)|? hh c X beta a' b' _ _ _ _ H5]; subst.
    - split; [done|]. eapply user; [|exact C0|done]. eapply rv_input; [exact H1|]. right. by left.
    - by destruct (rv_same _ _ _ _ _ _ H2 Hpb) as [? _].
    - assert (y' = y) as ->. { eapply user; [|exact C0|done]. eapply rv_input; [exact H1|]. right. by left. }
      by destruct (rv_same _ _ _ _ _ _ H1 Hyb) as [? _].
    - assert (Hh : half_cauchy h p) by (by destruct H6 as [->| ->]). destruct Hh as (n & j & nd & Ho & Hn & Hop).
      destruct Hpb as (n' & j' & nd' & r & sz & dt & Ho' & Hn' & Hop' & _). rewrite Ho in Ho'. injection Ho' as <- <-.
      rewrite Hn in Hn'. injection Hn' as <-. by rewrite Hop in Hop'.
    - assert (y' = y) as ->. { eapply user_sigmoid; [|exact H2|done]. eapply rv_input; [exact H1|]. by left. }
      by destruct (rv_same _ _ _ _ _ _ H1 Hyb) as [? _].
    - assert (y' = y) as ->. { eapply user_sigmoid; [|exact H2|done]. eapply rv_input; [exact H1|]. right. by left. }
      by destruct (rv_same _ _ _ _ _ _ H1 Hyb) as [? _].
    - by destruct (rv_same _ _ _ _ _ _ H5 Hpb) as [? _].
  Qed.
End closed.

Lemma rv_full_extends h h' v d size dtype ps : extends h h' -> rv_full h v d size dtype ps -> rv_full h' v d size dtype ps.
Proof.
  intros He (n & nd & r & H1 & H2 & H3 & H4 & H5). exists n, nd, r. split; [by eapply extends_owner|]. split; [by apply (proj2 He)|done].
Qed.
Lemma chosen_in d v f : chosen d v = Some f -> exists fs, dget d v = Some fs /\ f ∈ fs.
Proof.
  unfold chosen. destruct (dget d v) as [fs|]; [|done]. cbn. intros H. exists fs. split; [done|]. by apply last_Some_elem_of.
Qed.

Section graph.
  Context (B : builder) (h0 : heap) (V obs : list vid).
  Hypothesis Hg0 : good_heap h0.
  Hypothesis HV0 : forall r, r ∈ V -> is_Some (hv h0 r).
  Hypothesis Hm : binomial_model B h0 V obs.
  Context (hD h3 : heap) (d : dict nat (list found)) (cs : list call_rec).
  Hypothesis HL : log B h0 V hD d cs.
  Hypothesis HE : extends hD h3.
  Hypothesis G3 : good_heap h3.
  Notation S := (reachable h0 V).

  Record bb_call (p y size dtype a b nn : vid) (f : found) (c : call_rec) : Prop := BbCall {
    bc_in : c ∈ cs;
    bc_good : good_call B h0 V hD c;
    bc_run : local_beta_binomial_posterior B (k_pre c) (k_n c) = (k_post c, Ok [(p, f_step f, [])]);
    bc_node : exists nd, hn h0 (k_n c) = Some nd /\ n_outs nd !! 1 = Some y;
    bc_es : k_es c = [(p, f_step f, [])];
    bc_updates : f_updates f = [];
    bc_conj : conj_step [size; dtype; a; b; nn; y] (k_pre c) (k_post c) (f_step f) RV_beta;
  }.

  Lemma the_call p y size dtype a b nn f : beta_of h0 V p y size dtype a b nn -> chosen d p = Some f ->
    exists c, bb_call p y size dtype a b nn f c.
  Proof using Hg0 HV0 Hm HL.
    intros Hb Hf. apply chosen_in in Hf as (fs & Hd & Hf). destruct (lg_found _ _ _ _ _ _ HL p fs f Hd Hf) as (c & Hc & _ & Hes).
    pose proof (lg_calls _ _ _ _ _ _ HL c Hc) as Hgc. pose proof Hgc as [A1 A2 A3 A4 A5 (nd & y' & Hn & Hop & Hy & Sy) A7].
    pose proof (proj2 (proj1 A1) _ _ Hn) as Hn1.
    assert (Sy' : is_Some (hv h0 y')) by exact (S_some h0 V Hg0 HV0 y' Sy).
    assert (Hlf : forall v, reachable (k_pre c) [y'] v -> shared_var (k_pre c) v -> owner (k_pre c) v = None).
    { intros v Hr Hsh. apply (extends_reachable h0 (k_pre c) y' v (proj1 Hg0) (proj1 A1) Sy') in Hr.
      assert (Hrv : reachable h0 V v).
      { destruct Hr as (r & ->%elem_of_list_singleton & Hru). destruct Sy as (r0 & Hr0 & Hr1). exists r0. split; [done|]. by eapply rtc_transitive. }
      assert (Sv : is_Some (hv h0 v)) by exact (S_some h0 V Hg0 HV0 v Hrv).
      rewrite (extends_owner_old h0 (k_pre c) v (proj1 A1) Sv). apply (bm_shared _ _ _ _ Hm); [done|]. by apply (shared_old h0 (k_pre c) (proj1 A1) v Sv). }
    pose proof (registered_exact B (k_pre c) (proj2 A1) (k_n c) nd y' Hn1 Hy Hlf (k_e c) p A5) as [Hex _].
    rewrite A7 in Hex. specialize (Hex ltac:(by exists (k_es c), (f_step f), (f_updates f))).
    apply (closed_form_old B h0 (k_pre c) Hg0 (proj1 A1)) in Hex; [|done].
    assert (Oy : owner h0 y' = Some (k_n c, 1)) by exact (wf_outs h0 (proj1 Hg0) _ nd 1 y' Hn Hy).
    destruct (only_beta_binomial B h0 V p y size dtype a b nn Hb (e_name (k_e c)) y') as [Hk ->]; [|done|].
    { apply (bm_draws _ _ _ _ Hm). split; [done|]. by exists (k_n c). }
    assert (Hfin : e_finder (k_e c) = local_beta_binomial_posterior).
    { revert A5 Hk. unfold registered. intros A5 Hk.
      repeat (apply elem_of_cons in A5 as [E|A5]; [rewrite E in *; try done|]). by apply elem_of_nil in A5. }
    rewrite Hfin in A7.
    destruct (bb_step B (k_pre c) (k_n c) nd y nn p size dtype a b (proj2 A1) Hn1 Hy) as (h' & post & Hrun & Hcs).
    { apply (rv_node_old B h0 (k_pre c) Hg0 (proj1 A1)); [done|]. eapply bo_py. exact Hb. }
    { eapply rv_full_extends; [apply A1|]. exact (bo_beta _ _ _ _ _ _ _ _ _ Hb). }
    rewrite A7 in Hrun. injection Hrun as <- Hes'. rewrite Hes' in Hes. apply elem_of_list_singleton in Hes. injection Hes as Hst Hup.
    subst post. exists c. split; try done; [by rewrite A7, Hes'|by exists nd].
  Qed.

  Lemma call_ext c : good_call B h0 V hD c -> extends h0 (k_pre c) /\ extends (k_pre c) (k_post c) /\ extends (k_post c) h3 /\ good_heap (k_pre c) /\ good_heap (k_post c).
  Proof using HE.
    intros [A1 A2 A3 A4 _ _ _]. split; [apply A1|]. split; [done|]. split; [by eapply extends_trans|]. split; [apply A1|apply A2].
  Qed.
  Lemma reachable_trans h us v w : reachable h us v -> reachable h [v] w -> reachable h us w.
  Proof using Type. intros (r & Hr & H1) (r' & ->%elem_of_list_singleton & H2). exists r. split; [done|]. by eapply rtc_transitive. Qed.
  Lemma reachable_input h us v w : reachable h us v -> input_of h v w -> reachable h us w.
  Proof using Type. intros (r & Hr & H1) Hi. exists r. split; [done|]. by eapply rtc_r. Qed.
  Lemma input_old h h' v w : good_heap h -> extends h h' -> is_Some (hv h v) -> input_of h' v w <-> input_of h v w.
  Proof using Type.
    intros Hg He Hs. unfold input_of, parents. rewrite (extends_owner_old h h' v He Hs).
    destruct (owner h v) as [[n i]|] eqn:Ho; [|done]. destruct (wf_owner h (proj1 Hg) v n i Ho) as (nd & Hnd & _).
    by rewrite (proj2 He _ _ Hnd), Hnd.
  Qed.

  Section step.
    Context (p y size dtype a b nn : vid) (f : found) (c : call_rec).
    Hypothesis Hb : beta_of h0 V p y size dtype a b nn.
    Hypothesis Hc : bb_call p y size dtype a b nn f c.
    Notation L := [size; dtype; a; b; nn; y].

    Lemma leaf_reach u : u ∈ L -> S u.
    Proof using Hb.
      destruct (bo_beta _ _ _ _ _ _ _ _ _ Hb) as (n & nd & r & Ho & Hn & _ & Hi & _).
      assert (Sp : S p) by (exists p; split; [apply (bo_p _ _ _ _ _ _ _ _ _ Hb)|apply rtc_refl]).
      assert (Sy : S y) by (exists y; split; [apply (bo_y _ _ _ _ _ _ _ _ _ Hb)|apply rtc_refl]).
      assert (HP : forall w, w ∈ [size; dtype; a; b] -> S w).
      { intros w Hw. eapply reachable_input; [exact Sp|]. unfold input_of, parents. rewrite Ho, Hn, Hi. by right. }
      intros Hu. change L with ([size; dtype; a; b] ++ [nn; y]) in Hu. apply elem_of_app in Hu as [Hu|Hu]; [by apply HP|].
      apply elem_of_cons in Hu as [->|Hu]; [|by apply elem_of_list_singleton in Hu as ->].
      eapply reachable_input; [exact Sy|]. eapply rv_input; [eapply bo_py; exact Hb|by left].
    Qed.
    Lemma leaf_plain u r : u ∈ L -> u ∉ V -> r ∈ V -> ~ reachable h0 [u] r.
    Proof using Hb.
      intros Hu HuV Hr. assert (Hne : u <> y) by (intros ->; apply HuV, (bo_y _ _ _ _ _ _ _ _ _ Hb)).
      destruct (bo_params _ _ _ _ _ _ _ _ _ Hb u) as [?|H]; [|done|by apply H].
      change L with ([size; dtype; a; b; nn] ++ [y]) in Hu. apply elem_of_app in Hu as [Hu|Hu]; [done|]. by apply elem_of_list_singleton in Hu.
    Qed.
    Lemma roots_step : roots_of f = [f_step f].
    Proof using Hc. unfold roots_of. by rewrite (bc_updates _ _ _ _ _ _ _ _ _ Hc). Qed.

    Lemma cut_own v : cut_reachable h3 V [f_step f] v -> L_made.made (k_pre c) L h3 v \/ exists u, u ∈ L /\ u ∉ V /\ reachable h0 [u] v.
    Proof using Hg0 HV0 HE Hb Hc.
      destruct (call_ext c (bc_good _ _ _ _ _ _ _ _ _ Hc)) as (E1 & E2 & E3 & G1 & G2).
      induction 1 as [r ->%elem_of_list_singleton|v u Hv IH HvV Hi].
      - left. eapply L_made.made_extends; [apply G2|exact E3|]. exact (cs_made _ _ _ _ _ (bc_conj _ _ _ _ _ _ _ _ _ Hc)).
      - assert (Hold : forall w, w ∈ L -> w ∉ V -> reachable h0 [w] v -> exists u0, u0 ∈ L /\ u0 ∉ V /\ reachable h0 [u0] u).
        { intros w Hw HwV Hr. exists w. split; [done|]. split; [done|]. eapply reachable_input; [exact Hr|].
          apply (input_old h0 h3); [done|by eapply extends_trans; [|eapply extends_trans]| |done].
          apply (S_some h0 V Hg0 HV0). eapply reachable_trans; [by apply leaf_reach|done]. }
        destruct IH as [Hmd|(w & Hw & HwV & Hr)]; [destruct Hmd as [v HL'|v HN HS HI]|].
        + right. apply (Hold v); [done|done|]. exists v. split; [by left|apply rtc_refl].
        + left. by apply HI.
        + right. by apply (Hold w).
    Qed.

    Lemma own_new v m j : cut_reachable h3 V (roots_of f) v -> v ∉ V -> owner h3 v = Some (m, j) -> reads_model h3 V m ->
      hv (k_pre c) v = None.
    Proof using Hg0 HV0 HE Hm Hb Hc.
      destruct (call_ext c (bc_good _ _ _ _ _ _ _ _ _ Hc)) as (E1 & E2 & E3 & G1 & G2).
      assert (E03 : extends h0 h3) by (by eapply extends_trans; [|eapply extends_trans]).
      rewrite roots_step. intros Hr HvV Ho Hrm.
      assert (Hold : forall u, u ∈ L -> u ∉ V -> reachable h0 [u] v -> False).
      { intros u Hu HuV Huv. pose proof (reachable_trans _ _ _ _ (leaf_reach u Hu) Huv) as Sv.
        assert (Hs : is_Some (hv h0 v)) by exact (S_some h0 V Hg0 HV0 v Sv).
        rewrite (extends_owner_old h0 h3 v E03 Hs) in Ho. destruct (wf_owner h0 (proj1 Hg0) _ _ _ Ho) as (nd0 & Hnd0 & _).
        destruct Hrm as (nd & w & Hnd & Hw & Hcase). rewrite (proj2 E03 _ _ Hnd0) in Hnd. injection Hnd as <-.
        assert (Hi : input_of h0 v w) by (unfold input_of, parents; by rewrite Ho, Hnd0).
        destruct Hcase as [HwV|(m' & i & Ho' & nd' & s & args & Hnd' & Hop')].
        - apply (leaf_plain u w Hu HuV HwV). by eapply reachable_input.
        - assert (Sw : S w) by (by eapply reachable_input). rewrite (extends_owner_old h0 h3 w E03 (S_some h0 V Hg0 HV0 w Sw)) in Ho'.
          apply (bm_plain _ _ _ _ Hm m'); [by exists w, i|]. destruct (wf_owner h0 (proj1 Hg0) _ _ _ Ho') as (nd1 & Hnd1 & _).
          rewrite (proj2 E03 _ _ Hnd1) in Hnd'. injection Hnd' as <-. by exists nd1, s, args. }
      destruct (cut_own v Hr) as [Hmd|(w & Hw & HwV & Hwr)]; [destruct Hmd as [v HL'|v HN HS HI]|].
      - exfalso. apply (Hold v); [done|done|]. exists v. split; [by left|apply rtc_refl].
      - done.
      - exfalso. by apply (Hold w).
    Qed.

    (** everything the step is computed from is in the graph or was made by the call *)
    Lemma step_sources u : reachable h3 [f_step f] u -> is_Some (hv (k_post c) u) /\ (S u \/ hv (k_pre c) u = None).
    Proof using Hg0 HV0 HE Hc.
      destruct (call_ext c (bc_good _ _ _ _ _ _ _ _ _ Hc)) as (E1 & E2 & E3 & G1 & G2). intros Hu.
      destruct (call_sources B h0 V Hg0 HV0 hD c p (f_step f) [] (bc_good _ _ _ _ _ _ _ _ _ Hc)) with (r := f_step f) as [Hs Hr].
      { rewrite (bc_es _ _ _ _ _ _ _ _ _ Hc). by left. }
      { by left. }
      apply (extends_reachable (k_post c) h3 (f_step f) u (proj1 G2) E3 Hs) in Hu.
      split; [|by apply Hr]. eapply wf_reachable; [apply G2| |exact Hu]. by intros r ->%elem_of_list_singleton.
    Qed.
  End step.

  Lemma out_back h h' m nd v j : good_heap h -> good_heap h' -> extends h h' -> hn h m = Some nd -> owner h' v = Some (m, j) -> is_Some (hv h v).
  Proof using Type.
    intros Hg Hg' He Hn Ho. destruct (wf_owner h' (proj1 Hg') _ _ _ Ho) as (nd' & Hn' & Hj).
    rewrite (proj2 He _ _ Hn) in Hn'. injection Hn' as <-. pose proof (wf_outs h (proj1 Hg) m nd j v Hn Hj) as Hv.
    unfold owner in Hv. by destruct (hv h v) as [x|]; [eauto|].
  Qed.
  Lemma node_back h h' m v j : good_heap h -> extends h h' -> is_Some (hv h v) -> owner h' v = Some (m, j) -> exists nd, hn h m = Some nd.
  Proof using Type.
    intros Hg He Hs Ho. rewrite (extends_owner_old h h' v He Hs) in Ho. destruct (wf_owner h (proj1 Hg) _ _ _ Ho) as (nd & Hn & _). eauto.
  Qed.
  Lemma two_calls c c' : c ∈ cs -> c' ∈ cs -> c <> c' -> extends (k_post c) (k_pre c') \/ extends (k_post c') (k_pre c).
  Proof using HL.
    intros Hc Hc' Hne. apply elem_of_list_split in Hc as (l1 & l2 & Hcs). rewrite Hcs in Hc'.
    apply elem_of_app in Hc' as [Hc'|Hc'].
    - right. apply elem_of_list_split in Hc' as (a & b & ->). apply (lg_order _ _ _ _ _ _ HL a c' b c l2). rewrite Hcs. by rewrite <- (assoc_L (++)).
    - left. apply elem_of_cons in Hc' as [<-|Hc']; [done|]. apply elem_of_list_split in Hc' as (a & b & ->).
      by apply (lg_order _ _ _ _ _ _ HL l1 c a c' b).
  Qed.

  Section two.
    Context (p y size dtype a b nn : vid) (f : found) (c : call_rec).
    Context (p' y' size' dtype' a' b' nn' : vid) (f' : found) (c' : call_rec).
    Hypothesis Hb : beta_of h0 V p y size dtype a b nn.
    Hypothesis Hb' : beta_of h0 V p' y' size' dtype' a' b' nn'.
    Hypothesis Hc : bb_call p y size dtype a b nn f c.
    Hypothesis Hc' : bb_call p' y' size' dtype' a' b' nn' f' c'.
    Hypothesis Hne : p <> p'.

    Lemma calls_apart : extends (k_post c) (k_pre c') \/ extends (k_post c') (k_pre c).
    Proof using HL Hc Hc' Hne.
      apply two_calls; [apply (bc_in _ _ _ _ _ _ _ _ _ Hc)|apply (bc_in _ _ _ _ _ _ _ _ _ Hc')|]. intros Heq.
      pose proof (bc_es _ _ _ _ _ _ _ _ _ Hc) as H1. pose proof (bc_es _ _ _ _ _ _ _ _ _ Hc') as H2. rewrite <- Heq, H1 in H2. by injection H2.
    Qed.
    Lemma apart u v m j j' : reachable h3 [f_step f] u -> owner h3 u = Some (m, j) -> reachable h3 [f_step f'] v ->
      owner h3 v = Some (m, j') -> hv (k_pre c') v = None -> False.
    Proof using Hg0 HV0 HL HE G3 Hc Hc' Hne.
      intros Hu Hou Hv Hov Hnew.
      destruct (call_ext c (bc_good _ _ _ _ _ _ _ _ _ Hc)) as (E1 & E2 & E3 & G1 & G2).
      destruct (call_ext c' (bc_good _ _ _ _ _ _ _ _ _ Hc')) as (E1' & E2' & E3' & G1' & G2').
      destruct (step_sources p y size dtype a b nn f c Hc u Hu) as [Su Cu].
      destruct (step_sources p' y' size' dtype' a' b' nn' f' c' Hc' v Hv) as [Sv _].
      assert (Hno : forall k, extends k (k_pre c') -> good_heap k -> is_Some (hv k u) -> False).
      { intros k Ek Gk Hk. assert (Ek3 : extends k h3) by (by eapply extends_trans; [|eapply extends_trans]).
        destruct (node_back k h3 m u j Gk Ek3 Hk Hou) as [nd Hnd].
        destruct (out_back k h3 m nd v j' Gk G3 Ek3 Hnd Hov) as [x Hx]. rewrite (proj1 Ek v x Hx) in Hnew. done. }
      destruct calls_apart as [Hcc|Hcc]; [by apply (Hno (k_post c))|]. destruct Cu as [Cu|Cu].
      - apply (Hno h0); [done|done|]. by apply (S_some h0 V Hg0 HV0).
      - destruct (node_back (k_post c') h3 m v j' G2' E3' Sv Hov) as [nd Hnd].
        destruct (out_back (k_post c') h3 m nd u j G2' G3 E3' Hnd Hou) as [x Hx]. rewrite (proj1 Hcc u x Hx) in Cu. done.
    Qed.
    Lemma cut_reach v : cut_reachable h3 V (roots_of f') v -> reachable h3 [f_step f'] v.
    Proof using Hc'. rewrite (roots_step p' y' size' dtype' a' b' nn' f' c' Hc'). apply cut_sub. Qed.
    Lemma step_self (g : found) : reachable h3 [f_step g] (f_step g).
    Proof using Type. exists (f_step g). split; [by left|apply rtc_refl]. Qed.

    Lemma bb_separated : separated h3 V f f'.
    Proof using All.
      intros n i Ho. split.
      - intros [j Hj]. exfalso. eapply (apart (f_step f) (f_step f')); [apply step_self|exact Ho|apply step_self|exact Hj|].
        exact (cs_new _ _ _ _ _ (bc_conj _ _ _ _ _ _ _ _ _ Hc')).
      - intros _ v m j Hv HvV Hov Hrm (u & k & Hu & Hou). rewrite (roots_step p y size dtype a b nn f c Hc) in Hu.
        eapply (apart u v); [exact Hu|exact Hou|by apply cut_reach|exact Hov|].
        by apply (own_new p' y' size' dtype' a' b' nn' f' c' Hb' Hc' v m j).
    Qed.
    Lemma gens_differ r : is_Some (hv (k_post c) r) -> hv (k_pre c) r = None -> is_Some (hv (k_post c') r) -> hv (k_pre c') r = None -> False.
    Proof using HL Hc Hc' Hne.
      intros [x Hx] H1 [x' Hx'] H2. destruct calls_apart as [H|H].
      - by rewrite (proj1 H _ _ Hx) in H2.
      - by rewrite (proj1 H _ _ Hx') in H1.
    Qed.
  End two.
End graph.
