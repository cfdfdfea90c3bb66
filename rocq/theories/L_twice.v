(** Lemmas for C64 *)
From Verif Require Export S_twice.

Section upd.
  Context (order : heap -> list vid -> list nid).
  Hypothesis Horder : order_ok order.
  Lemma process_all_updates_some h0 obs l : forall st st',
    inv h0 st -> in_loop obs st l -> process_all order obs st l = Ok st' ->
    (forall k u, dget (st_updates st) k = Some u -> is_Some (hv (st_heap st) u)) ->
    forall k u, dget (st_updates st') k = Some u -> is_Some (hv (st_heap st') u).
  Proof.
    induction l as [|rv l IH]; intros st st' Hinv [Hnd Hl] Hp Hup; cbn in Hp.
    { by simplify_eq. }
    destruct (process_rv order obs st rv) as [st1|] eqn:Hp1; [|done]. cbn in Hp.
    apply NoDup_cons in Hnd as [Hnin Hnd].
    destruct (process_rv_spec order Horder h0 obs st rv st1 Hinv) as (Hinv1 & Hfr1 & Hch1 & Hg1); [|done|].
    { apply Hl. by left. }
    assert (Hloop : in_loop obs st1 l).
    { split; [done|]. intros rv' Hin Ho. rewrite (fr_keys _ _ Hfr1). apply Hl; [by right|done]. }
    apply (IH st1 st' Hinv1 Hloop Hp).
    apply process_rv_cases in Hp1 as [[Ho ->]|[(Ho & Hc & ->)|(Ho & fs & f & Hd & Hlast & Hch & Hps)]]; [done|done|].
    destruct (process_step_spec order Horder h0 st rv (removelast fs) f st1 Hinv (Hl rv ltac:(by left) Ho)) as
      (step & us & H1 & H2 & H3 & H4 & H4' & H5 & H6 & H7 & H8 & H9 & H10 & H11 & _); [|done|].
    { exists rv, fs. split_and!; [done|by apply last_elem|]. intros f'. apply removelast_elem. }
    intros k u. rewrite H4, dget_dupdate_gen. destruct (dget (dof (zip (dkeys (f_updates f)) us)) k) as [u'|] eqn:Hg.
    - intros [= <-]. apply dget_dof_in in Hg. apply elem_of_list_lookup in Hg as [a Ha].
      rewrite lookup_zip_with in Ha. destruct (dkeys (f_updates f) !! a); [|done]. destruct (us !! a) as [u|] eqn:Hu; [|done].
      cbn in Ha. simplify_eq. apply (H11 u'). by eapply elem_of_list_lookup_2.
    - intros Hu. eapply evolves_some; [exact H5|]. by eapply Hup.
  Qed.
End upd.

Lemma extends_refl h : extends h h.
Proof. by split. Qed.

Section ext.
  Context (h h' : heap).
  Hypothesis Hg : good_heap h.
  Hypothesis Hex : extends h h'.

  Lemma ext_node_reachable roots n : (forall r, r ∈ roots -> is_Some (hv h r)) ->
    node_reachable h' roots n <-> node_reachable h roots n.
  Proof.
    intros Hr. split; intros (v & i & Hv & Ho); exists v, i.
    - apply (extends_reachable_list h h') in Hv; [|apply Hg|done|done]. split; [done|].
      rewrite <- Ho. symmetry. apply extends_owner_old; [done|]. by eapply wf_reachable; [apply Hg| |].
    - split; [by apply (extends_reachable_list h h'); [apply Hg| | |]|].
      rewrite <- Ho. apply extends_owner_old; [done|]. unfold owner in Ho. by destruct (hv h v); [eauto|].
  Qed.

  Lemma node_reachable_some roots n : node_reachable h roots n -> exists nd, hn h n = Some nd.
  Proof. intros (v & i & _ & Ho). destruct (wf_owner h (proj1 Hg) _ _ _ Ho) as (nd & ? & _). by exists nd. Qed.

  Lemma ext_topo roots ns : (forall r, r ∈ roots -> is_Some (hv h r)) -> topo_order h roots ns -> topo_order h' roots ns.
  Proof.
    intros Hr [[Hnd Hns] Ho]. split; [split; [done|]|].
    - intros n. rewrite Hns. symmetry. by apply ext_node_reachable.
    - intros l1 n l2 nd u m i Heq Hn Hu Hou.
      assert (Hin : n ∈ ns) by (rewrite Heq; apply elem_of_app; right; by left).
      apply Hns in Hin. destruct (node_reachable_some _ _ Hin) as (nd' & Hn'). pose proof (proj2 Hex _ _ Hn') as Hn2.
      assert (nd' = nd) as -> by congruence. eapply Ho; [exact Heq|exact Hn'|exact Hu|].
      rewrite <- Hou. symmetry. apply extends_owner_old; [done|]. by eapply (wf_ins h (proj1 Hg)).
  Qed.

  Lemma ext_rv_outputs roots ns : topo_order h roots ns -> rv_outputs h' ns = rv_outputs h ns.
  Proof.
    intros [[_ Hns] _]. assert (Hin : forall n, n ∈ ns -> hn h' n = hn h n).
    { intros n Hn. apply Hns in Hn. destruct (node_reachable_some _ _ Hn) as (nd & Hnd). rewrite Hnd. by apply Hex. }
    clear Hns. unfold rv_outputs. induction ns as [|n ns IH]; [done|]. cbn. rewrite Hin by (by left).
    rewrite IH; [done|]. intros m Hm. apply Hin. by right.
  Qed.

  Lemma ext_model_rv obs rv : (forall k, k ∈ dkeys obs -> is_Some (hv h k)) -> model_rv h' obs rv <-> model_rv h obs rv.
  Proof.
    intros Hk. split; intros (n & nd & d & Hn & Hnd & Hop & Hout); exists n, nd, d.
    - apply ext_node_reachable in Hn; [|done]. destruct (node_reachable_some _ _ Hn) as (nd' & Hn').
      pose proof (proj2 Hex _ _ Hn') as Hn2. assert (nd' = nd) as -> by congruence. done.
    - split_and!; [by apply ext_node_reachable|by apply Hex|done|done].
  Qed.

  Lemma ext_model_ok obs : model_ok h obs -> good_heap h' -> shuffles_ok h' -> model_ok h' obs.
  Proof.
    intros Hm Hg' Hs'.
    assert (Hks : forall k, k ∈ dkeys obs -> is_Some (hv h k)).
    { intros k Hk. destruct (mo_keys _ _ Hm k Hk) as (n & nd & d & _ & Hn & _ & Hout).
      pose proof (wf_outs h (proj1 Hg) _ _ _ _ Hn Hout) as Ho. unfold owner in Ho. by destruct (hv h k); [eauto|]. }
    assert (Hall : forall r, r ∈ dkeys obs ++ dvalues obs -> is_Some (hv h r)).
    { intros r [Hr|Hr]%elem_of_app; [by apply Hks|by apply (mo_vals _ _ Hm)]. }
    constructor; try done.
    - intros n Hn Hsub. apply ext_node_reachable in Hn; [|done]. apply (mo_plain _ _ Hm n Hn).
      destruct (node_reachable_some _ _ Hn) as (nd & Hnd). destruct Hsub as (nd' & sc & args & Hn' & Hop).
      pose proof (proj2 Hex _ _ Hnd). assert (nd' = nd) as -> by congruence. by exists nd, sc, args.
    - apply (mo_nodup _ _ Hm).
    - intros k Hk. apply ext_model_rv; [done|]. by apply (mo_keys _ _ Hm).
    - intros v Hv. eapply extends_some; [exact Hex|]. by apply (mo_vals _ _ Hm).
    - intros v rv Hv Hrv Hr. apply ext_model_rv in Hrv; [|done]. apply (mo_data _ _ Hm v rv Hv Hrv).
      apply (extends_reachable h h'); [apply Hg|done|by apply (mo_vals _ _ Hm)|done].
    - intros v Hv Hr. rewrite (extends_owner_old h h') by (try done; by apply (mo_vals _ _ Hm)).
      apply (mo_leaf _ _ Hm v Hv). by apply (extends_reachable_list h h'); [apply Hg| | |].
  Qed.

  Lemma ext_hyps obs topo topo_rv : model_ok h obs -> topo_order h (dkeys obs) topo -> topo_order h (rv_outputs h topo) topo_rv ->
    good_heap h' -> shuffles_ok h' ->
    model_ok h' obs /\ topo_order h' (dkeys obs) topo /\ topo_order h' (rv_outputs h' topo) topo_rv.
  Proof.
    intros Hm Ht Htr Hg' Hs'. split; [by apply ext_model_ok|]. split.
    - apply ext_topo; [|done]. intros k Hk. destruct (mo_keys _ _ Hm k Hk) as (n & nd & d & _ & Hn & _ & Hout).
      pose proof (wf_outs h (proj1 Hg) _ _ _ _ Hn Hout) as Ho. unfold owner in Ho. by destruct (hv h k); [eauto|].
    - rewrite (ext_rv_outputs _ _ Ht). apply ext_topo; [|done]. intros r Hr.
      apply (rv_outputs_spec h obs topo Ht) in Hr as (n & nd & d & _ & Hn & _ & Hout).
      pose proof (wf_outs h (proj1 Hg) _ _ _ _ Hn Hout) as Ho. unfold owner in Ho. by destruct (hv h r); [eauto|].
  Qed.
End ext.

Lemma sampler_good o h obs topo topo_rv s :
  contracts o -> model_ok h obs -> topo_order h (dkeys obs) topo -> topo_order h (rv_outputs h topo) topo_rv ->
  construct_sampler o h obs topo topo_rv = Ok s ->
  good_heap (s_heap s) /\ forall v, given_out s v -> is_Some (hv (s_heap s) v).
Proof.
  intros Hc Hm Ht Htr Hs.
  destruct (sampler_parts o h obs topo topo_rv Hc Hm Ht Htr s Hs) as (i & outs & inits & st0 & st & pss & Hp).
  pose proof (pt_nuts _ _ _ _ _ _ _ _ _ _ _ _ Hp) as Hn. pose proof (pt_inv _ _ _ _ _ _ _ _ _ _ _ _ Hp) as Hinv.
  pose proof (pt_facts _ _ _ _ _ _ _ _ _ _ _ _ Hp) as Hf.
  split; [apply (nf_good _ _ _ _ _ _ Hn)|].
  assert (Hown : forall u p, owner (s_heap s) u = Some p -> is_Some (hv (s_heap s) u)).
  { intros u p Ho. unfold owner in Ho. by destruct (hv (s_heap s) u); [eauto|]. }
  assert (Hpss : forall k w, dget pss k = Some w -> is_Some (hv (s_heap s) w)).
  { intros k w Hw. destruct (decide (k ∈ st_left st)) as [Hin|Hni].
    - destruct (nf_kernel _ _ _ _ _ _ Hn) as (n & nd & _ & _ & _ & Hk & _). { intros He. rewrite He in Hin. by apply elem_of_nil in Hin. }
      destruct (Hk k Hin) as (w' & j & Hw' & Ho). rewrite Hw in Hw'. injection Hw' as <-. by eapply Hown.
    - rewrite (nf_other _ _ _ _ _ _ Hn) in Hw by done. eapply extends_some; [apply (nf_ext _ _ _ _ _ _ Hn)|].
      apply (inv_vals _ _ Hinv). apply dget_Some_in in Hw. apply elem_of_list_fmap. by exists (k, w). }
  intros v [(rv & Hv)|[(k & Hv)|(rv & Hv)]].
  - apply (pt_steps _ _ _ _ _ _ _ _ _ _ _ _ Hp) in Hv as (_ & _ & Hw). by eapply Hpss.
  - assert (Hst : forall k u, dget (st_updates st) k = Some u -> is_Some (hv (st_heap st) u)).
    { apply (process_all_updates_some (o_order o) (ct_order o Hc) h (ir_obs i) outs st0 st); try done.
      - apply (if_inv _ _ _ _ _ _ _ _ Hf).
      - apply (pt_inloop _ _ _ _ _ _ _ _ _ _ _ _ Hp).
      - apply (pt_loop _ _ _ _ _ _ _ _ _ _ _ _ Hp).
      - intros k' u'. by rewrite (if_upd _ _ _ _ _ _ _ _ Hf). }
    destruct (st_left st) as [|a left] eqn:Hl.
    + destruct (nf_none _ _ _ _ _ _ Hn Hl) as (-> & _ & Hu). rewrite Hu in Hv. by eapply Hst.
    + destruct (nf_kernel _ _ _ _ _ _ Hn) as (n & nd & _ & _ & _ & _ & _ & Hk & _); [by rewrite Hl|].
      destruct (Hk k v Hv) as [Hu|(_ & j & Ho)]; [|by eapply Hown].
      eapply extends_some; [apply (nf_ext _ _ _ _ _ _ Hn)|]. by eapply Hst.
  - destruct (init_keys o h obs topo topo_rv Hc Hm Ht Htr s Hs) as (_ & _ & _ & Hi).
    destruct (Hi rv v Hv) as (_ & x & _ & Hx). by eauto.
Qed.

(** one more sampler *)
Section more.
  Context (h0 : heap).
  Hypothesis Hg0 : good_heap h0.

  Lemma build_one h o obs topo topo_rv s : good_heap h -> shuffles_ok h -> extends h0 h ->
    contracts o -> model_ok h0 obs -> topo_order h0 (dkeys obs) topo -> topo_order h0 (rv_outputs h0 topo) topo_rv ->
    construct_sampler o h obs topo topo_rv = Ok s ->
    good_heap (s_heap s) /\ extends h (s_heap s) /\ (forall v, given_out s v -> is_Some (hv (s_heap s) v)) /\
    (forall rv w, dget (s_init s) rv = Some w -> hv h w = None) /\
    (forall rv, rv ∈ dkeys (s_steps s) <-> model_rv h0 obs rv /\ rv ∉ dkeys obs).
  Proof.
    intros Hg Hsh Hex Hc Hm Ht Htr Hs.
    destruct (ext_hyps h0 h Hg0 Hex obs topo topo_rv Hm Ht Htr Hg Hsh) as (Hm' & Ht' & Htr').
    destruct (sampler_good o h obs topo topo_rv s Hc Hm' Ht' Htr' Hs) as [H1 H2].
    split_and!; [done|by eapply model_kept|done| |].
    - intros rv w Hw. destruct (init_keys o h obs topo topo_rv Hc Hm' Ht' Htr' s Hs) as (_ & _ & _ & Hi).
      by destruct (Hi rv w Hw).
    - intros rv. destruct (steps_keys o h obs topo topo_rv Hc Hm' Ht' Htr' s Hs) as [_ Hk]. rewrite Hk.
      rewrite (ext_model_rv h0 h Hg0 Hex); [done|].
      intros k Hkk. destruct (mo_keys _ _ Hm k Hkk) as (n & nd & d & _ & Hn & _ & Hout).
      pose proof (wf_outs h0 (proj1 Hg0) _ _ _ _ Hn Hout) as Ho. unfold owner in Ho. by destruct (hv h0 k); [eauto|].
  Qed.

  Lemma builds_extends h ss h' : builds h0 h ss h' -> good_heap h -> shuffles_ok h -> extends h0 h ->
    good_heap h' /\ extends h h' /\
    (forall s, s ∈ ss -> good_heap (s_heap s) /\ extends h (s_heap s) /\ extends (s_heap s) h' /\
       (forall v, given_out s v -> is_Some (hv (s_heap s) v)) /\
       (forall rv w, dget (s_init s) rv = Some w -> hv h w = None)).
  Proof.
    induction 1 as [h|h o obs topo topo_rv s ss h' Hc Hm Ht Htr Hs Hsh1 Hb IH]; intros Hg Hsh Hex.
    { split; [done|]. split; [apply extends_refl|]. intros s Hin. by apply elem_of_nil in Hin. }
    destruct (build_one h o obs topo topo_rv s Hg Hsh Hex Hc Hm Ht Htr Hs) as (H1 & H2 & H3 & H4 & _).
    destruct IH as (I1 & I2 & I3); [done|done|by eapply extends_trans|].
    split; [done|]. split; [by eapply extends_trans|]. intros s' [->|Hin]%elem_of_cons.
    - split_and!; done.
    - destruct (I3 s' Hin) as (J1 & J2 & J3 & J4 & J5). split_and!; [done|by eapply extends_trans|done|done|].
      intros rv w Hw. destruct (hv h w) as [x|] eqn:Hx; [|done]. apply H2 in Hx. rewrite (J5 rv w Hw) in Hx. done.
  Qed.

  Lemma builds_split h ss h' l1 s l2 : builds h0 h ss h' -> ss = l1 ++ s :: l2 -> good_heap h -> shuffles_ok h -> extends h0 h ->
    exists ha, good_heap ha /\ shuffles_ok ha /\ extends h0 ha /\ builds h0 ha (s :: l2) h'.
  Proof.
    intros Hb. revert l1. induction Hb as [h|h o obs topo topo_rv s0 ss h' Hc Hm Ht Htr Hs Hsh1 Hb IH]; intros l1 Heq Hg Hsh Hex.
    { by destruct l1. }
    destruct l1 as [|s1 l1]; cbn in Heq; injection Heq as -> ->.
    - exists h. split_and!; [done|done|done|]. by eapply builds_cons.
    - destruct (build_one h o obs topo topo_rv s1 Hg Hsh Hex Hc Hm Ht Htr Hs) as (H1 & H2 & _).
      apply (IH l1 eq_refl H1 Hsh1). by eapply extends_trans.
  Qed.
End more.
