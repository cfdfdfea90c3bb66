(** The state in which construct_sampler enters its loop. *)
From Verif Require Export L_scan.

Lemma NoDup_omap {A B} (f : A -> option B) l :
  NoDup l -> (forall x y z, x ∈ l -> y ∈ l -> f x = Some z -> f y = Some z -> x = y) -> NoDup (omap f l).
Proof.
  induction l as [|x l IH]; intros Hnd Hinj; [constructor|]. apply NoDup_cons in Hnd as [Hni Hnd].
  cbn. assert (IH' : NoDup (omap f l)). { apply IH; [done|]. intros a b z Ha Hb. apply Hinj; by right. }
  destruct (f x) as [z|] eqn:Hx; [|done]. apply NoDup_cons. split; [|done].
  intros (y & Hy & Hfy)%elem_of_list_omap. apply Hni. rewrite (Hinj x y z); try done; [by left|by right].
Qed.

Lemma dget_dof_in {K V} `{EqDecision K} (e : list (K * V)) k v : dget (dof e) k = Some v -> (k, v) ∈ e.
Proof.
  unfold dof. cut (forall d, dget (dupdate d e) k = Some v -> (k, v) ∈ e \/ dget d k = Some v).
  { intros Hc H. by apply Hc in H as [?|?]. }
  induction e as [|[a b] e IH]; intros d; cbn; [by right|]. intros H. apply IH in H as [H|H]; [left; by right|].
  rewrite dget_dset in H. case_decide; simplify_eq; [left; by left|by right].
Qed.

Lemma extends_map_fst {A B C} (g : A -> C) (l : list (A * B)) :
  map fst (map (fun '(k, v) => (g k, v)) l) = g <$> (map fst l).
Proof. induction l as [|[k v] l IH]; [done|]. cbn. f_equal. exact IH. Qed.

(** [{rv: rv.clone() for rv in random_vars}] *)
Lemma clone_var_spec h v x :
  hv h v = Some x -> good_heap h ->
  let r := clone_var h v in
  extends h r.1 /\ good_heap r.1 /\ hv h r.2 = None /\ hv r.1 r.2 = Some (Var (v_name x) (v_ty x) KPlain None) /\
  (forall n, hn r.1 n = hn h n) /\ (forall u, u <> r.2 -> hv r.1 u = hv h u).
Proof.
  intros Hx (Hwf & Hac & Hok). unfold clone_var. rewrite Hx. cbn zeta.
  set (y := Var (v_name x) (v_ty x) KPlain None). split_and!.
  - apply alloc_var_extends.
  - split_and!; [by apply alloc_var_wf|by apply alloc_var_acyclic|].
    intros n nd s args Hn. rewrite alloc_var_hn in Hn. by eapply Hok.
  - apply alloc_var_fresh.
  - rewrite hv_alloc_var. by rewrite decide_True.
  - done.
  - intros u Hu. rewrite hv_alloc_var. by rewrite decide_False.
Qed.

Lemma clone_all_spec l : forall h, good_heap h -> (forall v, v ∈ l -> is_Some (hv h v)) ->
  let r := clone_all h l in
  extends h r.1 /\ good_heap r.1 /\ (forall n, hn r.1 n = hn h n) /\
  map fst r.2 = l /\ NoDup (map snd r.2) /\
  (forall v w, (v, w) ∈ r.2 -> hv h w = None /\
     exists x, hv h v = Some x /\ hv r.1 w = Some (Var (v_name x) (v_ty x) KPlain None)).
Proof.
  induction l as [|v l IH]; intros h Hg Hl; cbn zeta; cbn [clone_all].
  { split_and!; try done; [constructor|]. by intros v w ?%elem_of_nil. }
  destruct (Hl v) as [x Hx]; [by left|].
  destruct (clone_var_spec h v x Hx Hg) as (H1 & H2 & H3 & H4 & H5 & H6).
  destruct (clone_var h v) as [h1 w]. cbn [fst snd] in *.
  destruct (IH h1 H2) as (I1 & I2 & I3 & I4 & I5 & I6).
  { intros u Hu. eapply extends_some; [done|]. apply Hl. by right. }
  destruct (clone_all h1 l) as [h2 r]. cbn [fst snd] in *. split_and!.
  - by eapply extends_trans.
  - done.
  - intros n. by rewrite I3.
  - cbn. by rewrite I4.
  - cbn. apply NoDup_cons. split; [|done]. intros Hin. apply elem_of_list_fmap in Hin as ([v' w'] & Hw & Hin).
    cbn in Hw. subst w'. destruct (I6 _ _ Hin) as [Hn _]. congruence.
  - intros v' w' [Heq|Hin]%elem_of_cons.
    + simplify_eq. split; [done|]. exists x. split; [done|]. by apply I1.
    + destruct (I6 _ _ Hin) as [Hn (x' & Hx' & Hw')]. 
      assert (Hnw : hv h w' = None).
      { destruct (hv h w') as [y|] eqn:Hy; [|done]. apply H1 in Hy. congruence. }
      split; [done|]. destruct (Hl v') as [x0 Hx0].
      { right. rewrite <- I4. apply elem_of_list_fmap. by exists (v', w'). }
      exists x0. split; [done|]. pose proof (proj1 H1 _ _ Hx0). by simplify_eq.
Qed.

Section init.
  Context (o : oracles) (h : heap) (obs : dict nat nat) (topo topo_rv : list nid).
  Hypothesis Hct : contracts o.
  Hypothesis Hm : model_ok h obs.
  Hypothesis Htopo : topo_order h (dkeys obs) topo.
  Hypothesis Htopo_rv : topo_order h (rv_outputs h topo) topo_rv.

  Lemma rv_outputs_spec rv : rv ∈ rv_outputs h topo <-> model_rv h obs rv.
  Proof.
    unfold rv_outputs, model_rv. rewrite elem_of_list_omap. split.
    - intros (n & Hn & Hr). destruct (hn h n) as [nd|] eqn:Hnd; [|done]. cbn in Hr.
      destruct (n_op nd) as [d| | | | |] eqn:Hop; try done. exists n, nd, d. split_and!; try done. by apply Htopo.
    - intros (n & nd & d & Hn & Hnd & Hop & Hr). exists n. split; [by apply Htopo|]. rewrite Hnd. cbn. by rewrite Hop.
  Qed.

  Lemma rv_outputs_nodup : NoDup (rv_outputs h topo).
  Proof.
    apply NoDup_omap; [apply Htopo|]. intros n1 n2 v _ _ H1 H2.
    destruct (mo_good _ _ Hm) as (Hwf & _).
    assert (forall n, (nd ← hn h n; match n_op nd with ORV _ => n_outs nd !! 1 | _ => None end) = Some v ->
      owner h v = Some (n, 1)) as Hown.
    { intros n Hn. destruct (hn h n) as [nd|] eqn:Hnd; [|done]. cbn in Hn. destruct (n_op nd); try done.
      by eapply (wf_outs _ Hwf). }
    apply Hown in H1, H2. congruence.
  Qed.

  Lemma model_rv_owner rv : model_rv h obs rv -> exists n nd d, owner h rv = Some (n, 1) /\ hn h n = Some nd /\ n_op nd = ORV d.
  Proof.
    intros (n & nd & d & _ & Hnd & Hop & Hr). destruct (mo_good _ _ Hm) as (Hwf & _). exists n, nd, d.
    split_and!; try done. by eapply (wf_outs _ Hwf).
  Qed.

  Lemma model_rv_reach rv : model_rv h obs rv -> exists n i, owner h rv = Some (n, i) /\ node_reachable h (dkeys obs) n.
  Proof.
    intros (n & nd & d & Hn & Hnd & Hop & Hr). destruct (mo_good _ _ Hm) as (Hwf & _). exists n, 1.
    split; [|done]. by eapply (wf_outs _ Hwf).
  Qed.

  Lemma rv_reach_obs u : reachable h (rv_outputs h topo) u -> reachable h (dkeys obs) u \/ model_rv h obs u.
  Proof.
    intros (r & Hr & Hru). apply rv_outputs_spec in Hr. pose proof Hr as Hr0.
    apply model_rv_reach in Hr as (n & i & Ho & Hn).
    apply rtc_inv in Hru as [<-|(z & Hz & Hzu)]; [by right|left].
    unfold input_of, parents in Hz. rewrite Ho in Hz. destruct (hn h n) as [nd|] eqn:Hnd; [|by apply elem_of_nil in Hz].
    pose proof (node_reachable_ins _ _ _ _ _ Hn Hnd Hz) as (r1 & Hr1 & Hr1z).
    exists r1. split; [done|]. by etransitivity.
  Qed.

  Let vals := dvalues obs.
  Let memo0 := dof (map (fun v => (v, v)) vals).

  Lemma rv_not_val rv : model_rv h obs rv -> rv ∉ vals.
  Proof.
    intros Hrv Hv. apply (mo_data _ _ Hm rv rv Hv Hrv). apply reachable_root. by left.
  Qed.

  Lemma memo0_get v w : dget memo0 v = Some w <-> w = v /\ v ∈ vals.
  Proof.
    unfold memo0. split.
    - intros H. apply dget_dof_in in H. apply elem_of_list_fmap in H as (z & Hz & Hin). by simplify_eq.
    - intros [-> Hv]. destruct (dget (dof (map (fun v => (v, v)) vals)) v) as [w|] eqn:Hg.
      + apply dget_dof_in in Hg. apply elem_of_list_fmap in Hg as (z & Hz & Hin). by simplify_eq.
      + apply dget_None in Hg. exfalso. apply Hg. unfold dof. apply elem_of_dkeys_dupdate. right.
        rewrite map_map. cbn. by rewrite map_id.
  Qed.

  Lemma clone_ok : clone_inv h vals topo_rv (clone_nodes h memo0 topo_rv).1 (clone_nodes h memo0 topo_rv).2.
  Proof.
    apply (clone_nodes_inv h vals (mo_good _ _ Hm)) with (roots := rv_outputs h topo); try done.
    - apply (mo_shuffles _ _ Hm).
    - apply (mo_vals _ _ Hm).
    - intros u Hu Hv. apply (mo_leaf _ _ Hm); [done|]. apply rv_reach_obs in Hu as [Hu|Hu]; [done|].
      by apply rv_not_val in Hu.
    - constructor; try done.
      + apply (mo_good _ _ Hm).
      + intros v w Hvw. apply memo0_get in Hvw. by left.
      + intros v1 v2 w [-> _]%memo0_get [-> _]%memo0_get. done.
      + intros v Hv. by apply memo0_get.
      + by intros n nd v ?%elem_of_nil.
      + intros n' nd' u Hn Hn'. congruence.
      + intros w x' Hn Hn'. congruence.
      + apply (mo_shuffles _ _ Hm).
      + intros v w [_ Hv]%memo0_get Hnv. done.
      + intros n' _ Hs. by eauto.
  Qed.

  Record init_facts (i : ir) (outs : list vid) (inits : dict nat nat) (st0 : state) : Prop := InitFacts {
    if_outs : outs = memo_get (ir_memo i) <$> rv_outputs h topo;
    if_ext : extends h (ir_heap i);
    if_nodup : NoDup outs;
    if_fresh : forall u, u ∈ outs -> hv h u = None;
    if_owned : forall u, u ∈ outs -> exists p, owner (st_heap st0) u = Some p;
    if_n2o : forall rv, rv ∈ rv_outputs h topo -> dget (ir_new_to_old i) (memo_get (ir_memo i) rv) = Some rv;
    if_obs : ir_obs i = map (fun '(k, v) => (memo_get (ir_memo i) k, v)) obs;
    if_obs_in : forall k, k ∈ dkeys (ir_obs i) -> k ∈ outs;
    if_inits_keys : dkeys inits = filter (fun rv => rv ∉ dkeys (ir_obs i)) outs;
    if_inits_nodup : NoDup (dvalues inits);
    if_inits : forall rv w, rv ∈ rv_outputs h topo -> (memo_get (ir_memo i) rv, w) ∈ inits ->
      hv h w = None /\ exists x, hv h rv = Some x /\ hv (st_heap st0) w = Some (Var (v_name x) (v_ty x) KPlain None);
    if_inits_new : forall w, w ∈ dvalues inits -> owner (st_heap st0) w = None;
    if_ty : forall rv, rv ∈ rv_outputs h topo -> ty_of (st_heap st0) (memo_get (ir_memo i) rv) = ty_of h rv;
    if_pss : st_pss st0 = inits ++ ir_obs i;
    if_upd : st_updates st0 = [];
    if_left : st_left st0 = [];
    if_inv : inv h st0;
    if_reach : forall rv fs f u, dget (st_found st0) rv = Some fs -> f ∈ fs ->
      reachable (st_heap st0) (roots_of f) u -> hv h u = None \/ owner h u = None;
    if_old_reach : forall v u, v ∈ vals -> reachable (st_heap st0) [v] u <-> reachable h [v] u;
    if_found : st_found st0 = (o_finders o (ir_heap i) (ir_outputs i)).2;
  }.

  Lemma memo_inj rv1 rv2 :
    let memo := (clone_nodes h memo0 topo_rv).2 in
    rv1 ∈ rv_outputs h topo -> rv2 ∈ rv_outputs h topo -> memo_get memo rv1 = memo_get memo rv2 -> rv1 = rv2.
  Proof.
    intros memo H1 H2. pose proof clone_ok as Hc.
    assert (forall rv, rv ∈ rv_outputs h topo -> exists w, dget memo rv = Some w) as Hdone.
    { intros rv Hrv. pose proof (proj1 (rv_outputs_spec rv) Hrv) as Hmr.
      destruct (model_rv_owner rv Hmr) as (n & nd & d & Ho & Hn & _).
      destruct (ci_done _ _ _ _ _ Hc n nd rv) as [w Hw]; [|done| |by eauto].
      - apply Htopo_rv. exists rv, 1. split; [by apply reachable_root|done].
      - destruct (mo_good _ _ Hm) as (Hwf & _). destruct (wf_owner _ Hwf _ _ _ Ho) as (nd' & Hn' & Hi).
        rewrite Hn in Hn'. injection Hn' as <-. by eapply elem_of_list_lookup_2. }
    destruct (Hdone rv1 H1) as [w1 Hw1], (Hdone rv2 H2) as [w2 Hw2].
    unfold memo_get. rewrite Hw1, Hw2. intros ->. by eapply (ci_inj _ _ _ _ _ Hc).
  Qed.

  Lemma memo_clone rv :
    rv ∈ rv_outputs h topo ->
    clone_of h vals (clone_nodes h memo0 topo_rv).1 rv (memo_get (clone_nodes h memo0 topo_rv).2 rv).
  Proof.
    intros Hrv. pose proof clone_ok as Hc. pose proof (proj1 (rv_outputs_spec rv) Hrv) as Hmr.
    destruct (model_rv_owner rv Hmr) as (n & nd & d & Ho & Hn & _).
    destruct (ci_done _ _ _ _ _ Hc n nd rv) as [w Hw]; [|done| |].
    - apply Htopo_rv. exists rv, 1. split; [by apply reachable_root|done].
    - destruct (mo_good _ _ Hm) as (Hwf & _). destruct (wf_owner _ Hwf _ _ _ Ho) as (nd' & Hn' & Hi).
      rewrite Hn in Hn'. injection Hn' as <-. by eapply elem_of_list_lookup_2.
    - unfold memo_get. rewrite Hw. apply (ci_memo _ _ _ _ _ Hc) in Hw as [[-> Hv]|Hcl]; [|done].
      by apply rv_not_val in Hmr.
  Qed.

  (** the clone of a random variable is a random variable *)
  Lemma memo_draw rv :
    rv ∈ rv_outputs h topo ->
    is_draw (clone_nodes h memo0 topo_rv).1 (memo_get (clone_nodes h memo0 topo_rv).2 rv).
  Proof.
    intros Hrv. destruct (memo_clone rv Hrv)
      as (_ & _ & x & x' & n' & i' & Hx & Hx' & _ & _ & Ho' & _ & n0 & nd0 & nd0' & Ho0 & Hn0 & Hn0' & Hop0).
    destruct (model_rv_owner rv (proj1 (rv_outputs_spec rv) Hrv)) as (n1 & nd1 & d & Ho1 & Hn1 & Hop1).
    unfold owner in Ho1. rewrite Hx in Ho1. cbn in Ho1. rewrite Ho1 in Ho0. injection Ho0 as <- <-.
    rewrite Hn1 in Hn0. injection Hn0 as <-. exists n', nd0', d. split_and!; [|done|congruence].
    unfold owner. by rewrite Hx'.
  Qed.

  Lemma sampler_init_facts i outs inits st0 :
    sampler_init o h obs topo topo_rv = (i, outs, inits, st0) -> init_facts i outs inits st0.
  Proof.
    unfold sampler_init, construct_ir_fgraph. fold vals. fold memo0.
    pose proof clone_ok as Hc. pose proof memo_inj as Hinj. pose proof memo_clone as Hcl. pose proof memo_draw as Hdr.
    destruct (clone_nodes h memo0 topo_rv) as [h1 memo] eqn:Hcn. cbn [fst snd] in *. cbn zeta in Hinj.
    set (rvs := rv_outputs h topo) in *. set (outs1 := memo_get memo <$> rvs).
    destruct (mo_good _ _ Hm) as (Hwf & Hac & Hok).
    assert (Hfresh1 : forall u, u ∈ outs1 -> hv h u = None).
    { intros u Hu. apply elem_of_list_fmap in Hu as (rv & -> & Hrv). by apply (Hcl rv Hrv). }
    assert (Hsome1 : forall u, u ∈ outs1 -> is_Some (hv h1 u)).
    { intros u Hu. apply elem_of_list_fmap in Hu as (rv & -> & Hrv).
      destruct (Hcl rv Hrv) as (_ & _ & x & x' & n' & i' & _ & Hx' & _). by eauto. }
    assert (Hnodup1 : NoDup outs1).
    { apply NoDup_fmap_2_strong; [|apply rv_outputs_nodup]. intros. by apply Hinj. }
    (* what the cloned graph reads *)
    assert (Hext1 : extends h h1) by apply Hc.
    assert (Hcl1 : closed (fun u => hv h u = None \/ (is_Some (hv h u) /\ owner h u = None)) h1).
    { intros v u [Hv|[Hv Ho]] Hvu.
      - unfold input_of, parents in Hvu. destruct (owner h1 v) as [[n' j]|] eqn:Hov; [|by apply elem_of_nil in Hvu].
        destruct (hn h1 n') as [nd'|] eqn:Hn'; [|by apply elem_of_nil in Hvu].
        eapply (ci_ins _ _ _ _ _ Hc n' nd' u); try done.
        unfold owner in Hov. destruct (hv h1 v) as [x'|] eqn:Hx'; [|done]. cbn in Hov.
        destruct (ci_own _ _ _ _ _ Hc v x' Hv Hx') as (n2 & i2 & Ho2 & Hnone). by simplify_eq.
      - unfold input_of in Hvu. rewrite parents_no_owner in Hvu; [by apply elem_of_nil in Hvu|].
        by rewrite (extends_owner_old h h1). }
    assert (Hreach1 : forall u, reachable h1 outs1 u -> hv h u = None \/ (is_Some (hv h u) /\ owner h u = None)).
    { intros u. apply (closed_reachable _ h1 outs1 u Hcl1). intros r Hr. left. by apply Hfresh1. }
    assert (Hdraw1 : forall u, u ∈ outs1 -> is_draw h1 u).
    { intros u Hu. apply elem_of_list_fmap in Hu as (rv & -> & Hrv). by apply Hdr. }
    destruct (ct_canon o Hct h1 outs1 (ci_good _ _ _ _ _ Hc) (ci_shuf _ _ _ _ _ Hc) Hdraw1) as (C1 & C2 & C3 & C4 & C5 & C6).
    destruct (o_canon o h1 outs1) as [hI outs2] eqn:HI. cbn [fst snd] in *. subst outs2.
    cbn [ir_heap ir_outputs ir_obs ir_memo ir_new_to_old].
    assert (HsomeI : forall u, u ∈ outs1 -> is_Some (hv hI u)).
    { intros u Hu. destruct (Hsome1 u Hu) as [x Hx]. eauto. }
    assert (HextI : extends h hI).
    { split; [intros v x Hx; apply C4; by apply Hext1|]. intros n nd Hn. apply C5; [by apply Hext1|].
      intros (v & j & Hv & Ho). destruct (Hreach1 v Hv) as [Hv'|[Hv' Ho']].
      - unfold owner in Ho. destruct (hv h1 v) as [x'|] eqn:Hx'; [|done]. cbn in Ho.
        destruct (ci_own _ _ _ _ _ Hc v x' Hv' Hx') as (n2 & i2 & Ho2 & Hnone). simplify_eq.
      - rewrite (extends_owner_old h h1) in Ho by done. congruence. }
    assert (HreachI : forall u, reachable hI outs1 u -> hv h u = None \/ (is_Some (hv h u) /\ owner h u = None)).
    { intros u Hu. destruct (C6 u Hu) as [Hu1|Hu1]; [by apply Hreach1|left].
      destruct (hv h u) as [x|] eqn:Hx; [|done]. apply Hext1 in Hx. congruence. }
    destruct (ct_finders o Hct hI outs1 C2 HsomeI) as (F1 & F2 & F3).
    destruct (o_finders o hI outs1) as [hF fnd] eqn:HF. cbn [fst snd] in *.
    assert (HextF : extends h hF) by (by eapply extends_trans).
    assert (HsomeF : forall u, u ∈ outs1 -> is_Some (hv hF u)).
    { intros u Hu. apply (extends_some hI hF); [done|]. by apply HsomeI. }
    assert (HreachF : forall u, reachable hF outs1 u -> hv h u = None \/ owner h u = None).
    { intros u Hu. apply (extends_reachable_list hI hF) in Hu; [|apply C2|done|done].
      destruct (HreachI u Hu) as [?|[_ ?]]; [by left|by right]. }
    unfold expand_subsumptions.
    destruct (inline_all hF outs1 (o_order o hF outs1)) as [hE outsE] eqn:HE.
    destruct (inline_all_spec _ _ _ _ _ HE F2 HsomeF)
      as (E1 & E2 & E3 & E4 & E5 & E6 & E7 & E8 & E9 & E10 & E11 & _ & _).
    (* the outputs are random variables: they are not replaced *)
    assert (HoutE : outsE = outs1).
    { apply list_eq. intros k. destruct (outs1 !! k) as [r|] eqn:Hr.
      - apply E11; [done|]. intros n j Ho (nd & s & args & Hn & Hop).
        assert (Hin : r ∈ outs1) by (by eapply elem_of_list_lookup_2).
        apply elem_of_list_fmap in Hin as (rv & -> & Hrv).
        destruct (Hcl rv Hrv) as (_ & _ & x & x' & n' & i' & Hx & Hx' & _ & _ & Ho' & _ & n0 & nd0 & nd0' & Ho0 & Hn0 & Hn0' & Hop0).
        destruct (C3 _ _ Hn0') as (ndI & HnI & HopI). apply F1 in HnI.
        assert (owner hF (memo_get memo rv) = Some (n', i')) as HoF.
        { unfold owner. assert (Hx2 : hv hF (memo_get memo rv) = Some x') by (apply F1; by apply C4). by rewrite Hx2. }
        rewrite HoF in Ho. injection Ho as <- <-. rewrite HnI in Hn. injection Hn as <-.
        destruct (model_rv_owner rv (proj1 (rv_outputs_spec rv) Hrv)) as (n1 & nd1 & d & Ho1 & Hn1 & Hop1).
        unfold owner in Ho1. rewrite Hx in Ho1. cbn in Ho1. rewrite Ho1 in Ho0. injection Ho0 as <- <-.
        rewrite Hn1 in Hn0. injection Hn0 as <-. congruence.
      - apply lookup_ge_None. apply lookup_ge_None in Hr. lia. }
    subst outsE.
    assert (HextE : extends h hE).
    { split; [intros v x Hx; apply E2; by apply HextF|]. intros n nd Hn. apply E10; [by apply HextF|].
      intros (v & j & Hv & Ho). 
      destruct (hv h v) as [x|] eqn:Hx.
      - assert (Hov : owner h v = Some (n, j)).
        { rewrite <- Ho. symmetry. apply extends_owner_old; [done|]. by eauto. }
        destruct (HreachF v Hv); congruence.
      - destruct (proj1 F2) as [WF1 _ _]. destruct (WF1 _ _ _ Ho) as (nd' & Hn' & Hi).
        pose proof (proj2 HextF _ _ Hn). simplify_eq.
        assert (owner h v = Some (n, j)) by (by eapply (wf_outs _ Hwf)). unfold owner in *. by rewrite Hx in *. }
    (* what the discovered samplers read *)
    set (S := fun u => hv hF u = None \/ reachable hF outs1 u \/
       exists rv fs f, dget fnd rv = Some fs /\ f ∈ fs /\ reachable hF (roots_of f) u).
    assert (HcS : closed S hE).
    { assert (HcF : closed S hF).
      { intros v u [Hv|[Hv|(rv & fs & f & H1 & H2 & Hv)]] Hvu.
        - unfold input_of in Hvu. rewrite parents_no_owner in Hvu; [by apply elem_of_nil in Hvu|].
          unfold owner. by rewrite Hv.
        - right. left. by eapply reachable_step.
        - right. right. exists rv, fs, f. split_and!; try done. by eapply reachable_step. }
      destruct (inline_all_closed S _ _ _ _ _ HE F2 HcF) as [HcE _]; try done.
      - by left.
      - intros r Hr. right. left. by apply reachable_root.
      - intros n v j Hn (nds & sc & args & Hns & Hops) Ho. apply (ct_order o Hct) in Hn. destruct Hn as (v0 & j0 & Hv0 & Ho0).
        (* a subsuming node has a single output *)
        destruct F2 as (FW & _ & FO). destruct (FO _ _ _ _ Hns Hops) as [[ou Hou] _].
        destruct (wf_owner _ FW _ _ _ Ho) as (nd & Hnd & Hi).
        destruct (wf_owner _ FW _ _ _ Ho0) as (nd' & Hnd' & Hi').
        rewrite Hns in Hnd, Hnd'. injection Hnd as <-. injection Hnd' as <-. rewrite Hou in Hi, Hi'.
        destruct j; [|done]. destruct j0; [|done]. cbn in Hi, Hi'. simplify_eq. right. by left. }
    assert (HSok : forall u, S u -> hv h u = None \/ owner h u = None).
    { assert (Hnone : forall u h', extends h h' -> hv h' u = None -> hv h u = None).
      { intros u h' He Hu. destruct (hv h u) as [x|] eqn:Hx; [|done]. apply He in Hx. congruence. }
      intros u [Hu|[Hu|(rv & fs & f & H1 & H2 & Hu)]].
      - left. by apply (Hnone u hF).
      - by apply HreachF.
      - destruct (F3 rv fs f H1 H2) as (_ & _ & _ & F4). destruct (F4 u Hu) as [Hu1|[Hu1|Hu1]].
        + destruct (HreachI u Hu1) as [?|[_ ?]]; [by left|by right].
        + left. by apply (Hnone u hI).
        + destruct (hv h u) as [x|] eqn:Hx; [right|by left].
          rewrite <- Hu1. symmetry. apply extends_owner_old; [done|]. by eauto. }
    (* observations *)
    set (obs1 := map (fun '(k, v) => (memo_get memo k, v)) obs).
    assert (Hkobs : map fst obs1 = memo_get memo <$> dkeys obs) by apply extends_map_fst.
    assert (Hkey_rv : forall k, k ∈ dkeys obs -> k ∈ rvs).
    { intros k Hk. apply rv_outputs_spec. by apply (mo_keys _ _ Hm). }
    assert (Hndobs : NoDup (map fst obs1)).
    { rewrite Hkobs. apply NoDup_fmap_2_strong; [|apply (mo_nodup _ _ Hm)].
      intros k1 k2 H1 H2. apply Hinj; by apply Hkey_rv. }
    assert (Hdofobs : dof obs1 = obs1) by (by apply dof_nodup).
    rewrite Hdofobs.
    set (unobs := filter (fun rv => rv ∉ dkeys obs1) outs1).
    assert (Hunsome : forall v, v ∈ unobs -> is_Some (hv hE v)).
    { intros v [_ Hv]%elem_of_list_filter. by apply E3. }
    pose proof (clone_all_spec unobs hE E1 Hunsome) as HP. cbn zeta in HP.
    destruct (clone_all hE unobs) as [hP inits0] eqn:HPe. cbn [fst snd] in HP.
    destruct HP as (P1 & P2 & P3 & P4 & P5 & P6).
    assert (Hndun : NoDup unobs) by (by apply NoDup_filter).
    assert (Hdofin : dof inits0 = inits0) by (apply dof_nodup; by rewrite P4).
    rewrite Hdofin.
    assert (Hdisj : forall k, k ∈ map fst inits0 -> k ∉ dkeys obs1).
    { intros k Hk. rewrite P4 in Hk. by apply elem_of_list_filter in Hk as [Hk _]. }
    assert (Hpssk : NoDup (map fst (inits0 ++ obs1))).
    { rewrite map_app. apply NoDup_app. split_and!; [by rewrite P4|done|done]. }
    assert (Hpss : dupdate inits0 obs1 = inits0 ++ obs1).
    { rewrite <- Hdofin at 1. unfold dof. rewrite <- dupdate_app. by apply dof_nodup. }
    rewrite Hpss.
    intros Heq. injection Heq as <- <- <- <-.
    assert (HextP : extends h hP) by (by eapply extends_trans).
    assert (Hobs_in : forall k, k ∈ dkeys obs1 -> k ∈ outs1).
    { intros k Hk. unfold dkeys in Hk. rewrite Hkobs in Hk. apply elem_of_list_fmap in Hk as (k0 & -> & Hk0).
      apply elem_of_list_fmap. exists k0. split; [done|]. by apply Hkey_rv. }
    assert (Hpsskeys : forall k, k ∈ dkeys (inits0 ++ obs1) -> k ∈ outs1).
    { intros k Hk. unfold dkeys in Hk. rewrite map_app in Hk. apply elem_of_app in Hk as [Hk|Hk]; [|by apply Hobs_in].
      rewrite P4 in Hk. by apply elem_of_list_filter in Hk as [_ Hk]. }
    assert (HownP : forall u, u ∈ outs1 -> exists p, owner hP u = Some p /\ hv hP u = hv h1 u).
    { intros u Hu. apply elem_of_list_fmap in Hu as (rv & -> & Hrv).
      destruct (Hcl rv Hrv) as (_ & _ & x & x' & n' & i' & _ & Hx' & _ & _ & Ho' & _).
      exists (n', i'). assert (Hx2 : hv hP (memo_get memo rv) = Some x').
      { apply P1. apply E2. apply F1. by apply C4. }
      unfold owner. rewrite Hx2. cbn. by rewrite Hx'. }
    assert (Hold : forall v u, v ∈ vals -> reachable hP [v] u <-> reachable h [v] u).
    { intros v u Hv. apply extends_reachable; [done|done|]. by apply (mo_vals _ _ Hm). }
    assert (Hvalobs : forall w, w ∈ obs1.*2 -> w ∈ vals).
    { intros w Hw. apply elem_of_list_fmap in Hw as ([k w'] & -> & Hin). apply elem_of_list_fmap in Hin as ([k0 w0] & Heq & Hin).
      simplify_eq. cbn. apply elem_of_list_fmap. by exists (k0, w0). }
    assert (Hinitsnew : forall w, w ∈ dvalues inits0 -> is_Some (hv hP w) /\ owner hP w = None).
    { intros w Hw. apply elem_of_list_fmap in Hw as ([v w'] & -> & Hin). cbn [snd].
      destruct (P6 _ _ Hin) as (_ & x & _ & Hx). unfold owner. rewrite Hx. by eauto. }
    assert (Hnoreach : forall w u, w ∈ dvalues inits0 -> reachable hP [w] u -> u = w).
    { intros w u Hw (r & ->%elem_of_list_singleton & Hru). apply rtc_inv in Hru as [->|(z & Hz & _)]; [done|].
      unfold input_of in Hz. rewrite parents_no_owner in Hz by (by apply Hinitsnew). by apply elem_of_nil in Hz. }
    assert (Hvalreach : forall w u, w ∈ vals -> reachable hP [w] u -> is_Some (hv h u)).
    { intros w u Hw Hr. apply (Hold w u Hw) in Hr. eapply wf_reachable; [done| |exact Hr].
      intros r ->%elem_of_list_singleton. by apply (mo_vals _ _ Hm). }
    assert (HcP : closed S hP).
    { intros v u' Hv Hvu. destruct (hv hE v) as [x|] eqn:Hx.
      - apply (HcS v u' Hv). apply (extends_input_of hE hP); [apply E1|done|by eauto|done].
      - unfold input_of in Hvu. rewrite parents_no_owner in Hvu; [by apply elem_of_nil in Hvu|].
        destruct (owner hP v) as [[n j]|] eqn:Ho; [|done].
        destruct (wf_owner _ (proj1 P2) _ _ _ Ho) as (nd & Hn & Hi). rewrite P3 in Hn.
        assert (owner hE v = Some (n, j)) by (by eapply (wf_outs _ (proj1 E1))). unfold owner in *. by rewrite Hx in *. }
    constructor; cbn [st_heap st_found st_pss st_updates st_left ir_heap ir_outputs ir_obs ir_memo ir_new_to_old]; try done.
    - intros u Hu. destruct (HownP u Hu) as (p & Hp & _). by exists p.
    - intros rv Hrv. assert (Hdz : dof (zip outs1 rvs) = zip outs1 rvs).
      { apply dof_nodup. change (map fst (zip outs1 rvs)) with ((zip outs1 rvs).*1).
        rewrite fst_zip; [done|]. unfold outs1. rewrite fmap_length. done. }
      rewrite Hdz. apply dget_of_in.
      { unfold dkeys. change (map fst (zip outs1 rvs)) with ((zip outs1 rvs).*1).
        rewrite fst_zip; [done|]. unfold outs1. rewrite fmap_length. done. }
      apply elem_of_list_lookup in Hrv as [k Hk]. apply elem_of_list_lookup. exists k.
      rewrite lookup_zip_with. fold rvs in Hk. unfold outs1. rewrite list_lookup_fmap, Hk. done.
    - intros rv w Hrv Hin. destruct (P6 _ _ Hin) as (Hw & x & Hx & Hxw).
      split.
      + destruct (hv h w) as [y|] eqn:Hy; [|done]. apply HextE in Hy. congruence.
      + destruct (Hcl rv Hrv) as (_ & _ & x0 & x' & n' & i' & Hx0 & Hx' & Hnm & Hty & _).
        exists x0. split; [done|].
        assert (Hx2 : hv hE (memo_get memo rv) = Some x') by (apply E2, F1; by apply C4).
        rewrite Hx2 in Hx. injection Hx as <-. by rewrite <- Hnm, <- Hty.
    - intros w Hw. by apply Hinitsnew.
    - intros rv Hrv. destruct (Hcl rv Hrv) as (_ & _ & x0 & x' & n' & i' & Hx0 & Hx' & Hnm & Hty & _).
      assert (Hx2 : hv hP (memo_get memo rv) = Some x') by (apply P1, E2, F1; by apply C4).
      unfold ty_of. rewrite Hx2, Hx0. cbn. by rewrite Hty.
    - (* the invariant *)
      constructor; cbn [st_heap st_found st_pss st_updates st_left]; try done.
      + exists (fun u => S u \/ exists w, w ∈ vals /\ reachable h [w] u). split_and!.
        * intros v u [Hv|(w & Hw & Hv)] Hvu; [left; by eapply HcP|]. right. exists w. split; [done|].
          apply (Hold w u Hw). eapply reachable_step; [|exact Hvu]. by apply (Hold w v Hw).
        * intros v Hv. left. left. destruct (hv hF v) as [x|] eqn:Hx; [|done]. apply E2, P1 in Hx. congruence.
        * intros w Hw. rewrite fmap_app in Hw. apply elem_of_app in Hw as [Hw|Hw].
          -- left. left. apply elem_of_list_fmap in Hw as ([v w'] & -> & Hin). cbn [snd].
             destruct (P6 _ _ Hin) as (Hw & _). destruct (hv hF w') as [x|] eqn:Hx; [|done]. apply E2 in Hx. congruence.
          -- right. apply Hvalobs in Hw. exists w. split; [done|]. apply reachable_root. by apply elem_of_list_singleton.
        * intros rv fs f r Hd Hf Hr. left. right. right. exists rv, fs, f. split_and!; try done. by apply reachable_root.
        * intros u n i [Hu|(w & Hw & Hu)] Ho.
          -- destruct (HSok u Hu) as [Hn|Hn]; [unfold owner in Ho; by rewrite Hn in Ho|congruence].
          -- apply (mo_plain _ _ Hm n). exists u, i. split; [|done]. destruct Hu as (r & ->%elem_of_list_singleton & Hu).
             exists w. split; [|done]. apply elem_of_app. by right.
      + intros k Hk. apply Hpsskeys in Hk. split; [|by apply Hfresh1].
        destruct (HownP k Hk) as (p & Hp & _). unfold owner in Hp. destruct (hv hP k); [by eauto|done].
      + intros w Hw. rewrite fmap_app in Hw. apply elem_of_app in Hw as [Hw|Hw]; [by apply Hinitsnew|].
        eapply extends_some; [exact HextP|]. apply (mo_vals _ _ Hm). by apply Hvalobs.
      + intros k w Hk Hw Hr. apply Hpsskeys in Hk. rewrite fmap_app in Hw. apply elem_of_app in Hw as [Hw|Hw].
        * pose proof (Hnoreach w k Hw Hr) as ->. destruct (HownP w Hk) as (p & Hp & _).
          destruct (Hinitsnew w Hw). congruence.
        * apply Hvalobs in Hw. destruct (Hvalreach _ _ Hw Hr). rewrite (Hfresh1 k Hk) in *. done.
      + intros w Hw v n j Hv Ho Hs. rewrite fmap_app in Hw. apply elem_of_app in Hw as [Hw|Hw].
        * pose proof (Hnoreach w v Hw Hv) as ->. destruct (Hinitsnew w Hw). congruence.
        * apply Hvalobs in Hw. pose proof (Hvalreach _ _ Hw Hv) as Hvs.
          rewrite (extends_owner_old h hP) in Ho by done. destruct (wf_owner _ Hwf _ _ _ Ho) as (nd & Hn & _).
          apply (mo_plain _ _ Hm n).
          { exists v, j. split; [|done]. apply (Hold w v Hw) in Hv. destruct Hv as (r & ->%elem_of_list_singleton & Hv).
            exists w. split; [|done]. apply elem_of_app. by right. }
          destruct Hs as (nd' & sc & args & Hn' & Hop).
          pose proof (proj2 HextP _ _ Hn). assert (nd' = nd) as -> by congruence. by exists nd, sc, args.
      + intros rv fs f Hfs Hf. destruct (F3 rv fs f Hfs Hf) as (G1 & G2 & G3 & _).
        assert (HFP : forall u, is_Some (hv hF u) -> is_Some (hv hP u) /\ owner hP u = owner hF u).
        { intros u Hu. split.
          - eapply extends_some; [exact P1|]. by eapply evolves_some.
          - rewrite (extends_owner_old hE hP); [by apply evolves_owner|done|]. by eapply evolves_some. }
        split_and!; [|done|].
        * intros r Hr. apply HFP. by apply G1.
        * intros k Hk. assert (Hok' : owner hP k = None).
          { destruct (HFP k) as [_ ->]; [|by apply G3]. apply G1. right. apply elem_of_app. by left. }
          split; [done|]. intros Hin. apply Hpsskeys in Hin. destruct (HownP k Hin) as (p & Hp & _). congruence.
    - intros rv fs f u Hfs Hf Hu. apply HSok.
      apply (closed_reachable S hP (roots_of f) u HcP); [|done].
      intros r Hr. right. right. exists rv, fs, f. split_and!; try done. by apply reachable_root.
    - by rewrite HF.
  Qed.
End init.
