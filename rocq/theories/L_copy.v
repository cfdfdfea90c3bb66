(** The copy of the model made by construct_ir_fgraph computes what the model computes. *)
From Verif Require Export L_pass L_init.

Section copy.
  Context (h : heap) (obs : dict nat nat) (topo topo_rv : list nid).
  Hypothesis Hm : model_ok h obs.
  Hypothesis Htopo : topo_order h (dkeys obs) topo.
  Hypothesis Htopo_rv : topo_order h (rv_outputs h topo) topo_rv.
  Notation rvs := (rv_outputs h topo).
  Notation memo0 := (dof (map (fun v => (v, v)) (dvalues obs))).
  Notation hc := (clone_nodes h memo0 topo_rv).1.
  Notation memo := (clone_nodes h memo0 topo_rv).2.

  (** a variable of the model is a leaf, kept as it is, or an output with its clone *)
  Lemma copy_cases v : reachable h rvs v -> is_Some (hv h v) ->
    (owner h v = None /\ memo_get memo v = v /\ hv hc v = hv h v) \/
    (exists w n i nd n' nd', dget memo v = Some w /\ hv h w = None /\ owner h v = Some (n, i) /\ hn h n = Some nd /\ owner hc w = Some (n', i) /\
       hn hc n' = Some nd' /\ n_op nd' = n_op nd /\ n_ins nd' = memo_get memo <$> n_ins nd).
  Proof using All.
    intros Hv Hs. pose proof (clone_ok h obs topo topo_rv Hm Htopo Htopo_rv) as Hc.
    destruct (owner h v) as [[n i]|] eqn:Ho.
    - right. destruct (wf_owner _ (proj1 (mo_good _ _ Hm)) _ _ _ Ho) as (nd & Hn & Hi).
      destruct (ci_done _ _ _ _ _ Hc n nd v) as [w Hw]; [|done|by eapply elem_of_list_lookup_2|].
      { apply Htopo_rv. by exists v, i. }
      assert (Hnv : v ∉ dvalues obs).
      { intros Hin. apply (rv_reach_obs h obs topo Hm Htopo) in Hv as [Hv|Hv].
        - rewrite (mo_leaf _ _ Hm v Hin Hv) in Ho. done.
        - by apply (rv_not_val h obs Hm v) in Hv. }
      destruct (ci_args _ _ _ _ _ Hc v w Hw Hnv) as (n0 & i0 & nd0 & n' & nd' & A1 & A2 & A3 & A4 & A5 & A6 & _).
      rewrite Ho in A1. injection A1 as <- <-. rewrite Hn in A2. injection A2 as <-.
      apply (ci_memo _ _ _ _ _ Hc) in Hw as Hw'. destruct Hw' as [[-> Hin]|(_ & Hf & _)]; [done|].
      exists w, n, i, nd, n', nd'. split_and!; done.
    - left. split; [done|]. destruct Hs as [x Hx]. split.
      + unfold memo_get. destruct (dget memo v) as [w|] eqn:Hw; [|done].
        apply (ci_memo _ _ _ _ _ Hc) in Hw as [[-> _]|(_ & _ & x0 & x' & n' & i & Hx0 & _ & _ & _ & _ & _ & n & nd & nd' & Hox & _)]; [done|].
        unfold owner in Ho. rewrite Hx0 in Ho. cbn in Ho. congruence.
      + rewrite Hx. by apply (ci_ext _ _ _ _ _ Hc).
  Qed.

  Lemma rvs_some r : r ∈ rvs -> is_Some (hv h r).
  Proof using Hm Htopo.
    intros Hr. apply (rv_outputs_spec h obs topo Htopo) in Hr.
    destruct (model_rv_owner h obs Hm r Hr) as (n & nd & d & Ho & _). unfold owner in Ho.
    destruct (hv h r); [done|by cbn in Ho].
  Qed.
  Lemma reach_some v : reachable h rvs v -> is_Some (hv h v).
  Proof using Hm Htopo. intros Hv. eapply wf_reachable; [apply (mo_good _ _ Hm)| |exact Hv]. apply rvs_some. Qed.

  Section values.
    Context {D : Type} (base : op -> list D -> option (list D)) (cval : nat -> D).
    Context (rho rho' : vid -> option D).
    Hypothesis Hrho : forall v, reachable h rvs v -> rho' (memo_get memo v) = rho v.

    Lemma copy_evals_fw :
      (forall v x, evals base cval h rho v x -> reachable h rvs v -> evals base cval hc rho' (memo_get memo v) x) /\
      (forall vs xs, evals_list base cval h rho vs xs -> (forall v, v ∈ vs -> reachable h rvs v) ->
         evals_list base cval hc rho' (memo_get memo <$> vs) xs).
    Proof using All.
      apply evals_mutind.
      - intros v x Hv Hr. apply ev_given. by rewrite Hrho.
      - intros v w c Hv Hw Ho Hk Hr. assert (Hov : owner h v = None) by (unfold owner; by rewrite Hw).
        destruct (copy_cases v Hr (reach_some v Hr)) as [(_ & E & E2)|(w' & n & i & nd & n' & nd' & _ & _ & Ho' & _)]; [|congruence].
        rewrite E. eapply ev_const; [|by rewrite E2|done|done]. rewrite <- E. by rewrite Hrho.
      - intros v n i nd xs ys x Hv Ho Hn Hl IH Hs Hi Hr.
        destruct (copy_cases v Hr (reach_some v Hr)) as [(Ho' & _)|(w & n0 & i0 & nd0 & n' & nd' & Hw & _ & Ho' & Hn0 & Hoc & Hnc & Hop & Hins)]; [congruence|].
        rewrite Ho in Ho'. injection Ho' as <- <-. rewrite Hn in Hn0. injection Hn0 as <-.
        assert (E : memo_get memo v = w) by (unfold memo_get; by rewrite Hw).
        rewrite E. eapply (ev_app _ _ _ _ _ n' i nd'); [rewrite <- E; by rewrite Hrho|done|done| |by rewrite Hop|done].
        rewrite Hins. apply IH. intros u Hu. eapply reachable_step; [exact Hr|]. unfold input_of, parents. by rewrite Ho, Hn.
      - intros _. constructor.
      - intros v vs x xs _ IH1 _ IH2 Hvs. cbn. constructor; [apply IH1, Hvs; by left|apply IH2; intros; apply Hvs; by right].
    Qed.

    Lemma copy_evals_bw :
      (forall w x, evals base cval hc rho' w x -> forall v, reachable h rvs v -> w = memo_get memo v -> evals base cval h rho v x) /\
      (forall ws xs, evals_list base cval hc rho' ws xs -> forall vs, (forall v, v ∈ vs -> reachable h rvs v) ->
         ws = memo_get memo <$> vs -> evals_list base cval h rho vs xs).
    Proof using All.
      apply evals_mutind.
      - intros w x Hw v Hr ->. apply ev_given. by rewrite <- Hrho.
      - intros w y c Hw Hy Ho Hk v Hr ->. rewrite Hrho in Hw by done.
        destruct (copy_cases v Hr (reach_some v Hr)) as [(Ho' & E & E2)|(w' & n & i & nd & n' & nd' & Hw' & _ & Ho' & _ & Hoc & _)].
        + rewrite E, E2 in Hy. by eapply ev_const.
        + assert (E : memo_get memo v = w') by (unfold memo_get; by rewrite Hw').
          rewrite E in Hy. unfold owner in Hoc. rewrite Hy in Hoc. cbn in Hoc. congruence.
      - intros w n1 i1 nd1 xs ys x Hw Ho Hn Hl IH Hs Hi v Hr ->. rewrite Hrho in Hw by done.
        destruct (copy_cases v Hr (reach_some v Hr)) as [(Ho' & E & E2)|(w' & n & i & nd & n' & nd' & Hw' & _ & Ho' & Hnd & Hoc & Hnc & Hop & Hins)].
        + rewrite E in Ho. unfold owner in Ho, Ho'. rewrite E2 in Ho. congruence.
        + assert (E : memo_get memo v = w') by (unfold memo_get; by rewrite Hw').
          rewrite E, Hoc in Ho. injection Ho as <- <-. rewrite Hnc in Hn. injection Hn as <-.
          eapply (ev_app _ _ _ _ _ n i nd); [done|done|done| |by rewrite <- Hop|done].
          apply IH; [|done]. intros u Hu. eapply reachable_step; [exact Hr|]. unfold input_of, parents. by rewrite Ho', Hnd.
      - intros vs Hvs Heq. destruct vs; [|done]. constructor.
      - intros w ws x xs _ IH1 _ IH2 vs Hvs Heq. destruct vs as [|v vs]; [done|]. cbn in Heq. injection Heq as -> ->.
        constructor; [apply IH1; [apply Hvs; by left|done]|apply IH2; [intros; apply Hvs; by right|done]].
    Qed.
  End values.

  Definition n2o : dict nat nat := dof (zip (memo_get memo <$> rvs) rvs).

  Lemma n2o_get rv : rv ∈ rvs -> dget n2o (memo_get memo rv) = Some rv.
  Proof using All.
    intros Hrv. pose proof (memo_inj h obs topo topo_rv Hm Htopo Htopo_rv) as Hinj. cbn zeta in Hinj.
    assert (Hnd : NoDup (memo_get memo <$> rvs)).
    { apply NoDup_fmap_2_strong; [|by apply (rv_outputs_nodup h obs topo Hm Htopo)]. intros. by apply Hinj. }
    assert (Hfst : map fst (zip (memo_get memo <$> rvs) rvs) = memo_get memo <$> rvs).
    { change (map fst (zip (memo_get memo <$> rvs) rvs)) with ((zip (memo_get memo <$> rvs) rvs).*1).
      rewrite fst_zip; [done|]. by rewrite fmap_length. }
    unfold n2o. rewrite dof_nodup by (by rewrite Hfst). apply dget_of_in; [unfold dkeys; by rewrite Hfst|].
    apply elem_of_list_lookup in Hrv as [k Hk]. apply elem_of_list_lookup. exists k.
    rewrite lookup_zip_with, list_lookup_fmap, Hk. done.
  Qed.
  Lemma n2o_inv u rv : dget n2o u = Some rv -> rv ∈ rvs /\ u = memo_get memo rv.
  Proof using Type.
    intros Hg. apply dget_dof_in in Hg. apply elem_of_list_lookup in Hg as [k Hk].
    rewrite lookup_zip_with, list_lookup_fmap in Hk. destruct (rvs !! k) as [r|] eqn:Hr; [|done]. cbn in Hk.
    injection Hk as <- <-. split; [by eapply elem_of_list_lookup_2|done].
  Qed.

  Section density.
    Context {D : Type} (base : op -> list D -> option (list D)) (cval : nat -> D) (ld : nat -> list D -> D -> R).
    Context (rho sigma : vid -> option D).
    Hypothesis Hdata : data_env h rho.
    Hypothesis Hdraw : forall v, is_Some (sigma v) -> model_rv h obs v.
    Notation sigma' := (fun u => rv ← dget n2o u; sigma rv).

    Lemma copy_env v : reachable h rvs v -> over sigma' rho (memo_get memo v) = over sigma rho v.
    Proof using All.
      intros Hv. unfold over. pose proof (clone_ok h obs topo topo_rv Hm Htopo Htopo_rv) as Hc.
      assert (Hrv0 : forall w, hv h w = None -> rho w = None).
      { intros w Hw. destruct (rho w) as [x|] eqn:Hx; [|done]. destruct (Hdata w) as ([? ?] & _); [by eauto|congruence]. }
      destruct (copy_cases v Hv (reach_some v Hv)) as [(Ho & E & E2)|(w & n & i & nd & n' & nd' & Hw & Hf & Ho & Hn & _)].
      - assert (Hs : sigma v = None).
        { destruct (sigma v) as [x|] eqn:Hx; [|done]. pose proof (Hdraw v ltac:(by eauto)) as Hd.
          destruct (model_rv_owner h obs Hm v Hd) as (n & nd & d & Ho' & _). congruence. }
        rewrite E, Hs. destruct (dget n2o v) as [rv|] eqn:Hg; [|done]. cbn.
        apply n2o_inv in Hg as [Hrv Heq]. destruct (memo_clone h obs topo topo_rv Hm Htopo Htopo_rv rv Hrv) as (_ & Hf & _).
        rewrite <- Heq in Hf. destruct (reach_some v Hv) as [y Hy]. congruence.
      - assert (E : memo_get memo v = w) by (unfold memo_get; by rewrite Hw).
        assert (Hr0 : rho v = None).
        { destruct (rho v) as [x|] eqn:Hx; [|done]. destruct (Hdata v) as (_ & Ho' & _); [by eauto|congruence]. }
        rewrite E, (Hrv0 w Hf), Hr0.
        destruct (decide (v ∈ rvs)) as [Hin|Hin].
        + rewrite <- E, (n2o_get v Hin). done.
        + assert (Hs : sigma v = None).
          { destruct (sigma v) as [x|] eqn:Hx; [|done]. exfalso. apply Hin.
            apply (rv_outputs_spec h obs topo Htopo). apply Hdraw. by eauto. }
          rewrite Hs. destruct (dget n2o w) as [rv|] eqn:Hg; [|done]. exfalso.
          apply n2o_inv in Hg as [Hrv Heq]. apply Hin.
          assert (Hwr : exists w2, dget memo rv = Some w2).
          { assert (Hrr : reachable h rvs rv) by (by apply reachable_root).
            destruct (copy_cases rv Hrr (reach_some rv Hrr)) as [(Ho' & _)|(w2 & ? & ? & ? & ? & ? & Hw2 & _)]; [|by eauto].
            apply (rv_outputs_spec h obs topo Htopo) in Hrv. destruct (model_rv_owner h obs Hm rv Hrv) as (? & ? & ? & Ho2 & _). congruence. }
          destruct Hwr as [w2 Hw2]. unfold memo_get in Heq. rewrite Hw2 in Heq. subst w2.
          by rewrite (ci_inj _ _ _ _ _ Hc v rv w Hw Hw2).
    Qed.

    Lemma copy_factor rv l : rv ∈ rvs ->
      factor base cval ld h rho sigma rv l <-> factor base cval ld hc rho sigma' (memo_get memo rv) l.
    Proof using All.
      intros Hrv. assert (Hrr : reachable h rvs rv) by (by apply reachable_root).
      destruct (model_rv_owner h obs Hm rv (proj1 (rv_outputs_spec h obs topo Htopo rv) Hrv)) as (n1 & nd1 & d1 & Ho1 & Hn1 & Hop1).
      destruct (copy_cases rv Hrr (reach_some rv Hrr)) as [(Ho' & _)|(w & n & i & nd & n' & nd' & Hw & Hf & Ho & Hn & Hoc & Hnc & Hop & Hins)]; [congruence|].
      rewrite Ho1 in Ho. injection Ho as <- <-. rewrite Hn1 in Hn. injection Hn as <-.
      assert (E : memo_get memo rv = w) by (unfold memo_get; by rewrite Hw).
      assert (Hsg : (rv ← dget n2o (memo_get memo rv); sigma rv) = sigma rv) by (by rewrite (n2o_get rv Hrv)).
      assert (Hin : forall v, v ∈ tail (n_ins nd1) -> reachable h rvs v).
      { intros v Hv. eapply reachable_step; [exact Hrr|]. unfold input_of, parents. rewrite Ho1, Hn1.
        destruct (n_ins nd1); [done|by right]. }
      unfold factor. split.
      - intros (n0 & nd0 & d & xs & x & F1 & F2 & F3 & F4 & F5 & F6).
        rewrite Ho1 in F1. injection F1 as <-. rewrite Hn1 in F2. injection F2 as <-.
        exists n', nd', d, xs, x. split_and!; try done; [by rewrite E|congruence|by rewrite Hsg|].
        rewrite Hins, <- fmap_tail. by apply (proj2 (copy_evals_fw base cval (over sigma rho) (over sigma' rho) copy_env)).
      - intros (n0 & nd0 & d & xs & x & F1 & F2 & F3 & F4 & F5 & F6).
        rewrite E, Hoc in F1. injection F1 as <-. rewrite Hnc in F2. injection F2 as <-.
        rewrite Hsg in F4. exists n1, nd1, d, xs, x. split_and!; try done; [congruence|].
        rewrite Hins, <- fmap_tail in F5.
        by eapply (proj2 (copy_evals_bw base cval (over sigma rho) (over sigma' rho) copy_env)).
    Qed.

    Lemma copy_data_env : data_env hc rho.
    Proof using Hm Htopo Htopo_rv Hdata.
      intros v Hv. pose proof (ci_ext _ _ _ _ _ (clone_ok h obs topo topo_rv Hm Htopo Htopo_rv)) as Hex.
      destruct (Hdata v Hv) as ([x Hx] & A2 & A3). pose proof (proj1 Hex _ _ Hx) as Hx'.
      unfold owner, is_constant in *. rewrite Hx in *. rewrite Hx'. by eauto.
    Qed.
    Lemma copy_draws_env : draws_env hc sigma'.
    Proof using Hm Htopo Htopo_rv.
      intros u Hu. destruct (dget n2o u) as [rv|] eqn:Hg; [|by destruct Hu].
      apply n2o_inv in Hg as [Hrv ->]. by apply (memo_draw h obs topo topo_rv Hm Htopo Htopo_rv).
    Qed.
  End density.

  Section ir.
    Context (canon : heap -> list vid -> heap * list vid).
    Hypothesis Hcanon : canon_ok canon.
    Notation i := (construct_ir_fgraph canon h obs topo topo_rv).

    Lemma ir_outputs_eq : ir_outputs i = memo_get memo <$> rvs /\ ir_new_to_old i = n2o /\
      ir_heap i = (canon hc (memo_get memo <$> rvs)).1.
    Proof using All.
      unfold construct_ir_fgraph, n2o.
      pose proof (clone_ok h obs topo topo_rv Hm Htopo Htopo_rv) as Hc.
      pose proof (memo_draw h obs topo topo_rv Hm Htopo Htopo_rv) as Hdr.
      destruct (clone_nodes h memo0 topo_rv) as [h1 m]. cbn [fst snd] in *.
      destruct (Hcanon h1 (memo_get m <$> rvs) (ci_good _ _ _ _ _ Hc) (ci_shuf _ _ _ _ _ Hc)) as (C1 & _).
      { intros u Hu. apply elem_of_list_fmap in Hu as (rv & -> & Hrv). by apply Hdr. }
      destruct (canon h1 (memo_get m <$> rvs)) as [h2 outs2]. cbn [fst snd] in *. by subst outs2.
    Qed.

    Lemma ir_obs_eq u w : dget (ir_obs i) u = Some w <-> exists k, dget (ir_new_to_old i) u = Some k /\ dget obs k = Some w.
    Proof using All.
      destruct ir_outputs_eq as (_ & -> & _).
      pose proof (memo_inj h obs topo topo_rv Hm Htopo Htopo_rv) as Hinj. cbn zeta in Hinj.
      assert (Hkey : forall k, k ∈ dkeys obs -> k ∈ rvs).
      { intros k Hk. apply (rv_outputs_spec h obs topo Htopo). by apply (mo_keys _ _ Hm). }
      assert (Hobs : ir_obs i = dof (map (fun '(k, v) => (memo_get memo k, v)) obs)).
      { unfold construct_ir_fgraph. destruct (clone_nodes h memo0 topo_rv) as [h1 m]. cbn [fst snd].
        by destruct (canon h1 (memo_get m <$> rvs)). }
      assert (Hkobs : map fst (map (fun '(k, v) => (memo_get memo k, v)) obs) = memo_get memo <$> dkeys obs) by apply extends_map_fst.
      assert (Hnd : NoDup (map fst (map (fun '(k, v) => (memo_get memo k, v)) obs))).
      { rewrite Hkobs. apply NoDup_fmap_2_strong; [|apply (mo_nodup _ _ Hm)]. intros. apply Hinj; auto. }
      rewrite Hobs. split.
      - intros Hg. apply dget_dof_in in Hg. apply elem_of_list_fmap in Hg as ([k v] & Heq & Hin). injection Heq as -> ->.
        exists k. assert (Hk : k ∈ dkeys obs) by (apply elem_of_list_fmap; by exists (k, v)).
        split; [by apply n2o_get, Hkey|]. apply dget_of_in; [apply (mo_nodup _ _ Hm)|done].
      - intros (k & Hk & Hg). apply n2o_inv in Hk as [Hrv ->]. apply dget_Some_in in Hg.
        rewrite dof_nodup by done. apply dget_of_in; [done|]. apply elem_of_list_fmap. by exists (k, w).
    Qed.

    Context {D : Type} (base : op -> list D -> option (list D)) (cval : nat -> D) (ld : nat -> list D -> D -> R).
    Hypothesis Hkeeps : keeps_densities base cval ld canon.
    Context (rho sigma : vid -> option D).
    Hypothesis Hdata : data_env h rho.
    Hypothesis Hdraw : forall v, is_Some (sigma v) -> model_rv h obs v.
    Notation sigma' := (fun u => rv ← dget (ir_new_to_old i) u; sigma rv).

    Lemma ir_factors : Forall2 (fun rv u => dget (ir_new_to_old i) u = Some rv /\
        forall l, factor base cval ld h rho sigma rv l <-> factor base cval ld (ir_heap i) rho sigma' u l)
      rvs (ir_outputs i).
    Proof using All.
      destruct ir_outputs_eq as (-> & -> & ->).
      pose proof (clone_ok h obs topo topo_rv Hm Htopo Htopo_rv) as Hc.
      pose proof (copy_factor base cval ld rho sigma Hdata Hdraw) as Hf.
      pose proof (copy_data_env rho Hdata) as He1.
      pose proof (copy_draws_env sigma) as He2.
      pose proof (memo_draw h obs topo topo_rv Hm Htopo Htopo_rv) as Hdr.
      pose proof n2o_get as Hget. revert Hf He2 Hget. generalize n2o as nn. intros nn Hf He2 Hget.
      destruct (clone_nodes h memo0 topo_rv) as [h1 m]. cbn [fst snd] in *.
      apply Forall2_fmap_r. apply Forall_Forall2_diag. apply Forall_forall. intros rv Hrv.
      split; [by apply Hget|]. intros l. rewrite (Hf rv l Hrv).
      apply Hkeeps; try done; [apply Hc|apply Hc| |].
      - intros u Hu. apply elem_of_list_fmap in Hu as (rv' & -> & Hrv'). by apply Hdr.
      - apply elem_of_list_fmap. by exists rv.
    Qed.

    Lemma ir_joint l :
      joint base cval ld h rho sigma rvs l <-> joint base cval ld (ir_heap i) rho sigma' (ir_outputs i) l.
    Proof using All.
      pose proof ir_factors as Hf. unfold joint. split; intros (ls & Hls & ->); exists ls; (split; [|done]).
      - clear -Hf Hls. revert ls Hls. induction Hf as [|rv u rs us [_ H] _ IH]; intros ls Hls; inversion Hls; subst; constructor.
        + by apply H.
        + by apply IH.
      - clear -Hf Hls. revert ls Hls. induction Hf as [|rv u rs us [_ H] _ IH]; intros ls Hls; inversion Hls; subst; constructor.
        + by apply H.
        + by apply IH.
    Qed.
  End ir.
End copy.
