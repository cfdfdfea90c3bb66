(** Lemmas for C65 *)
From Verif Require Export S_inplace L_copy.

Section all.
  Context {D : Type} (base : op -> list D -> option (list D)) (cval : nat -> D).
  Context (h : heap) (roots : list vid) (old new : vid) (rho : vid -> option D).

  (** replacing a variable by an equal one changes no value *)
  Lemma replace_evals_all_fw :
    (forall x, evals base cval h rho old x -> evals base cval (replace h roots old new).1 rho new x) ->
    (forall u x, evals base cval h rho u x -> evals base cval (replace h roots old new).1 rho u x) /\
    (forall us xs, evals_list base cval h rho us xs ->
       evals_list base cval (replace h roots old new).1 rho us xs /\
       evals_list base cval (replace h roots old new).1 rho (subst1 old new <$> us) xs).
  Proof.
    intros Hnew. apply evals_mutind.
    - intros u x Hu. by apply ev_given.
    - intros u y c Hu Hy Ho Hk. by eapply ev_const.
    - intros u n i nd xs ys x Hu Ho Hn Hl [IH1 IH2] Hs Hi.
      assert (Hn' : hn (replace h roots old new).1 n =
        Some (if decide (n ∈ fg_nodes h roots) then set_ins nd (subst1 old new) else nd)).
      { unfold replace. cbn [fst]. by rewrite hn_map_nodes, Hn. }
      eapply (ev_app _ _ _ _ _ n i); [done|by rewrite replace_owner|exact Hn'| | |exact Hi]; by case_decide.
    - split; constructor.
    - intros u us x xs He IH1 Hl [IH2 IH3]. split; [by constructor|]. cbn. constructor; [|done].
      unfold subst1. case_decide as Hd; [|done]. subst. by apply Hnew.
  Qed.

  Lemma replace_evals_all_bw :
    (forall x, evals base cval h rho new x -> evals base cval h rho old x) ->
    (forall u x, evals base cval (replace h roots old new).1 rho u x -> evals base cval h rho u x) /\
    (forall us xs, evals_list base cval (replace h roots old new).1 rho us xs ->
       evals_list base cval h rho us xs /\
       forall vs, us = subst1 old new <$> vs -> evals_list base cval h rho vs xs).
  Proof.
    intros Hnew. apply evals_mutind.
    - intros u x Hu. by apply ev_given.
    - intros u y c Hu Hy Ho Hk. by eapply ev_const.
    - intros u n i nd xs ys x Hu Ho Hn Hl [IH1 IH2] Hs Hi. rewrite replace_owner in Ho.
      unfold replace in Hn. cbn [fst] in Hn. rewrite hn_map_nodes in Hn.
      destruct (hn h n) as [nd0|] eqn:Hn0; [|done]. cbn in Hn.
      case_decide; injection Hn as <-; eapply (ev_app _ _ _ _ _ n i nd0); eauto.
    - split; [constructor|]. intros vs Heq. destruct vs; [constructor|done].
    - intros u us x xs He IH1 Hl [IH2 IH3]. split; [by constructor|]. intros vs Heq. destruct vs as [|v vs]; [done|].
      cbn in Heq. injection Heq as Hu Hus. constructor; [|by apply IH3].
      unfold subst1 in Hu. case_decide as Hd; subst; [by apply Hnew|done].
  Qed.
End all.

Lemma visit_values {D} (base : op -> list D -> option (list D)) cval T h roots n rho :
  good_heap h -> shuffles_ok h -> shuffle_law base -> state_env h rho ->
  forall v x, is_Some (hv h v) ->
    evals base cval h rho v x <-> evals base cval (subsume_visit T (h, roots) n).1 rho v x.
Proof.
  intros Hg Hs Hlaw He v x Hv. unfold subsume_visit. cbn [fst snd].
  destruct (subsume_node T h n) as [[[[h2 old] new]|]|e] eqn:Hsub; [|done..].
  pose proof (subsume_node_avoids T h n h2 old new Hg Hs Hsub) as Hav.
  destruct (subsume_node_parts T h n h2 old new Hsub)
    as (s & ins & ty & h1 & items & used & args & ws & Hn & _).
  destruct (subsume_node_extends T h n h2 old new Hg Hs Hsub) as (X1 & X2 & X3 & X4 & X5 & X6 & X7).
  assert (Hnode : forall v, is_Some (rho v) -> forall m j nd, owner h v = Some (m, j) -> hn h m = Some nd -> exists d, n_op nd = ORV d).
  { intros u Hu m j nd Ho Hm. destruct (He u Hu) as (_ & _ & [Ho'|(m' & nd' & d & Ho' & Hm' & Hop)]); [congruence|].
    rewrite Ho in Ho'. injection Ho' as <- ->. rewrite Hm in Hm'. injection Hm' as <-. by exists d. }
  assert (Henv : env_on h rho).
  { intros u Hu. destruct (rho u) as [y|] eqn:Hx; [|done]. destruct (He u) as ([? ?] & _); [by eauto|congruence]. }
  assert (Hro1 : rho old = None).
  { destruct (rho old) as [y|] eqn:Hx; [|done]. destruct (Hnode old ltac:(by eauto) _ _ _ X4 Hn) as [d Hd]. done. }
  assert (Hrc : forall u, is_constant h u = true -> rho u = None).
  { intros u Hu. destruct (rho u) as [y|] eqn:Hx; [|done]. destruct (He u) as (_ & Hc & _); [by eauto|congruence]. }
  assert (Hrsh : forall i o y, input_of h old i -> shuffle_of h i o y -> rho i = None).
  { intros i o y _ (m & Ho & Hm). destruct (rho i) as [z|] eqn:Hx; [|done].
    destruct (Hnode i ltac:(by eauto) _ _ _ Ho Hm) as [d Hd]. done. }
  pose proof (subsume_node_value T h n h2 old new Hg Hs Hsub base cval rho Hlaw Henv Hrc Hro1 Hrsh) as Hval.
  assert (Hold : is_Some (hv h old)) by (unfold owner in X4; destruct (hv h old); [done|by cbn in X4]).
  assert (H2 : forall u y, is_Some (hv h u) -> evals base cval h2 rho u y <-> evals base cval h rho u y).
  { intros u y Hu. symmetry. apply extends_evals_iff; try done. apply Hg. }
  rewrite <- (H2 v x Hv). split.
  - apply replace_evals_all_fw. intros y Hy. apply replace_evals_avoid; [done|]. apply Hval. by apply H2.
  - apply replace_evals_all_bw. intros y Hy. apply H2; [done|]. by apply Hval.
Qed.

Lemma pass_values {D} (base : op -> list D -> option (list D)) cval T ns rho : shuffle_law base -> forall h roots,
  good_heap h -> shuffles_ok h -> (forall r, r ∈ roots -> is_draw h r) -> state_env h rho ->
  forall v x, is_Some (hv h v) ->
    evals base cval h rho v x <-> evals base cval (subsume_pass T (h, roots) ns).1 rho v x.
Proof.
  intros Hlaw. induction ns as [|n ns IH]; intros h roots Hg Hs Hr He v x Hv; cbn [subsume_pass]; [done|].
  destruct (visit_kept T h roots n Hg Hs Hr) as [H1 H2].
  rewrite (visit_values base cval T h roots n rho Hg Hs Hlaw He v x Hv).
  destruct (subsume_visit T (h, roots) n) as [h' roots']. cbn [fst snd] in *. subst roots'.
  apply IH; [apply H2|apply H2| | |].
  - intros r Hin. eapply is_draw_evolves; [apply H2|by apply Hr].
  - exact (value_env_evolves h h' rho (kp_ev _ _ _ H2) He).
  - eapply evolves_some; [apply H2|done].
Qed.

Lemma ir_canon_values {D} (base : op -> list D -> option (list D)) cval T visits after :
  shuffle_law base -> keeps_values base cval after -> keeps_values base cval (ir_canon T visits after).
Proof.
  intros Hlaw Hc h outs Hg Hs Hr rho He v x Hv. unfold ir_canon.
  rewrite (pass_values base cval T (visits h outs) rho Hlaw h outs Hg Hs Hr He v x Hv).
  destruct (pass_kept T (visits h outs) h outs Hg Hs Hr) as [H1 H2].
  destruct (subsume_pass T (h, outs) (visits h outs)) as [h1 outs1]. cbn [fst snd] in *. subst outs1.
  apply Hc; [apply H2|apply H2| | |].
  - intros r' Hin'. eapply is_draw_evolves; [apply H2|by apply Hr].
  - exact (value_env_evolves h h1 rho (kp_ev _ _ _ H2) He).
  - eapply evolves_some; [apply H2|done].
Qed.

Section inplace.
  Context (canon : heap -> list vid -> heap * list vid) (h : heap) (obs : dict nat nat) (topo : list nid).
  Hypothesis Hcan : canon_ok canon.
  Hypothesis Hm : model_ok h obs.
  Hypothesis Htopo : topo_order h (dkeys obs) topo.
  Notation rvs := (rv_outputs h topo).
  Notation i := (construct_ir_fgraph_inplace canon h obs topo).

  Lemma rvs_draws r : r ∈ rvs -> is_draw h r.
  Proof using Hm Htopo.
    intros Hr. apply (rv_outputs_spec h obs topo Htopo) in Hr.
    destruct (model_rv_owner h obs Hm r Hr) as (n & nd & d & Ho & Hn & Hop). by exists n, nd, d.
  Qed.

  Lemma rvs_nodup : NoDup rvs.
  Proof using Hm Htopo. exact (rv_outputs_nodup h obs topo Hm Htopo). Qed.

  Lemma inplace_heap : ir_heap i = (canon h rvs).1 /\ ir_outputs i = rvs.
  Proof using Hcan Hm Htopo.
    destruct (Hcan h rvs (mo_good _ _ Hm) (mo_shuffles _ _ Hm) rvs_draws) as (H1 & _).
    unfold construct_ir_fgraph_inplace. by destruct (canon h rvs) as [h2 outs2].
  Qed.

  Lemma inplace_obs : ir_obs i = obs.
  Proof using Hm.
    unfold construct_ir_fgraph_inplace. destruct (canon h rvs) as [h2 outs2]. cbn [ir_obs].
    assert (Hmap : map (fun '(k, v) => (memo_get (dof (map (fun v => (v, v)) (dvalues obs))) k, v)) obs = obs).
    { etrans; [|apply map_id]. apply map_ext. intros [k v]. f_equal. unfold memo_get.
      destruct (dget (dof (map (fun v => (v, v)) (dvalues obs))) k) as [w|] eqn:Hk; [|done].
      apply dget_dof_in in Hk. apply elem_of_list_fmap in Hk as (v0 & Heq & _). congruence. }
    rewrite Hmap. apply dof_nodup. apply (mo_nodup _ _ Hm).
  Qed.

  Lemma inplace_n2o u r : dget (ir_new_to_old i) u = Some r <-> u = r /\ r ∈ rvs.
  Proof using Hcan Hm Htopo.
    destruct (Hcan h rvs (mo_good _ _ Hm) (mo_shuffles _ _ Hm) rvs_draws) as (H1 & _).
    unfold construct_ir_fgraph_inplace. destruct (canon h rvs) as [h2 outs2]. cbn [fst snd ir_new_to_old] in *. subst outs2.
    assert (Hz : NoDup (dkeys (zip rvs rvs))).
    { unfold dkeys. change (map fst (zip rvs rvs)) with ((zip rvs rvs).*1). rewrite fst_zip by done. apply rvs_nodup. }
    rewrite dof_nodup by done. split.
    - intros Hd. apply dget_Some_in in Hd. apply elem_of_list_lookup in Hd as [k Hk]. rewrite lookup_zip_with in Hk.
      destruct (rvs !! k) as [a|] eqn:Ha; [|done]. cbn in Hk. simplify_eq. split; [done|]. by eapply elem_of_list_lookup_2.
    - intros [-> Hr]. apply dget_of_in; [done|]. apply elem_of_list_lookup in Hr as [k Hk]. apply elem_of_list_lookup.
      exists k. rewrite lookup_zip_with, Hk. done.
  Qed.
End inplace.
