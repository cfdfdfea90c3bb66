(** construct_sampler: independence from the samplers that are not chosen, and
    conditions under which it returns. *)
From Verif Require Export L_sampler.

Definition with_found (st : state) (fnd : dict nat (list found)) : state :=
  St (st_heap st) fnd (st_pss st) (st_updates st) (st_left st).

Definition same_result (x y : result state) : Prop :=
  match x, y with
  | Ok a, Ok b => exists fnd, b = with_found a fnd
  | Raise e, Raise e' => e' = e
  | _, _ => False
  end.

Lemma process_all_found order obs l : forall st fnd,
  NoDup l -> (forall rv, rv ∈ l -> chosen fnd rv = chosen (st_found st) rv) ->
  same_result (process_all order obs st l) (process_all order obs (with_found st fnd) l).
Proof.
  induction l as [|rv l IH]; intros st fnd Hnd Hc; cbn [process_all].
  { cbn. by exists fnd. }
  apply NoDup_cons in Hnd as [Hni Hnd].
  assert (Hstep : match process_rv order obs st rv, process_rv order obs (with_found st fnd) rv with
    | Ok a, Ok b => exists fnd', b = with_found a fnd' /\ forall r, r ∈ l -> chosen fnd' r = chosen (st_found a) r
    | Raise e, Raise e' => e' = e
    | _, _ => False end).
  { assert (Hcr : chosen fnd rv = chosen (st_found st) rv) by (apply Hc; by left).
    assert (Hcl : forall r, r ∈ l -> chosen fnd r = chosen (st_found st) r) by (intros; apply Hc; by right).
    unfold process_rv. destruct (dmem rv obs); [by exists fnd|].
    cbn [with_found st_found st_heap st_pss st_updates st_left].
    assert (Hdis : forall d fs r, r ∈ l -> chosen (dset d rv fs) r = chosen d r).
    { intros d fs r Hr. unfold chosen. rewrite dget_dset_ne; [done|]. by intros ->. }
    unfold chosen in Hcr.
    destruct (dget fnd rv) as [fs1|] eqn:E1, (dget (st_found st) rv) as [fs2|] eqn:E2; cbn in Hcr.
    - destruct (last fs1) as [f1|], (last fs2) as [f2|]; try done.
      + injection Hcr as ->. unfold process_step. cbn [with_found st_found st_heap st_pss st_updates st_left].
        destruct (replace_all (st_heap st) (f_step f2 :: dkeys (f_updates f2) ++ dvalues (f_updates f2)) (st_pss st))
          as [[h1 roots1]|e]; cbn [rbind]; [|done].
        destruct (expand_subsumptions order h1 roots1) as [h2 roots2]. destruct roots2 as [|step rest]; [done|].
        exists (dset fnd rv (removelast fs1)). split; [done|]. intros r Hr. cbn [st_found]. rewrite !Hdis by done. by apply Hcl.
      + by exists fnd.
    - destruct (last fs1); [done|]. by exists fnd.
    - destruct (last fs2); [done|]. by exists fnd.
    - by exists fnd. }
  destruct (process_rv order obs st rv) as [a|e], (process_rv order obs (with_found st fnd) rv) as [b|e']; try done.
  destruct Hstep as (fnd' & -> & Hc'). cbn [rbind]. by apply IH.
Qed.

(** two discovery outcomes that differ only in samplers that are not chosen *)
Record same_choices (o o' : oracles) : Prop := SameChoices {
  sc_canon : o_canon o' = o_canon o;
  sc_order : o_order o' = o_order o;
  sc_iter : o_iter o' = o_iter o;
  sc_nuts : o_nuts o' = o_nuts o;
  sc_ginputs : o_ginputs o' = o_ginputs o;
  sc_kernel : o_kernel o' = o_kernel o;
  sc_heap : forall h outs, (o_finders o' h outs).1 = (o_finders o h outs).1;
  sc_chosen : forall h outs rv, chosen (o_finders o' h outs).2 rv = chosen (o_finders o h outs).2 rv;
}.

Section same.
  Context (o o' : oracles) (h : heap) (obs : dict nat nat) (topo topo_rv : list nid).
  Hypothesis Hct : contracts o.
  Hypothesis Hm : model_ok h obs.
  Hypothesis Htopo : topo_order h (dkeys obs) topo.
  Hypothesis Htopo_rv : topo_order h (rv_outputs h topo) topo_rv.
  Hypothesis Hsame : same_choices o o'.

  Lemma construct_same : construct_sampler o' h obs topo topo_rv = construct_sampler o h obs topo topo_rv.
  Proof.
    unfold construct_sampler.
    assert (Hinit : exists fnd i outs inits st0,
      sampler_init o h obs topo topo_rv = (i, outs, inits, st0) /\
      sampler_init o' h obs topo topo_rv = (i, outs, inits, with_found st0 fnd) /\
      forall rv, chosen fnd rv = chosen (st_found st0) rv).
    { unfold sampler_init. rewrite (sc_canon _ _ Hsame), (sc_order _ _ Hsame).
      set (i := construct_ir_fgraph (o_canon o) h obs topo topo_rv).
      pose proof (sc_heap _ _ Hsame (ir_heap i) (ir_outputs i)) as Hh.
      pose proof (sc_chosen _ _ Hsame (ir_heap i) (ir_outputs i)) as Hch.
      destruct (o_finders o' (ir_heap i) (ir_outputs i)) as [h1' fnd'].
      destruct (o_finders o (ir_heap i) (ir_outputs i)) as [h1 fnd]. cbn [fst snd] in *. subst h1'.
      destruct (expand_subsumptions (o_order o) h1 (ir_outputs i)) as [h2 outs].
      destruct (clone_all h2 (filter (fun rv => rv ∉ dkeys (ir_obs i)) outs)) as [h3 inits].
      eexists fnd', i, outs, (dof inits), _. split; [reflexivity|]. split; [reflexivity|done]. }
    destruct Hinit as (fnd & i & outs & inits & st0 & E1 & E2 & Hch). rewrite E1, E2, (sc_order _ _ Hsame).
    pose proof (sampler_init_facts o h obs topo topo_rv Hct Hm Htopo Htopo_rv _ _ _ _ E1) as Hf.
    pose proof (process_all_found (o_order o) (ir_obs i) outs st0 fnd (if_nodup _ _ _ _ _ _ _ _ Hf)) as Hsr.
    assert (Hn : forall st f, nuts_stage o' (with_found st f) = nuts_stage o st).
    { intros st f. unfold nuts_stage, nuts_call. cbn [with_found st_found st_heap st_pss st_updates st_left].
      by rewrite (sc_iter _ _ Hsame), (sc_nuts _ _ Hsame), (sc_ginputs _ _ Hsame), (sc_kernel _ _ Hsame). }
    specialize (Hsr ltac:(intros; apply Hch)). unfold same_result in Hsr.
    destruct (process_all (o_order o) (ir_obs i) st0 outs) as [st|e],
      (process_all (o_order o) (ir_obs i) (with_found st0 fnd) outs) as [st'|e']; try done.
    - destruct Hsr as [f ->]. cbn [rbind]. by rewrite Hn.
    - by subst e'.
  Qed.
End same.

(** ** Types *)
Lemma replace_all_ty pairs : forall h roots h' roots',
  replace_all h roots pairs = Ok (h', roots') ->
  (forall v, ty_of h' v = ty_of h v) /\
  forall k r r', roots !! k = Some r -> roots' !! k = Some r' -> ty_of h r' = ty_of h r.
Proof.
  induction pairs as [|[a w] pairs IH]; intros h roots h' roots'; cbn [replace_all].
  { intros. simplify_eq. split; [done|]. intros. by simplify_eq. }
  unfold replace_checked. case_decide as Ht; [|done]. case_decide as Hin; cbn [rbind].
  - intros Hr. assert (Htt : forall v, ty_of (replace h roots a w).1 v = ty_of h v) by done.
    destruct (replace h roots a w) as [h1 roots1] eqn:He. cbn [fst] in Htt.
    assert (roots1 = subst1 a w <$> roots) as -> by (unfold replace in He; congruence).
    destruct (IH _ _ _ _ Hr) as [I1 I2]. split; [intros; by rewrite I1|].
    intros k r r' Hk Hk'. specialize (I2 k (subst1 a w r) r'). rewrite list_lookup_fmap, Hk in I2.
    specialize (I2 eq_refl Hk'). rewrite !Htt in I2. rewrite I2. unfold subst1. case_decide; [by subst|done].
  - intros Hr. by apply (IH _ _ _ _ Hr).
Qed.

Lemma inline_all_ty ns : forall h roots h' roots',
  inline_all h roots ns = (h', roots') -> good_heap h -> (forall r, r ∈ roots -> is_Some (hv h r)) ->
  forall k r r', roots !! k = Some r -> roots' !! k = Some r' -> ty_of h' r' = ty_of h r.
Proof.
  induction ns as [|n ns IH]; intros h roots h' roots' Hi Hgood Hsome k r r' Hk Hk'; cbn in Hi.
  { by simplify_eq. }
  destruct Hgood as (Hwf & Hac & Hok).
  destruct (inline_node h n) as [[[h1 old] new]|] eqn:Hin; [|by eapply IH].
  destruct (inline_node_spec h n h1 old new Hwf Hac Hin) as
    (Hex & Hwf1 & Hac1 & Hnns & Hsn & Hown & Hnew & Hty & Hnsome & Hrnew & Hz & Hevn).
  assert (Holds : is_Some (hv h old)).
  { unfold owner in Hown. destruct (hv h old); [done|by cbn in Hown]. }
  assert (Hnew_old : ~ reachable h1 [new] old).
  { intros Hr. destruct (Hrnew _ Hr) as [Hn|[_ Hn]]; [|done]. destruct Holds. congruence. }
  pose proof (replace_wf h1 roots old new Hwf1 Hnsome) as Hwf2.
  pose proof (replace_acyclic h1 roots old new Hnew_old Hac1) as Hac2.
  pose proof (replace_subsume_ok h1 roots old new ltac:(by eapply no_new_subsume_ok)) as Hok2.
  pose proof (replace_roots_some h1 roots old new Hnsome
      ltac:(intros z Hz'; eapply extends_some; [done|by apply Hsome])) as Hs2.
  assert (Htt : forall v, ty_of (replace h1 roots old new).1 v = ty_of h1 v) by done.
  assert (Hrr : (replace h1 roots old new).2 = subst1 old new <$> roots) by done.
  destruct (replace h1 roots old new) as [h2 roots2]. cbn [fst snd] in *.
  rewrite (IH h2 roots2 h' roots' Hi) with (k := k) (r := subst1 old new r); [|done|done| |done].
  - rewrite Htt. unfold subst1. case_decide as Hd.
    { subst. rewrite Hty. by apply extends_ty. }
    apply extends_ty; [done|]. apply Hsome. by eapply elem_of_list_lookup_2.
  - by rewrite Hrr, list_lookup_fmap, Hk.
Qed.

Section total.
  Context (order : heap -> list vid -> list nid).
  Hypothesis Horder : forall h roots n, n ∈ order h roots <-> node_reachable h roots n.

  Definition typed (st : state) : Prop :=
    forall k w, (k, w) ∈ st_pss st -> ty_of (st_heap st) k = ty_of (st_heap st) w.

  Lemma process_step_total h0 st rv fs f :
    inv h0 st -> typed st -> rv ∈ dkeys (st_pss st) ->
    (forall r, r ∈ roots_of f -> is_Some (hv (st_heap st) r)) ->
    ty_of (st_heap st) (f_step f) = ty_of (st_heap st) rv ->
    exists st', process_step order st rv fs f = Ok st' /\ (evolves (st_heap st) (st_heap st') -> inv h0 st' -> typed st').
  Proof.
    intros Hinv Hty Hrv Hroots Htf. unfold process_step.
    destruct (replace_all_total (st_pss st) (st_heap st) (f_step f :: dkeys (f_updates f) ++ dvalues (f_updates f))) as (h1 & roots1 & Hra).
    { apply Hty. }
    rewrite Hra. cbn [rbind].
    destruct (replace_all_spec (st_pss st) (st_heap st) (roots_of f) h1 roots1 Hra (inv_good _ _ Hinv) Hroots
          (inv_vals _ _ Hinv) (inv_avoid _ _ Hinv))
        as (Hg1 & Hev1 & Hhv1 & Hr1 & Hl1 & _).
    destruct (replace_all_ty _ _ _ _ _ Hra) as [Ht1 Ht2].
    destruct (expand_subsumptions order h1 roots1) as [h2 roots2] eqn:Hex. unfold expand_subsumptions in Hex.
    destruct (inline_all_spec (order h1 roots1) h1 roots1 h2 roots2 Hex Hg1 Hr1) as (Hg2 & Hev2 & Hr2 & Hl2 & _).
    pose proof (inline_all_ty _ _ _ _ _ Hex Hg1 Hr1) as Ht3.
    destruct roots2 as [|step rest]; [cbn in Hl1, Hl2; lia|]. eexists. split; [reflexivity|].
    cbn [st_heap st_pss]. intros Hev Hinv' k w Hkw. cbn [st_heap st_pss] in *.
    pose proof (inv_nodup _ _ Hinv') as Hnd. cbn [st_pss] in Hnd. apply (dget_of_in _ _ _ Hnd) in Hkw.
    rewrite dget_dset in Hkw. case_decide as Hk.
    - injection Hkw as <-. subst k.
      destruct roots1 as [|r1 rest1]; [cbn in Hl1; lia|].
      rewrite (Ht3 0 r1 step eq_refl eq_refl), Ht1, (Ht2 0 (f_step f) r1 eq_refl eq_refl), Htf.
      apply evolves_ty; [done|]. by apply (inv_keys _ _ Hinv).
    - apply dget_Some_in in Hkw. rewrite (evolves_ty (st_heap st) _ k Hev), (evolves_ty (st_heap st) _ w Hev); [by apply Hty| |].
      + apply (inv_vals _ _ Hinv). apply elem_of_list_fmap. by exists (k, w).
      + apply (inv_keys _ _ Hinv). apply elem_of_list_fmap. by exists (k, w).
  Qed.

  Lemma process_all_total h0 obs l : forall st,
    inv h0 st -> typed st -> in_loop obs st l ->
    (forall rv f, rv ∈ l -> rv ∉ dkeys obs -> chosen (st_found st) rv = Some f ->
       ty_of (st_heap st) (f_step f) = ty_of (st_heap st) rv) ->
    exists st', process_all order obs st l = Ok st'.
  Proof.
    induction l as [|rv l IH]; intros st Hinv Hty [Hnd Hl] Hf; cbn; [by eauto|].
    apply NoDup_cons in Hnd as [Hni Hnd].
    assert (Hone : exists st', process_rv order obs st rv = Ok st' /\ (evolves (st_heap st) (st_heap st') -> inv h0 st' -> typed st')).
    { unfold process_rv. destruct (dmem rv obs) eqn:Hd; [by eauto|].
      assert (Hno : rv ∉ dkeys obs). { intros Hin. apply dmem_true in Hin. congruence. }
      specialize (Hf rv). unfold chosen in Hf.
      destruct (dget (st_found st) rv) as [fs|] eqn:Hg; [|by eauto].
      cbn in Hf. destruct (last fs) as [f|] eqn:Hlast; [|by eauto].
      apply (process_step_total h0); try done.
      - apply Hl; [by left|done].
      - apply (inv_found _ _ Hinv rv fs f); [done|by apply last_elem].
      - apply Hf; [by left|done|done]. }
    destruct Hone as (st1 & Hp1 & Hty1). rewrite Hp1. cbn.
    destruct (process_rv_spec order Horder h0 obs st rv st1 Hinv) as (Hinv1 & Hfr1 & Hch1 & _); [|done|].
    { apply Hl. by left. }
    pose proof (fr_evolves _ _ Hfr1) as Hev1.
    apply IH; [done|by apply Hty1| |].
    - split; [done|]. intros r Hr Hno. rewrite (fr_keys _ _ Hfr1). apply Hl; [by right|done].
    - intros r f Hr Hno Hc. rewrite Hch1 in Hc by (intros ->; done).
      assert (Hrk : r ∈ dkeys (st_pss st)) by (apply Hl; [by right|done]).
      assert (Hfs : exists fs, dget (st_found st) r = Some fs /\ f ∈ fs).
      { unfold chosen in Hc. destruct (dget (st_found st) r) as [fs|]; [|done]. exists fs. split; [done|]. by apply last_elem. }
      destruct Hfs as (fs & H1 & H2). destruct (inv_found _ _ Hinv r fs f H1 H2) as (Hro & _).
      rewrite !(evolves_ty (st_heap st) (st_heap st1)); try done.
      + apply Hf; [by right|done|done].
      + by apply (inv_keys _ _ Hinv).
      + apply Hro. by left.
  Qed.
End total.

(** pairing of NUTS's updates with the shared variables it reads *)
Lemma pair_updates_total outs : forall ins, length outs <= length ins -> exists l, pair_updates ins outs = Ok l.
Proof.
  induction outs as [|x outs IH]; intros ins Hl.
  - destruct ins; by eexists.
  - destruct ins as [|i ins]; cbn in Hl; [lia|]. destruct (IH ins) as [l Hl']; [lia|].
    cbn. rewrite Hl'. cbn. by eexists.
Qed.

(** the shared variables on which the NUTS step depends are at least as many as its updates *)
Definition nuts_pairable (o : oracles) : Prop :=
  forall h ts re, good_heap h -> (forall v, v ∈ dvalues ts ++ dvalues re -> is_Some (hv h v)) ->
    let '(h1, s) := o_nuts o h ts re in
    length (ns_updates s) <=
      length (filter (fun v => is_shared h1 v = true) (o_ginputs o h1 (ns_results s ++ dvalues (ns_updates s)))).

Section total_final.
  Context (o : oracles) (h : heap) (obs : dict nat nat) (topo topo_rv : list nid).
  Hypothesis Hct : contracts o.
  Hypothesis Hm : model_ok h obs.
  Hypothesis Htopo : topo_order h (dkeys obs) topo.
  Hypothesis Htopo_rv : topo_order h (rv_outputs h topo) topo_rv.

  Lemma construct_total :
    (forall k v, (k, v) ∈ obs -> ty_of h k = ty_of h v) ->
    (forall i outs inits st0 rv f, sampler_init o h obs topo topo_rv = (i, outs, inits, st0) ->
       rv ∈ outs -> chosen (st_found st0) rv = Some f -> ty_of (st_heap st0) (f_step f) = ty_of (st_heap st0) rv) ->
    nuts_pairable o ->
    exists s, construct_sampler o h obs topo topo_rv = Ok s.
  Proof.
    intros Hobs Hsteps Hpair. unfold construct_sampler.
    destruct (sampler_init o h obs topo topo_rv) as [[[i outs] inits] st0] eqn:Hi.
    pose proof (sampler_init_facts o h obs topo topo_rv Hct Hm Htopo Htopo_rv _ _ _ _ Hi) as Hf.
    pose proof (if_inv _ _ _ _ _ _ _ _ Hf) as Hinv0.
    assert (Hpss0 : dkeys (st_pss st0) = dkeys inits ++ dkeys (ir_obs i)).
    { rewrite (if_pss _ _ _ _ _ _ _ _ Hf). unfold dkeys. by rewrite map_app. }
    assert (Hpss0in : forall u, u ∈ outs <-> u ∈ dkeys (st_pss st0)).
    { intros u. rewrite Hpss0, elem_of_app, (if_inits_keys _ _ _ _ _ _ _ _ Hf), elem_of_list_filter. split.
      - intros Hu. destruct (decide (u ∈ dkeys (ir_obs i))); [by right|by left].
      - intros [[_ ?]|Hu]; [done|]. by apply (if_obs_in _ _ _ _ _ _ _ _ Hf). }
    assert (Hloop : in_loop (ir_obs i) st0 outs).
    { split; [apply (if_nodup _ _ _ _ _ _ _ _ Hf)|]. intros u Hu _. by apply Hpss0in. }
    assert (Htyped : typed st0).
    { intros k w Hkw. rewrite (if_pss _ _ _ _ _ _ _ _ Hf) in Hkw.
      assert (Hclty : forall rv, rv ∈ rv_outputs h topo -> ty_of (st_heap st0) (memo_get (ir_memo i) rv) = ty_of h rv).
      { apply (if_ty _ _ _ _ _ _ _ _ Hf). }
      apply elem_of_app in Hkw as [Hkw|Hkw].
      - assert (Hk : k ∈ dkeys inits) by (apply elem_of_list_fmap; by exists (k, w)).
        rewrite (if_inits_keys _ _ _ _ _ _ _ _ Hf) in Hk. apply elem_of_list_filter in Hk as [_ Hk].
        rewrite (if_outs _ _ _ _ _ _ _ _ Hf) in Hk. apply elem_of_list_fmap in Hk as (rv & -> & Hrv).
        rewrite Hclty by done. destruct (if_inits _ _ _ _ _ _ _ _ Hf rv w Hrv Hkw) as (_ & x & Hx & Hw).
        unfold ty_of. by rewrite Hx, Hw.
      - rewrite (if_obs _ _ _ _ _ _ _ _ Hf) in Hkw. apply elem_of_list_fmap in Hkw as ([k0 v0] & Heq & Hin). simplify_eq.
        rewrite Hclty.
        + rewrite (Hobs _ _ Hin). symmetry. apply extends_ty; [apply (inv_ext _ _ Hinv0)|].
          apply (mo_vals _ _ Hm). apply elem_of_list_fmap. by exists (k0, v0).
        + apply (rv_outputs_spec h obs topo Htopo). apply (mo_keys _ _ Hm). apply elem_of_list_fmap. by exists (k0, v0). }
    destruct (process_all_total (o_order o) (ct_order o Hct) h (ir_obs i) outs st0 Hinv0 Htyped Hloop) as [st Hp].
    { intros rv f Hrv Hno Hc. by apply (Hsteps i outs inits st0 rv f). }
    rewrite Hp. cbn [rbind].
    destruct (process_all_spec (o_order o) (ct_order o Hct) h (ir_obs i) outs st0 st Hinv0 Hloop Hp)
      as (Hinv & Hfr & _ & _).
    destruct (process_all_left (o_order o) (ct_order o Hct) h (ir_obs i) outs st0 st Hinv0 Hloop Hp)
      as (Hleft & Hndl).
    rewrite (if_left _ _ _ _ _ _ _ _ Hf) in Hleft, Hndl.
    assert (Hleftin : forall rv, rv ∈ st_left st -> rv ∈ dkeys (st_pss st)).
    { intros rv Hrv. rewrite (fr_keys _ _ Hfr). apply Hpss0in. apply Hleft in Hrv as [?%elem_of_nil|[? _]]; done. }
    assert (Hnuts : exists h4 pss upd params, nuts_stage o st = Ok (h4, pss, upd, params)).
    { unfold nuts_stage, nuts_call. cbv beta iota zeta. destruct (st_left st) as [|l0 ls] eqn:Hl; [by repeat eexists|]. rewrite <- Hl in *. clear Hl l0 ls.
      set (items := omap (fun rv => v ← dget (st_pss st) rv; Some (rv, v)) (o_iter o (st_left st))).
      assert (Hit : map fst items = o_iter o (st_left st)).
      { apply omap_keys. intros rv Hrv. apply Hleftin. by rewrite (ct_iter o Hct (st_left st)) in Hrv. }
      assert (Hndit : NoDup (map fst items)).
      { rewrite Hit, (ct_iter o Hct (st_left st)). apply Hndl. constructor. }
      rewrite (dof_nodup items) by done.
      set (re := filter (fun p => p.1 ∉ dkeys items) (st_pss st)).
      assert (Hitv : forall v, v ∈ dvalues items ++ dvalues re -> is_Some (hv (st_heap st) v)).
      { intros v Hv. apply (inv_vals _ _ Hinv). apply elem_of_app in Hv as [Hv|Hv].
        - apply elem_of_list_fmap in Hv as ([k w] & -> & Hin). apply elem_of_list_omap in Hin as (rv & _ & Hg).
          destruct (dget (st_pss st) rv) as [v|] eqn:Hd; [|done]. cbn in Hg. simplify_eq. cbn.
          apply dget_Some_in in Hd. apply elem_of_list_fmap. by exists (k, w).
        - apply elem_of_list_fmap in Hv as (p & -> & Hin). apply elem_of_list_filter in Hin as [_ Hin].
          apply elem_of_list_fmap. by exists p. }
      pose proof (Hpair (st_heap st) items re (inv_good _ _ Hinv) Hitv) as Hpr.
      destruct (ct_nuts o Hct (st_heap st) items re (inv_good _ _ Hinv) Hitv) as (N1 & N2 & N3 & N4).
      destruct (o_nuts o (st_heap st) items re) as [h1 sN]. cbn [fst snd] in *.
      unfold nuts_construct.
      set (gi := o_ginputs o h1 (ns_results sN ++ dvalues (ns_updates sN))) in *.
      set (outputs := ns_results sN ++ dvalues (ns_updates sN)) in *.
      pose proof (alloc_node_spec h1 (OOther (o_kernel o)) (filter (fun v => is_const h1 v = false /\ is_shared h1 v = false) gi
         ++ filter (fun v => is_shared h1 v = true) gi) (var_sig h1 <$> outputs)) as (Hlen & _).
      destruct (alloc_node h1 (OOther (o_kernel o)) _ (var_sig h1 <$> outputs)) as [h2 post]. cbn [fst snd] in *.
      rewrite fmap_length in Hlen. unfold outputs in Hlen. rewrite app_length in Hlen.
      destruct (pair_updates_total (drop (length (zip (dkeys items) post)) post) (filter (fun v => is_shared h1 v = true) gi)) as [l Hl'].
      { rewrite drop_length, zip_with_length. unfold dkeys. rewrite map_length. rewrite Hlen, N3.
        unfold dvalues. rewrite map_length. lia. }
      rewrite Hl'. cbn [rbind]. by repeat eexists. }
    destruct Hnuts as (h4 & pss & upd & params & Hn). rewrite Hn. cbn [rbind].
    assert (Hnf : nuts_facts o st h4 pss upd params).
    { apply (nuts_stage_facts o Hct st); try done; [apply (inv_good _ _ Hinv)|apply (inv_vals _ _ Hinv)|apply Hndl; constructor]. }
    assert (Hn2o : forall u, u ∈ outs -> is_Some (dget (ir_new_to_old i) u)).
    { intros u Hu. rewrite (if_outs _ _ _ _ _ _ _ _ Hf) in Hu. apply elem_of_list_fmap in Hu as (rv & -> & Hrv).
      rewrite (if_n2o _ _ _ _ _ _ _ _ Hf rv Hrv). by eauto. }
    destruct (rename_keys_total (ir_new_to_old i) (filter (fun p => p.1 ∉ dkeys (ir_obs i)) pss)) as [l1 ->].
    { intros p Hpin. apply elem_of_list_filter in Hpin as [_ Hpin]. apply Hn2o. apply Hpss0in.
      rewrite <- (fr_keys _ _ Hfr), <- (nf_keys _ _ _ _ _ _ Hnf). apply elem_of_list_fmap. by exists p. }
    cbn [rbind]. destruct (rename_keys_total (ir_new_to_old i) inits) as [l2 ->].
    { intros p Hpin. apply Hn2o. apply Hpss0in. rewrite Hpss0. apply elem_of_app. left.
      apply elem_of_list_fmap. by exists p. }
    cbn [rbind]. by eexists.
  Qed.
End total_final.

(** ** the step of a variable is the sampler discovered last *)
Lemma process_all_keeps order (Horder : forall h roots n, n ∈ order h roots <-> node_reachable h roots n)
    h0 obs l : forall st st' rv f,
  inv h0 st -> in_loop obs st l -> process_all order obs st l = Ok st' ->
  rv ∈ l -> rv ∉ dkeys obs -> chosen (st_found st) rv = Some f -> f_step f ∉ dkeys (st_pss st) ->
  (forall n j, owner (st_heap st) (f_step f) = Some (n, j) -> ~ is_subsume (st_heap st) n) ->
  dget (st_pss st') rv = Some (f_step f).
Proof.
  assert (Hother : forall l st st' rv, inv h0 st -> in_loop obs st l -> process_all order obs st l = Ok st' -> rv ∉ l ->
    dget (st_pss st') rv = dget (st_pss st) rv).
  { clear l. induction l as [|r l IH]; intros st st' rv Hinv [Hnd Hl] Hp Hni; cbn in Hp; [by simplify_eq|].
    destruct (process_rv order obs st r) as [st1|] eqn:Hp1; [|done]. cbn in Hp. apply NoDup_cons in Hnd as [Hr Hnd].
    destruct (process_rv_spec order Horder h0 obs st r st1 Hinv) as (Hinv1 & Hfr1 & Hch1 & Hd1); [apply Hl; by left|done|].
    rewrite (IH st1 st' rv); [|done| |done|set_solver].
    - apply Hd1. set_solver.
    - split; [done|]. intros r' Hr' Hno. rewrite (fr_keys _ _ Hfr1). apply Hl; [by right|done]. }
  induction l as [|r l IH]; intros st st' rv f Hinv [Hnd Hl] Hp Hin Hno Hc HfV Hns; [by apply elem_of_nil in Hin|].
  cbn in Hp. destruct (process_rv order obs st r) as [st1|] eqn:Hp1; [|done]. cbn in Hp. apply NoDup_cons in Hnd as [Hr Hnd].
  destruct (process_rv_spec order Horder h0 obs st r st1 Hinv) as (Hinv1 & Hfr1 & Hch1 & Hd1); [apply Hl; by left|done|].
  assert (Hl1 : in_loop obs st1 l).
  { split; [done|]. intros r' Hr' Hno'. rewrite (fr_keys _ _ Hfr1). apply Hl; [by right|done]. }
  assert (Hrv : rv ∈ dkeys (st_pss st)) by (by apply Hl).
  apply elem_of_cons in Hin as [->|Hin].
  - rewrite (Hother l st1 st' r Hinv1 Hl1 Hp Hr).
    apply process_rv_cases in Hp1 as [[? _]|[(_ & ? & _)|(_ & fs & f' & Hd & Hlast & Hc' & Hps)]]; [done|congruence|].
    assert (f' = f) as -> by congruence.
    destruct (process_step_spec order Horder h0 st r (removelast fs) f st1 Hinv Hrv) as
      (step & us & E1 & _ & _ & _ & _ & _ & _ & _ & _ & _ & _ & _ & _ & _ & Hkeep & _); [|done|].
    { exists r, fs. split_and!; [done|by apply last_elem|]. intros f'' Hf''. by apply removelast_elem. }
    rewrite E1, dget_dset, decide_True by done. f_equal. by apply Hkeep.
  - apply (IH st1 st' rv f); try done.
    + rewrite Hch1; [done|]. intros ->. done.
    + by rewrite (fr_keys _ _ Hfr1).
    + intros n j Ho. rewrite (fr_subsume _ _ Hfr1). apply (Hns n j).
      rewrite (evolves_owner (st_heap st)) in Ho; [done|apply (fr_evolves _ _ Hfr1)|].
      unfold chosen in Hc. destruct (dget (st_found st) rv) as [fs|] eqn:Hg; [|done]. cbn in Hc.
      apply (inv_found _ _ Hinv rv fs f Hg); [by apply last_elem|]. by left.
Qed.

Section last.
  Context (o : oracles) (h : heap) (obs : dict nat nat) (topo topo_rv : list nid).
  Hypothesis Hct : contracts o.
  Hypothesis Hm : model_ok h obs.
  Hypothesis Htopo : topo_order h (dkeys obs) topo.
  Hypothesis Htopo_rv : topo_order h (rv_outputs h topo) topo_rv.

  Lemma step_is_last s rv f i outs inits st0 :
    construct_sampler o h obs topo topo_rv = Ok s ->
    sampler_init o h obs topo topo_rv = (i, outs, inits, st0) ->
    model_rv h obs rv -> rv ∉ dkeys obs -> sampler_for o h obs topo topo_rv rv = Some f ->
    f_step f ∉ outs ->
    (forall n j, owner (st_heap st0) (f_step f) = Some (n, j) -> ~ is_subsume (st_heap st0) n) ->
    dget (s_steps s) rv = Some (f_step f).
  Proof.
    intros Hs Hi Hrv Hno Hfor HfV Hns. apply (rv_outputs_spec h obs topo Htopo) in Hrv.
    destruct (sampler_parts o h obs topo topo_rv Hct Hm Htopo Htopo_rv s Hs) as (i1 & outs1 & inits1 & st1 & st & pss & Hp).
    pose proof (pt_init _ _ _ _ _ _ _ _ _ _ _ _ Hp) as Hi1. rewrite Hi in Hi1. injection Hi1 as <- <- <- <-.
    pose proof (pt_facts _ _ _ _ _ _ _ _ _ _ _ _ Hp) as Hf.
    apply (pt_steps _ _ _ _ _ _ _ _ _ _ _ _ Hp). split_and!; [done|done|].
    assert (Hnl : memo_get (ir_memo i) rv ∉ st_left st).
    { rewrite (pt_left _ _ _ _ _ _ _ _ _ _ _ _ Hp) by done. intros [_ ?]. congruence. }
    rewrite (nf_other _ _ _ _ _ _ (pt_nuts _ _ _ _ _ _ _ _ _ _ _ _ Hp)) by done.
    apply (process_all_keeps (o_order o) (ct_order o Hct) h (ir_obs i) outs st0 st); try done.
    - apply (if_inv _ _ _ _ _ _ _ _ Hf).
    - apply (pt_inloop _ _ _ _ _ _ _ _ _ _ _ _ Hp).
    - apply (pt_loop _ _ _ _ _ _ _ _ _ _ _ _ Hp).
    - rewrite (if_outs _ _ _ _ _ _ _ _ Hf). by apply elem_of_list_fmap_1.
    - by rewrite (pt_obs _ _ _ _ _ _ _ _ _ _ _ _ Hp).
    - by rewrite <- (pt_for _ _ _ _ _ _ _ _ _ _ _ _ Hp).
    - intros Hin. apply HfV. rewrite (if_pss _ _ _ _ _ _ _ _ Hf) in Hin. unfold dkeys in Hin. rewrite map_app, elem_of_app in Hin.
      destruct Hin as [Hin|Hin].
      + change (map fst inits) with (dkeys inits) in Hin. rewrite (if_inits_keys _ _ _ _ _ _ _ _ Hf) in Hin. by apply elem_of_list_filter in Hin as [_ ?].
      + by apply (if_obs_in _ _ _ _ _ _ _ _ Hf).
  Qed.
End last.
