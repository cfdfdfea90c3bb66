(** construct_sampler as a whole. *)
From Verif Require Export L_init.

Lemma rename_keys_spec n2o items : forall l,
  rename_keys n2o items = Ok l ->
  Forall2 (fun p q => dget n2o p.1 = Some q.1 /\ p.2 = q.2) items l.
Proof.
  induction items as [|[k v] items IH]; intros l; cbn.
  - intros. simplify_eq. constructor.
  - destruct (dget n2o k) as [k'|] eqn:Hk; [|done].
    destruct (rename_keys n2o items) as [l'|]; [|done]. cbn. intros. simplify_eq. constructor; [done|by apply IH].
Qed.

Lemma rename_keys_total n2o items :
  (forall p, p ∈ items -> is_Some (dget n2o p.1)) -> exists l, rename_keys n2o items = Ok l.
Proof.
  induction items as [|[k v] items IH]; intros H; cbn; [by eauto|].
  destruct (H (k, v)) as [k' Hk]; [by left|]. cbn in Hk. rewrite Hk.
  destruct IH as [l ->]; [|cbn; by eauto]. intros p Hp. apply H. by right.
Qed.

Lemma NoDup_dkeys_filter (P : nat * nat -> Prop) `{forall x, Decision (P x)} (l : list (nat * nat)) :
  NoDup (dkeys l) -> NoDup (dkeys (filter P l)).
Proof.
  induction l as [|[k v] l IH]; intros Hnd; [done|]. cbn in Hnd. apply NoDup_cons in Hnd as [Hni Hnd].
  rewrite filter_cons. case_decide; [|by apply IH]. cbn. apply NoDup_cons. split; [|by apply IH].
  intros Hin. apply Hni. apply elem_of_list_fmap in Hin as (p & -> & Hp'). apply elem_of_list_filter in Hp' as [_ Hp'].
  apply elem_of_list_fmap. by exists p.
Qed.

Lemma NoDup_dvalues (l : list (nat * nat)) :
  NoDup (dkeys l) -> (forall k1 k2 w, (k1, w) ∈ l -> (k2, w) ∈ l -> k1 = k2) -> NoDup (dvalues l).
Proof.
  induction l as [|[k v] l IH]; intros Hnd Hinj; [constructor|]. cbn in *. apply NoDup_cons in Hnd as [Hni Hnd].
  apply NoDup_cons. split.
  - intros Hin. apply elem_of_list_fmap in Hin as ([k' v'] & Hv & Hin). cbn in Hv. subst v'.
    apply Hni. rewrite (Hinj k k' v); [|by left|by right]. apply elem_of_list_fmap. by exists (k', v).
  - apply IH; [done|]. intros k1 k2 w H1 H2. apply (Hinj k1 k2 w); by right.
Qed.

(** dictionaries with renamed keys *)
Lemma rename_get n2o (items l : dict nat nat) (g : nat -> nat) (dom : list nat) :
  rename_keys n2o items = Ok l ->
  NoDup (dkeys items) ->
  (forall k, k ∈ dkeys items -> exists rv, rv ∈ dom /\ k = g rv) ->
  (forall rv, rv ∈ dom -> dget n2o (g rv) = Some rv) ->
  NoDup (dkeys l) /\
  forall rv w, dget (dof l) rv = Some w <-> rv ∈ dom /\ dget items (g rv) = Some w.
Proof.
  intros Hr Hnd Hdom Hn2o. apply rename_keys_spec in Hr.
  assert (Hlk : forall rv w, (rv, w) ∈ l <-> rv ∈ dom /\ (g rv, w) ∈ items).
  { intros rv w. split.
    - intros Hin. apply elem_of_list_lookup in Hin as [j Hj].
      destruct (Forall2_lookup_r _ _ _ _ _ Hr Hj) as ([k w'] & Hk & Hg & Hw). cbn in Hg, Hw. subst w'.
      assert (Hki : (k, w) ∈ items) by (by eapply elem_of_list_lookup_2).
      destruct (Hdom k) as (rv' & Hrv' & ->). { apply elem_of_list_fmap. by exists (k, w). }
      rewrite Hn2o in Hg by done. simplify_eq. done.
    - intros [Hd Hin]. apply elem_of_list_lookup in Hin as [j Hj].
      destruct (Forall2_lookup_l _ _ _ _ _ Hr Hj) as ([rv' w'] & Hk & Hg & Hw). cbn in Hg, Hw. subst w'.
      rewrite Hn2o in Hg by done. simplify_eq. by eapply elem_of_list_lookup_2. }
  assert (Hndl : NoDup (dkeys l)).
  { clear Hlk. revert Hnd Hdom. induction Hr as [|[k v] [rv v'] items l [H1 H2] Hr IH]; intros Hnd Hdom; [constructor|].
    cbn in *. apply NoDup_cons in Hnd as [Hni Hnd]. apply NoDup_cons. split.
    - intros Hin. apply elem_of_list_fmap in Hin as ([rv2 v2] & -> & Hin). cbn in *.
      apply elem_of_list_lookup in Hin as [j Hj].
      destruct (Forall2_lookup_r _ _ _ _ _ Hr Hj) as ([k2 w2] & Hk2 & Hg2 & _). cbn in Hg2.
      apply Hni. destruct (Hdom k) as (ra & Hra & ->); [by left|].
      assert (Hk2in : k2 ∈ dkeys items). { apply elem_of_list_fmap. exists (k2, w2). split; [done|]. by eapply elem_of_list_lookup_2. }
      destruct (Hdom k2) as (rb & Hrb & ->); [by right|].
      rewrite Hn2o in H1, Hg2 by done. simplify_eq. done.
    - apply IH; [done|]. intros k2 Hk2. apply Hdom. by right. }
  split; [done|]. rewrite dof_nodup by done. intros rv w. split.
  - intros Hg. apply dget_Some_in in Hg. apply Hlk in Hg as [Hd Hin]. split; [done|]. by apply dget_of_in.
  - intros [Hd Hg]. apply dget_of_in; [done|]. apply Hlk. split; [done|]. by apply dget_Some_in.
Qed.

Lemma construct_sampler_inv o h obs topo topo_rv s :
  construct_sampler o h obs topo topo_rv = Ok s ->
  exists i outs inits st0 st h4 pss upd params steps iv,
    sampler_init o h obs topo topo_rv = (i, outs, inits, st0) /\
    process_all (o_order o) (ir_obs i) st0 outs = Ok st /\
    nuts_stage o st = Ok (h4, pss, upd, params) /\
    rename_keys (ir_new_to_old i) (filter (fun p => p.1 ∉ dkeys (ir_obs i)) pss) = Ok steps /\
    rename_keys (ir_new_to_old i) inits = Ok iv /\
    s = Sampler h4 (dof steps) upd params (dof iv).
Proof.
  unfold construct_sampler.
  destruct (sampler_init o h obs topo topo_rv) as [[[i outs] inits] st0].
  destruct (process_all (o_order o) (ir_obs i) st0 outs) as [st|] eqn:Hp; [|done]. cbn.
  destruct (nuts_stage o st) as [[[[h4 pss] upd] params]|] eqn:Hn; [|done]. cbn.
  destruct (rename_keys (ir_new_to_old i) (filter (fun p => p.1 ∉ dkeys (ir_obs i)) pss)) as [steps|] eqn:H1; [|done]. cbn.
  destruct (rename_keys (ir_new_to_old i) inits) as [iv|] eqn:H2; [|done]. cbn.
  intros. simplify_eq. by exists i, outs, inits, st0, st, h4, pss, upd, params, steps, iv.
Qed.

Lemma pair_updates_spec ins outs l :
  pair_updates ins outs = Ok l -> map fst l = take (length outs) ins /\ map snd l = outs.
Proof.
  revert ins l. induction outs as [|x outs IH]; intros ins l; cbn.
  - intros Hp. assert (l = []) as -> by (destruct ins; by injection Hp). split; [by destruct ins|done].
  - destruct ins as [|i ins]; cbn; [done|]. destruct (pair_updates ins outs) as [l'|] eqn:Hp; [|done].
    cbn. intros. simplify_eq. destruct (IH _ _ Hp) as [H1 H2]. cbn. by rewrite H1, H2.
Qed.

(** ** the NUTS stage *)
Section nuts.
  Context (o : oracles) (Hct : contracts o) (st : state).
  Hypothesis Hgood : good_heap (st_heap st).
  Hypothesis Hvals : forall w, w ∈ (st_pss st).*2 -> is_Some (hv (st_heap st) w).
  Hypothesis Hleft : forall rv, rv ∈ st_left st -> rv ∈ dkeys (st_pss st).
  Hypothesis Hndl : NoDup (st_left st).

  Record nuts_facts (h4 : heap) (pss upd : dict nat nat) (params : dict nat (vid * vid)) : Prop := NutsFacts {
    nf_ext : extends (st_heap st) h4;
    nf_good : good_heap h4;
    nf_keys : dkeys pss = dkeys (st_pss st);
    nf_other : forall k, k ∉ st_left st -> dget pss k = dget (st_pss st) k;
    nf_params : params = [] <-> st_left st = [];
    nf_kernel : st_left st <> [] ->
      exists n nd, hn h4 n = Some nd /\ n_op nd = OOther (o_kernel o) /\ hn (st_heap st) n = None /\
        (forall k, k ∈ st_left st -> exists w j, dget pss k = Some w /\ owner h4 w = Some (n, j)) /\
        (forall k1 k2 w, k1 ∈ st_left st -> k2 ∈ st_left st -> dget pss k1 = Some w -> dget pss k2 = Some w -> k1 = k2) /\
        (forall k u, dget upd k = Some u ->
           dget (st_updates st) k = Some u \/ (k ∈ n_ins nd /\ exists j, owner h4 u = Some (n, j))) /\
        (forall k u, dget (st_updates st) k = Some u -> dget upd k = Some u \/ k ∈ n_ins nd) /\
        (forall k, k ∈ dkeys (st_updates st) -> k ∈ dkeys upd) /\
        params = [(o_kernel o, ns_params (o_nuts o (st_heap st)
          (dof (omap (fun rv => v ← dget (st_pss st) rv; Some (rv, v)) (o_iter o (st_left st))))
          (filter (fun p => p.1 ∉ dkeys (dof (omap (fun rv => v ← dget (st_pss st) rv; Some (rv, v)) (o_iter o (st_left st))))) (st_pss st))).2)];
    nf_none : st_left st = [] -> h4 = st_heap st /\ pss = st_pss st /\ upd = st_updates st;
  }.

  Lemma omap_keys l : (forall rv, rv ∈ l -> rv ∈ dkeys (st_pss st)) ->
    map fst (omap (fun rv => v ← dget (st_pss st) rv; Some (rv, v)) l) = l.
  Proof.
    induction l as [|rv l IH]; intros Hl; [done|]. cbn.
    destruct (proj1 (dget_in (st_pss st) rv)) as [v Hv]; [apply Hl; by left|]. rewrite Hv. cbn. f_equal. apply IH.
    intros. apply Hl. by right.
  Qed.

  Lemma nuts_stage_facts h4 pss upd params :
    nuts_stage o st = Ok (h4, pss, upd, params) -> nuts_facts h4 pss upd params.
  Proof.
    unfold nuts_stage, nuts_call. cbv beta iota zeta. destruct (st_left st) as [|l0 ls] eqn:Hl.
    { intros. simplify_eq. constructor; rewrite ?Hl; try done. }
    rewrite <- Hl in *. assert (Hne : st_left st <> []) by (by rewrite Hl). clear Hl l0 ls.
    set (left := o_iter o (st_left st)).
    assert (Hperm : left ≡ₚ st_left st) by apply (ct_iter o Hct).
    set (items := omap (fun rv => v ← dget (st_pss st) rv; Some (rv, v)) left).
    assert (Hitems : map fst items = left).
    { apply omap_keys. intros rv Hrv. apply Hleft. by rewrite <- Hperm. }
    assert (Hndleft : NoDup left) by (by rewrite Hperm).
    assert (Hts : dof items = items) by (apply dof_nodup; by rewrite Hitems).
    rewrite Hts.
    set (realized := filter (fun p => p.1 ∉ dkeys items) (st_pss st)).
    assert (Hivals : forall v, v ∈ dvalues items ++ dvalues realized -> is_Some (hv (st_heap st) v)).
    { intros v Hv. apply Hvals. apply elem_of_app in Hv as [Hv|Hv].
      - apply elem_of_list_fmap in Hv as ([k w] & -> & Hin). apply elem_of_list_omap in Hin as (rv & _ & Hg).
        destruct (dget (st_pss st) rv) as [v|] eqn:Hd; [|done]. cbn in Hg. simplify_eq. cbn.
        apply dget_Some_in in Hd. apply elem_of_list_fmap. by exists (k, w).
      - apply elem_of_list_fmap in Hv as (p & -> & Hin). apply elem_of_list_filter in Hin as [_ Hin].
        apply elem_of_list_fmap. by exists p. }
    destruct (ct_nuts o Hct (st_heap st) items realized Hgood Hivals) as (N1 & N2 & N3 & N4).
    destruct (o_nuts o (st_heap st) items realized) as [h1 sN] eqn:HoN. cbn [fst snd] in *.
    unfold nuts_construct.
    set (gi := o_ginputs o h1 (ns_results sN ++ dvalues (ns_updates sN))).
    set (inputs := filter (fun v => is_const h1 v = false /\ is_shared h1 v = false) gi).
    set (shared := filter (fun v => is_shared h1 v = true) gi).
    set (outputs := ns_results sN ++ dvalues (ns_updates sN)).
    assert (Hins : forall u, u ∈ inputs ++ shared -> is_Some (hv h1 u)).
    { intros u Hu. apply (ct_ginputs o Hct h1 outputs); [exact N2|exact N4|]. apply elem_of_app in Hu as [Hu|Hu]; by apply elem_of_list_filter in Hu as [_ Hu]. }
    pose proof (alloc_node_spec h1 (OOther (o_kernel o)) (inputs ++ shared) (var_sig h1 <$> outputs)) as (Hlen & HndN & Hfr & Hval & Hold & Hnn & Hn1 & Hm).
    pose proof (alloc_node_extends h1 (OOther (o_kernel o)) (inputs ++ shared) (var_sig h1 <$> outputs)) as Hex.
    pose proof (alloc_node_wf h1 (OOther (o_kernel o)) (inputs ++ shared) (var_sig h1 <$> outputs) Hins (proj1 N2)) as Hwf1.
    pose proof (alloc_node_acyclic h1 (OOther (o_kernel o)) (inputs ++ shared) (var_sig h1 <$> outputs) Hins (proj1 N2) (proj1 (proj2 N2))) as Hac1.
    pose proof (alloc_node_out_some h1 (OOther (o_kernel o)) (inputs ++ shared) (var_sig h1 <$> outputs)) as Hout.
    set (nN := fresh (dom (h_nodes h1))) in *.
    destruct (alloc_node h1 (OOther (o_kernel o)) (inputs ++ shared) (var_sig h1 <$> outputs)) as [h2 post] eqn:Hal.
    cbn [fst snd] in *.
    rewrite fmap_length in Hlen.
    assert (Hlen2 : length left <= length post).
    { rewrite Hlen. unfold outputs. rewrite app_length, N3. rewrite <- Hitems, map_length. lia. }
    set (results := zip (dkeys items) post).
    assert (Hres : map fst results = left).
    { unfold results, dkeys. rewrite Hitems. change (map fst (zip left post)) with ((zip left post).*1).
      by rewrite fst_zip. }
    destruct (pair_updates shared (drop (length results) post)) as [updl|] eqn:Hpu; [|done]. cbn [rbind nk_results nk_updates nk_kernel nk_params].
    destruct (pair_updates_spec _ _ _ Hpu) as [Hu1 Hu2].
    intros Heq. injection Heq as <- <- <- <-.
    assert (Hget : forall k, k ∈ left -> exists w j, dget (dupdate (st_pss st) results) k = Some w /\ post !! j = Some w /\ left !! j = Some k).
    { intros k Hk. apply elem_of_list_lookup in Hk as [j Hj].
      destruct (lookup_lt_is_Some_2 post j) as [w Hw]. { apply lookup_lt_Some in Hj. lia. }
      exists w, j. split_and!; try done. apply dget_dupdate_nodup; [by rewrite Hres|].
      apply elem_of_list_lookup. exists j. unfold results, dkeys. rewrite Hitems, lookup_zip_with, Hj. cbn. by rewrite Hw. }
    assert (Howner : forall w, w ∈ post -> exists j, owner h2 w = Some (nN, j)).
    { intros w Hw. destruct (Hout w Hw) as (k & nm & ty & _ & _ & Hx). exists k. unfold owner. by rewrite Hx. }
    constructor.
    - by eapply extends_trans.
    - split_and!; [done|done|]. intros m ndm sc args Hmd Hop. destruct (decide (m = nN)) as [->|Hne'].
      + rewrite Hn1 in Hmd. simplify_eq.
      + rewrite Hm in Hmd by done. by eapply (proj2 (proj2 N2)).
    - assert (forall e d, (forall k, k ∈ map fst e -> k ∈ dkeys d) -> dkeys (dupdate d e) = dkeys (d : dict nat nat)) as Hd.
      { induction e as [|[k v] e IH]; intros d He; [done|]. cbn [dupdate]. rewrite IH.
        - apply dkeys_dset_in. apply He. by left.
        - intros k' Hk'. apply elem_of_dkeys_dset. right. apply He. by right. }
      apply Hd. intros k Hk. rewrite Hres, Hperm in Hk. by apply Hleft.
    - intros k Hk. apply dget_dupdate_notin. rewrite Hres. by rewrite Hperm.
    - split; [|done]. cbn. done.
    - intros _. exists nN, (Node (OOther (o_kernel o)) (inputs ++ shared) post). split_and!; try done.
      + destruct (hn (st_heap st) nN) as [nd|] eqn:Hx; [|done]. apply N1 in Hx. congruence.
      + intros k Hk. rewrite <- Hperm in Hk. destruct (Hget k Hk) as (w & j & H1 & H2 & _).
        destruct (Howner w) as [j' Hj']; [by eapply elem_of_list_lookup_2|]. by exists w, j'.
      + intros k1 k2 w Hk1 Hk2 H1 H2. rewrite <- Hperm in Hk1, Hk2.
        destruct (Hget k1 Hk1) as (w1 & j1 & A1 & A2 & A3). destruct (Hget k2 Hk2) as (w2 & j2 & B1 & B2 & B3).
        simplify_eq. pose proof (NoDup_lookup _ _ _ _ HndN A2 B2). subst. congruence.
      + intros k u Hk. rewrite dget_dupdate_gen in Hk. destruct (dget (dof (dof updl)) k) as [u'|] eqn:Hg; [|by left].
        simplify_eq. right. apply dget_dof_in in Hg.
        assert (Hg2 : (k, u) ∈ updl).
        { apply dget_dof_in. apply dget_of_in; [apply NoDup_dkeys_dof|done]. }
        cbn [n_ins]. split.
        * apply elem_of_app. right. assert (Hkf : k ∈ map fst updl) by (apply elem_of_list_fmap; by exists (k, u)).
          rewrite Hu1 in Hkf. by apply elem_of_take in Hkf as (? & ? & _); eapply elem_of_list_lookup_2.
        * apply Howner. assert (Huf : u ∈ map snd updl) by (apply elem_of_list_fmap; by exists (k, u)).
          rewrite Hu2 in Huf. apply elem_of_list_lookup in Huf as [j Hj]. rewrite lookup_drop in Hj. by eapply elem_of_list_lookup_2.
      + intros k u Hk. rewrite dget_dupdate_gen. destruct (dget (dof (dof updl)) k) as [u'|] eqn:Hg; [right|by left].
        apply dget_dof_in in Hg. assert (Hg2 : (k, u') ∈ updl).
        { apply dget_dof_in. apply dget_of_in; [apply NoDup_dkeys_dof|done]. }
        cbn [n_ins]. apply elem_of_app. right. assert (Hkf : k ∈ map fst updl) by (apply elem_of_list_fmap; by exists (k, u')).
        rewrite Hu1 in Hkf. by apply elem_of_take in Hkf as (? & ? & _); eapply elem_of_list_lookup_2.
      + intros k Hk. apply elem_of_dkeys_dupdate. by left.
      + fold left. fold items. rewrite Hts. fold realized. rewrite HoN. done.
    - done.
  Qed.
End nuts.

Section final.
  Context (o : oracles) (h : heap) (obs : dict nat nat) (topo topo_rv : list nid).
  Hypothesis Hct : contracts o.
  Hypothesis Hm : model_ok h obs.
  Hypothesis Htopo : topo_order h (dkeys obs) topo.
  Hypothesis Htopo_rv : topo_order h (rv_outputs h topo) topo_rv.

  Let rvs := rv_outputs h topo.

  Record parts (s : sampler) (i : ir) (outs : list vid) (inits : dict nat nat) (st0 st : state)
      (pss : dict nat nat) : Prop := Parts {
    pt_init : sampler_init o h obs topo topo_rv = (i, outs, inits, st0);
    pt_facts : init_facts o h obs topo i outs inits st0;
    pt_loop : process_all (o_order o) (ir_obs i) st0 outs = Ok st;
    pt_inloop : in_loop (ir_obs i) st0 outs;
    pt_inv : inv h st;
    pt_frame : frame st0 st;
    pt_nuts : nuts_facts o st (s_heap s) pss (s_updates s) (s_parameters s);
    pt_steps : forall rv w, dget (s_steps s) rv = Some w <->
      rv ∈ rvs /\ rv ∉ dkeys obs /\ dget pss (memo_get (ir_memo i) rv) = Some w;
    pt_steps_nodup : NoDup (dkeys (s_steps s));
    pt_inits : forall rv w, dget (s_init s) rv = Some w <->
      rv ∈ rvs /\ rv ∉ dkeys obs /\ dget inits (memo_get (ir_memo i) rv) = Some w;
    pt_inits_nodup : NoDup (dkeys (s_init s));
    pt_obs : forall rv, rv ∈ rvs -> memo_get (ir_memo i) rv ∈ dkeys (ir_obs i) <-> rv ∈ dkeys obs;
    pt_inj : forall r1 r2, r1 ∈ rvs -> r2 ∈ rvs -> memo_get (ir_memo i) r1 = memo_get (ir_memo i) r2 -> r1 = r2;
    pt_left : forall rv, rv ∈ rvs ->
      memo_get (ir_memo i) rv ∈ st_left st <-> rv ∉ dkeys obs /\ sampler_for o h obs topo topo_rv rv = None;
    pt_left_in : forall u, u ∈ st_left st -> exists rv, rv ∈ rvs /\ u = memo_get (ir_memo i) rv;
    pt_pss_keys : forall rv, rv ∈ rvs -> is_Some (dget pss (memo_get (ir_memo i) rv));
    pt_for : forall rv, sampler_for o h obs topo topo_rv rv = chosen (st_found st0) (memo_get (ir_memo i) rv);
    pt_updates : forall k, k ∈ dkeys (st_updates st) <-> exists rv f, rv ∈ rvs /\ rv ∉ dkeys obs /\
      sampler_for o h obs topo topo_rv rv = Some f /\ k ∈ dkeys (f_updates f);
  }.

  Lemma sampler_parts s :
    construct_sampler o h obs topo topo_rv = Ok s -> exists i outs inits st0 st pss, parts s i outs inits st0 st pss.
  Proof.
    intros Hs. apply construct_sampler_inv in Hs
      as (i & outs & inits & st0 & st & h4 & pss & upd & params & steps & iv & Hi & Hp & Hn & Hr1 & Hr2 & ->).
    pose proof (sampler_init_facts o h obs topo topo_rv Hct Hm Htopo Htopo_rv _ _ _ _ Hi) as Hf.
    set (cl := memo_get (ir_memo i)).
    assert (Hinj : forall r1 r2, r1 ∈ rvs -> r2 ∈ rvs -> cl r1 = cl r2 -> r1 = r2).
    { intros r1 r2 H1 H2 He. pose proof (if_n2o _ _ _ _ _ _ _ _ Hf r1 H1) as E1.
      pose proof (if_n2o _ _ _ _ _ _ _ _ Hf r2 H2) as E2. fold cl in E1, E2. rewrite He in E1. congruence. }
    assert (Hobs : forall rv, rv ∈ rvs -> cl rv ∈ dkeys (ir_obs i) <-> rv ∈ dkeys obs).
    { intros rv Hrv. rewrite (if_obs _ _ _ _ _ _ _ _ Hf). unfold dkeys at 1. rewrite extends_map_fst. fold cl.
      split.
      - intros Hin. apply elem_of_list_fmap in Hin as (k & Hk & Hkin). rewrite (Hinj rv k); [done|done| |done].
        apply (rv_outputs_spec h obs topo Htopo). by apply (mo_keys _ _ Hm).
      - intros Hin. apply elem_of_list_fmap. by exists rv. }
    assert (Hpss0 : dkeys (st_pss st0) = dkeys inits ++ dkeys (ir_obs i)).
    { rewrite (if_pss _ _ _ _ _ _ _ _ Hf). unfold dkeys. by rewrite map_app. }
    assert (Houts : forall u, u ∈ outs <-> exists rv, rv ∈ rvs /\ u = cl rv).
    { intros u. rewrite (if_outs _ _ _ _ _ _ _ _ Hf), elem_of_list_fmap. fold cl. fold rvs.
      split; intros (rv & ? & ?); by exists rv. }
    assert (Hpss0in : forall u, u ∈ outs <-> u ∈ dkeys (st_pss st0)).
    { intros u. rewrite Hpss0, elem_of_app, (if_inits_keys _ _ _ _ _ _ _ _ Hf), elem_of_list_filter. split.
      - intros Hu. destruct (decide (u ∈ dkeys (ir_obs i))); [by right|by left].
      - intros [[_ ?]|Hu]; [done|]. by apply (if_obs_in _ _ _ _ _ _ _ _ Hf). }
    assert (Hloop : in_loop (ir_obs i) st0 outs).
    { split; [apply (if_nodup _ _ _ _ _ _ _ _ Hf)|]. intros u Hu _. by apply Hpss0in. }
    destruct (process_all_spec (o_order o) (ct_order o Hct) h (ir_obs i) outs st0 st (if_inv _ _ _ _ _ _ _ _ Hf) Hloop Hp)
      as (Hinv & Hfr & _ & _).
    destruct (process_all_left (o_order o) (ct_order o Hct) h (ir_obs i) outs st0 st (if_inv _ _ _ _ _ _ _ _ Hf) Hloop Hp)
      as (Hleft & Hndl).
    assert (Hsf : forall rv, sampler_for o h obs topo topo_rv rv = chosen (st_found st0) (cl rv)).
    { intros rv. unfold sampler_for. rewrite Hi. by rewrite (if_found _ _ _ _ _ _ _ _ Hf). }
    rewrite (if_left _ _ _ _ _ _ _ _ Hf) in Hleft, Hndl.
    assert (Hnuts : nuts_facts o st h4 pss upd params).
    { apply (nuts_stage_facts o Hct st); try done.
      - apply (inv_good _ _ Hinv).
      - apply (inv_vals _ _ Hinv).
      - intros rv Hrv. rewrite (fr_keys _ _ Hfr). apply Hpss0in. apply Hleft in Hrv as [?%elem_of_nil|[? _]]; done.
      - apply Hndl. constructor. }
    assert (Hkeys : dkeys pss = dkeys (st_pss st0)) by (rewrite (nf_keys _ _ _ _ _ _ Hnuts); apply (fr_keys _ _ Hfr)).
    assert (Hndp : NoDup (dkeys pss)) by (rewrite Hkeys; apply (inv_nodup _ _ (if_inv _ _ _ _ _ _ _ _ Hf))).
    assert (Hn2o : forall rv, rv ∈ rvs -> dget (ir_new_to_old i) (cl rv) = Some rv) by apply (if_n2o _ _ _ _ _ _ _ _ Hf).
    assert (Hndf : NoDup (dkeys (filter (fun p => p.1 ∉ dkeys (ir_obs i)) pss))).
    { by apply NoDup_dkeys_filter. }
    destruct (rename_get _ _ steps cl rvs Hr1 Hndf) as [Hnds Hgs]; [|done|].
    { intros k Hk. apply elem_of_list_fmap in Hk as (p & -> & Hpin). apply elem_of_list_filter in Hpin as [_ Hpin].
      apply Houts. apply Hpss0in. rewrite <- Hkeys. apply elem_of_list_fmap. by exists p. }
    assert (Hndi : NoDup (dkeys inits)).
    { rewrite (if_inits_keys _ _ _ _ _ _ _ _ Hf). apply NoDup_filter. apply (if_nodup _ _ _ _ _ _ _ _ Hf). }
    destruct (rename_get _ _ iv cl rvs Hr2 Hndi) as [Hndv Hgv]; [|done|].
    { intros k Hk. rewrite (if_inits_keys _ _ _ _ _ _ _ _ Hf) in Hk. apply elem_of_list_filter in Hk as [_ Hk].
      by apply Houts. }
    exists i, outs, inits, st0, st, pss. constructor; cbn [s_heap s_steps s_updates s_parameters s_init]; try done.
    - intros rv w. rewrite Hgs. split.
      + intros [Hrv Hg]. apply dget_Some_in in Hg. apply elem_of_list_filter in Hg as [Hno Hg]. cbn in Hno.
        split_and!; [done|by rewrite <- Hobs|]. by apply dget_of_in.
      + intros (Hrv & Hno & Hg). split; [done|]. apply dget_of_in; [done|]. apply elem_of_list_filter. split.
        * cbn. by rewrite Hobs.
        * by apply dget_Some_in.
    - apply NoDup_dkeys_dof.
    - intros rv w. rewrite Hgv. split; [|tauto]. intros [Hrv Hg]. split_and!; try done.
      rewrite <- Hobs by done. assert (Hin : cl rv ∈ dkeys inits) by (apply dget_in; by eauto).
      rewrite (if_inits_keys _ _ _ _ _ _ _ _ Hf) in Hin. by apply elem_of_list_filter in Hin as [Hin _].
    - apply NoDup_dkeys_dof.
    - intros rv Hrv. fold cl. rewrite Hleft, Hsf, Hobs by done. split.
      + intros [?%elem_of_nil|(_ & ? & ?)]; done.
      + intros [? ?]. right. split_and!; try done. apply Houts. by exists rv.
    - intros u Hu. apply Hleft in Hu as [?%elem_of_nil|(Hu & _)]; [done|]. by apply Houts.
    - intros rv Hrv. apply dget_in. rewrite Hkeys. apply Hpss0in. apply Houts. by exists rv.
    - intros k. rewrite (process_all_updates (o_order o) (ct_order o Hct) h (ir_obs i) outs st0 st (if_inv _ _ _ _ _ _ _ _ Hf) Hloop Hp k).
      rewrite (if_upd _ _ _ _ _ _ _ _ Hf). split.
      + intros [?%elem_of_nil|(u & f & Hu & Hno & Hc & Hk)]; [done|]. apply Houts in Hu as (rv & Hrv & ->).
        exists rv, f. split_and!; try done; [by rewrite <- Hobs|by rewrite Hsf].
      + intros (rv & f & Hrv & Hno & Hc & Hk). right. exists (cl rv), f. split_and!; try done.
        * apply Houts. by exists rv.
        * by rewrite Hobs.
        * by rewrite <- Hsf.
  Qed.

  (** ** C01 *)
  Lemma steps_keys s : construct_sampler o h obs topo topo_rv = Ok s ->
    NoDup (dkeys (s_steps s)) /\ forall rv, rv ∈ dkeys (s_steps s) <-> model_rv h obs rv /\ rv ∉ dkeys obs.
  Proof.
    intros Hs. destruct (sampler_parts s Hs) as (i & outs & inits & st0 & st & pss & Hp).
    split; [apply (pt_steps_nodup _ _ _ _ _ _ _ Hp)|]. intros rv. rewrite dget_in.
    rewrite <- (rv_outputs_spec h obs topo Htopo). split.
    - intros [w Hw]. apply (pt_steps _ _ _ _ _ _ _ Hp) in Hw. tauto.
    - intros [Hrv Hno]. destruct (pt_pss_keys _ _ _ _ _ _ _ Hp rv Hrv) as [w Hw]. exists w.
      by apply (pt_steps _ _ _ _ _ _ _ Hp).
  Qed.

  (** ** C02 *)
  Lemma init_keys s : construct_sampler o h obs topo topo_rv = Ok s ->
    NoDup (dkeys (s_init s)) /\
    (forall rv, rv ∈ dkeys (s_init s) <-> model_rv h obs rv /\ rv ∉ dkeys obs) /\
    NoDup (dvalues (s_init s)) /\
    (forall rv w, dget (s_init s) rv = Some w -> hv h w = None /\
       exists x, hv h rv = Some x /\ hv (s_heap s) w = Some (Var (v_name x) (v_ty x) KPlain None)).
  Proof.
    intros Hs. destruct (sampler_parts s Hs) as (i & outs & inits & st0 & st & pss & Hp).
    pose proof (pt_facts _ _ _ _ _ _ _ Hp) as Hf.
    assert (Hnd := pt_inits_nodup _ _ _ _ _ _ _ Hp). split_and!; [done| | |].
    - intros rv. rewrite dget_in. rewrite <- (rv_outputs_spec h obs topo Htopo). split.
      + intros [w Hw]. apply (pt_inits _ _ _ _ _ _ _ Hp) in Hw. tauto.
      + intros [Hrv Hno]. assert (Hin : memo_get (ir_memo i) rv ∈ dkeys inits).
        { rewrite (if_inits_keys _ _ _ _ _ _ _ _ Hf). apply elem_of_list_filter. split.
          - by rewrite (pt_obs _ _ _ _ _ _ _ Hp).
          - rewrite (if_outs _ _ _ _ _ _ _ _ Hf). apply elem_of_list_fmap. by exists rv. }
        apply dget_in in Hin as [w Hw]. exists w. by apply (pt_inits _ _ _ _ _ _ _ Hp).
    - pose proof (if_inits_nodup _ _ _ _ _ _ _ _ Hf) as Hndv.
      assert (Hin : forall rv w, (rv, w) ∈ s_init s -> rv ∈ rvs /\ (memo_get (ir_memo i) rv, w) ∈ inits).
      { intros rv w Hin. apply (dget_of_in _ _ _ Hnd) in Hin. apply (pt_inits _ _ _ _ _ _ _ Hp) in Hin as (? & _ & ?).
        split; [done|]. by apply dget_Some_in. }
      assert (Hinj : forall k1 k2 w, (k1, w) ∈ inits -> (k2, w) ∈ inits -> k1 = k2).
      { intros k1 k2 w H1 H2. apply elem_of_list_lookup in H1 as [a Ha], H2 as [b Hb].
        assert (a = b) as ->; [|congruence]. eapply (NoDup_lookup (dvalues inits)); [done| |].
        - unfold dvalues. change (map snd inits) with (inits.*2). rewrite list_lookup_fmap, Ha. done.
        - unfold dvalues. change (map snd inits) with (inits.*2). rewrite list_lookup_fmap, Hb. done. }
      apply NoDup_dvalues; [done|]. intros r1 r2 w H1 H2.
      destruct (Hin r1 w) as [I1 J1]; [done|]. destruct (Hin r2 w) as [I2 J2]; [done|].
      apply (pt_inj _ _ _ _ _ _ _ Hp); eauto.
    - intros rv w Hw. apply (pt_inits _ _ _ _ _ _ _ Hp) in Hw as (Hrv & _ & Hw). apply dget_Some_in in Hw.
      destruct (if_inits _ _ _ _ _ _ _ _ Hf rv w Hrv Hw) as (H1 & x & H2 & H3). split; [done|].
      exists x. split; [done|]. apply (nf_ext _ _ _ _ _ _ (pt_nuts _ _ _ _ _ _ _ Hp)).
      by apply (fr_evolves _ _ (pt_frame _ _ _ _ _ _ _ Hp)).
  Qed.

  (** ** C08 and C04 *)
  Lemma model_kept s : construct_sampler o h obs topo topo_rv = Ok s -> extends h (s_heap s).
  Proof.
    intros Hs. destruct (sampler_parts s Hs) as (i & outs & inits & st0 & st & pss & Hp).
    eapply extends_trans; [apply (inv_ext _ _ (pt_inv _ _ _ _ _ _ _ Hp))|]. apply (nf_ext _ _ _ _ _ _ (pt_nuts _ _ _ _ _ _ _ Hp)).
  Qed.
  Lemma ir_kept : extends h (ir_heap (construct_ir_fgraph (o_canon o) h obs topo topo_rv)).
  Proof.
    destruct (sampler_init o h obs topo topo_rv) as [[[i outs] inits] st0] eqn:Hi.
    pose proof (sampler_init_facts o h obs topo topo_rv Hct Hm Htopo Htopo_rv _ _ _ _ Hi) as Hf.
    replace (construct_ir_fgraph (o_canon o) h obs topo topo_rv) with i; [apply (if_ext _ _ _ _ _ _ _ _ Hf)|].
    unfold sampler_init in Hi.
    set (ii := construct_ir_fgraph (o_canon o) h obs topo topo_rv) in *.
    destruct (o_finders o (ir_heap ii) (ir_outputs ii)) as [a b].
    destruct (expand_subsumptions (o_order o) a (ir_outputs ii)) as [c e].
    destruct (clone_all c (filter (fun rv => rv ∉ dkeys (ir_obs ii)) e)) as [k l]. by injection Hi as <- _ _ _.
  Qed.
  Lemma steps_acyclic s : construct_sampler o h obs topo topo_rv = Ok s -> acyclic (s_heap s).
  Proof.
    intros Hs. destruct (sampler_parts s Hs) as (i & outs & inits & st0 & st & pss & Hp).
    apply (nf_good _ _ _ _ _ _ (pt_nuts _ _ _ _ _ _ _ Hp)).
  Qed.

  (** ** C03 *)
  Lemma steps_clean s rv f w u :
    construct_sampler o h obs topo topo_rv = Ok s ->
    sampler_for o h obs topo topo_rv rv = Some f -> dget (s_steps s) rv = Some w ->
    reachable (s_heap s) [w] u ->
    ~ model_rv h obs u /\
    u ∉ ir_outputs (construct_ir_fgraph (o_canon o) h obs topo topo_rv) /\
    forall n j, owner (s_heap s) u = Some (n, j) -> ~ is_subsume (s_heap s) n.
  Proof.
    intros Hs Hfor Hw Hu. destruct (sampler_parts s Hs) as (i & outs & inits & st0 & st & pss & Hp).
    pose proof (pt_facts _ _ _ _ _ _ _ Hp) as Hf. pose proof (pt_nuts _ _ _ _ _ _ _ Hp) as Hn.
    pose proof (pt_inv _ _ _ _ _ _ _ Hp) as Hinv. pose proof (if_inv _ _ _ _ _ _ _ _ Hf) as Hinv0.
    apply (pt_steps _ _ _ _ _ _ _ Hp) in Hw as (Hrv & Hno & Hw).
    assert (Hnl : memo_get (ir_memo i) rv ∉ st_left st).
    { rewrite (pt_left _ _ _ _ _ _ _ Hp) by done. intros [_ ?]. congruence. }
    rewrite (nf_other _ _ _ _ _ _ Hn) in Hw by done.
    assert (Hwin : w ∈ (st_pss st).*2).
    { apply dget_Some_in in Hw. apply elem_of_list_fmap. by exists (memo_get (ir_memo i) rv, w). }
    destruct (inv_finished _ _ _ Hinv Hwin) as (Hws & Hpl & Hav).
    destruct (inv_good _ _ Hinv) as (Hwf & _).
    assert (Hu' : reachable (st_heap st) [w] u).
    { apply (extends_reachable (st_heap st) (s_heap s)); [done|apply (nf_ext _ _ _ _ _ _ Hn)|done|done]. }
    assert (Hus : is_Some (hv (st_heap st) u)).
    { eapply wf_reachable; [done| |exact Hu']. by intros r ->%elem_of_list_singleton. }
    (* what steps are made of *)
    set (S := fun v => hv (st_heap st0) v = None \/
       (exists k fs g, dget (st_found st0) k = Some fs /\ g ∈ fs /\ reachable (st_heap st0) (roots_of g) v) \/
       (exists x, x ∈ (st_pss st0).*2 /\ reachable (st_heap st0) [x] v)).
    assert (HSu : S u).
    { destruct (process_all_closed (o_order o) (ct_order o Hct) h (ir_obs i) S outs st0 st Hinv0
        (pt_inloop _ _ _ _ _ _ _ Hp) (pt_loop _ _ _ _ _ _ _ Hp)) as (Hc & Hv & _).
      - intros v z [Hv|[(k & fs & g & H1 & H2 & H3)|(x & H1 & H2)]] Hvz.
        + unfold input_of in Hvz. rewrite parents_no_owner in Hvz; [by apply elem_of_nil in Hvz|].
          unfold owner. by rewrite Hv.
        + right. left. exists k, fs, g. split_and!; try done. by eapply reachable_step.
        + right. right. exists x. split; [done|]. by eapply reachable_step.
      - by left.
      - intros x Hx. right. right. exists x. split; [done|]. apply reachable_root. by left.
      - intros k g r Hk _ Hc Hr. right. left. unfold chosen in Hc.
        destruct (dget (st_found st0) k) as [fs|] eqn:Hfs; [|done]. exists k, fs, g.
        split_and!; try done; [by apply last_elem|]. by apply reachable_root.
      - apply (closed_reachable S (st_heap st) [w] u Hc); [|done]. intros r ->%elem_of_list_singleton. by apply Hv. }
    split_and!.
    - intros Hmr. destruct (model_rv_owner h obs Hm u Hmr) as (n & nd & d & Ho & _).
      assert (Hhu : is_Some (hv h u)). { unfold owner in Ho. destruct (hv h u); [by eauto|done]. }
      destruct HSu as [Hv|[(k & fs & g & H1 & H2 & H3)|(x & H1 & H2)]].
      + destruct Hhu as [x Hx]. apply (inv_ext _ _ Hinv0) in Hx. congruence.
      + destruct (if_reach _ _ _ _ _ _ _ _ Hf k fs g u H1 H2 H3) as [Hx|Hx]; [|congruence].
        destruct Hhu. congruence.
      + rewrite (if_pss _ _ _ _ _ _ _ _ Hf), fmap_app in H1. apply elem_of_app in H1 as [H1|H1].
        * destruct H2 as (r & ->%elem_of_list_singleton & Hru). apply rtc_inv in Hru as [->|(z & Hz & _)].
          -- apply elem_of_list_fmap in H1 as ([k w'] & -> & Hin). cbn in *.
             assert (Hk : k ∈ dkeys inits) by (apply elem_of_list_fmap; by exists (k, w')).
             rewrite (if_inits_keys _ _ _ _ _ _ _ _ Hf) in Hk. apply elem_of_list_filter in Hk as [_ Hk].
             rewrite (if_outs _ _ _ _ _ _ _ _ Hf) in Hk. apply elem_of_list_fmap in Hk as (rv' & -> & Hrv').
             destruct (if_inits _ _ _ _ _ _ _ _ Hf rv' w' Hrv' Hin) as [Hnone _]. destruct Hhu as [xx Hxx]. change (hv h w' = Some xx) in Hxx. congruence.
          -- unfold input_of in Hz. rewrite parents_no_owner in Hz; [by apply elem_of_nil in Hz|].
             by apply (if_inits_new _ _ _ _ _ _ _ _ Hf).
        * assert (Hxv : x ∈ dvalues obs).
          { rewrite (if_obs _ _ _ _ _ _ _ _ Hf) in H1. apply elem_of_list_fmap in H1 as ([k w'] & -> & Hin).
            apply elem_of_list_fmap in Hin as ([k0 w0] & Heq & Hin). simplify_eq. cbn. apply elem_of_list_fmap. by exists (k0, w0). }
          apply (if_old_reach _ _ _ _ _ _ _ _ Hf x u Hxv) in H2. by apply (mo_data _ _ Hm x u Hxv Hmr).
    - intros Hin. apply (Hav u); [|done]. rewrite (fr_keys _ _ (pt_frame _ _ _ _ _ _ _ Hp)).
      assert (Hout : u ∈ outs).
      { assert (Hi := pt_init _ _ _ _ _ _ _ Hp). unfold sampler_init in Hi.
        set (ii := construct_ir_fgraph (o_canon o) h obs topo topo_rv) in *.
        destruct (o_finders o (ir_heap ii) (ir_outputs ii)) as [a b].
        destruct (expand_subsumptions (o_order o) a (ir_outputs ii)) as [c e].
        destruct (clone_all c (filter (fun rv => rv ∉ dkeys (ir_obs ii)) e)) as [k l].
        injection Hi as <- -> _ _. rewrite (if_outs _ _ _ _ _ _ _ _ Hf).
        unfold ii, construct_ir_fgraph in Hin |- *.
        pose proof (clone_ok h obs topo topo_rv Hm Htopo Htopo_rv) as Hcl.
        pose proof (memo_draw h obs topo topo_rv Hm Htopo Htopo_rv) as Hmc.
        destruct (clone_nodes h (dof (map (fun v => (v, v)) (dvalues obs))) topo_rv) as [h1 memo] eqn:Hcn.
        cbn [fst snd] in Hcl, Hmc.
        destruct (ct_canon o Hct h1 (memo_get memo <$> rv_outputs h topo) (ci_good _ _ _ _ _ Hcl)
          (ci_shuf _ _ _ _ _ Hcl)) as (C1 & _).
        { intros u0 Hu0. apply elem_of_list_fmap in Hu0 as (rv0 & -> & Hrv0). by apply Hmc. }
        destruct (o_canon o h1 (memo_get memo <$> rv_outputs h topo)) as [hI o2]. cbn [fst snd] in *. subst o2. exact Hin. }
      destruct (decide (u ∈ dkeys (ir_obs i))) as [Hd|Hd].
      + rewrite (if_pss _ _ _ _ _ _ _ _ Hf). unfold dkeys. rewrite map_app. apply elem_of_app. by right.
      + rewrite (if_pss _ _ _ _ _ _ _ _ Hf). unfold dkeys. rewrite map_app. apply elem_of_app. left.
        change (map fst inits) with (dkeys inits). rewrite (if_inits_keys _ _ _ _ _ _ _ _ Hf). by apply elem_of_list_filter.
    - intros n j Ho Hsub. rewrite (extends_owner_old (st_heap st)) in Ho; [|apply (nf_ext _ _ _ _ _ _ Hn)|done].
      apply (Hpl u n j Hu' Ho). destruct (wf_owner _ Hwf _ _ _ Ho) as (nd & Hnd & _).
      destruct Hsub as (nd' & sc & args & Hnd' & Hop). pose proof (proj2 (nf_ext _ _ _ _ _ _ Hn) _ _ Hnd) as Hnd2.
      assert (nd' = nd) as -> by congruence. by exists nd, sc, args.
  Qed.

  (** ** C06 *)
  Lemma nuts_left s : construct_sampler o h obs topo topo_rv = Ok s ->
    (s_parameters s = [] <->
       forall rv, model_rv h obs rv -> rv ∉ dkeys obs -> sampler_for o h obs topo topo_rv rv <> None) /\
    (s_parameters s <> [] -> exists n nd p,
       hn (s_heap s) n = Some nd /\ n_op nd = OOther (o_kernel o) /\ s_parameters s = [(o_kernel o, p)] /\
       (forall rv w, dget (s_steps s) rv = Some w ->
          (exists j, owner (s_heap s) w = Some (n, j)) <-> sampler_for o h obs topo topo_rv rv = None) /\
       (forall r1 r2 w, dget (s_steps s) r1 = Some w -> dget (s_steps s) r2 = Some w ->
          sampler_for o h obs topo topo_rv r1 = None -> sampler_for o h obs topo topo_rv r2 = None -> r1 = r2)).
  Proof.
    intros Hs. destruct (sampler_parts s Hs) as (i & outs & inits & st0 & st & pss & Hp).
    pose proof (pt_nuts _ _ _ _ _ _ _ Hp) as Hn. split.
    - rewrite (nf_params _ _ _ _ _ _ Hn). split.
      + intros Hl rv Hrv Hno Hnone. apply (rv_outputs_spec h obs topo Htopo) in Hrv.
        assert (Hin : memo_get (ir_memo i) rv ∈ st_left st) by (by apply (pt_left _ _ _ _ _ _ _ Hp)).
        rewrite Hl in Hin. by apply elem_of_nil in Hin.
      + intros Hall. destruct (st_left st) as [|u l] eqn:Hl; [done|exfalso].
        destruct (pt_left_in _ _ _ _ _ _ _ Hp u) as (rv & Hrv & ->); [rewrite Hl; by left|].
        assert (Hin : memo_get (ir_memo i) rv ∈ st_left st) by (rewrite Hl; by left).
        apply (pt_left _ _ _ _ _ _ _ Hp) in Hin as [Hno Hnone]; [|done].
        apply (Hall rv); try done. by apply (rv_outputs_spec h obs topo Htopo).
    - rewrite (nf_params _ _ _ _ _ _ Hn). intros Hne.
      destruct (nf_kernel _ _ _ _ _ _ Hn Hne) as (n & nd & K1 & K2 & K3 & K4 & K5 & K6 & K7 & K8 & K9).
      eexists n, nd, _. split_and!; [done|done|exact K9| |].
      + intros rv w Hw. apply (pt_steps _ _ _ _ _ _ _ Hp) in Hw as (Hrv & Hno & Hw). split.
        * intros [j Hj]. destruct (sampler_for o h obs topo topo_rv rv) as [f|] eqn:Hfor; [exfalso|done].
          assert (Hnl : memo_get (ir_memo i) rv ∉ st_left st).
          { rewrite (pt_left _ _ _ _ _ _ _ Hp) by done. intros [_ ?]. congruence. }
          rewrite (nf_other _ _ _ _ _ _ Hn) in Hw by done.
          assert (Hws : is_Some (hv (st_heap st) w)).
          { apply (inv_vals _ _ (pt_inv _ _ _ _ _ _ _ Hp)). apply dget_Some_in in Hw.
            apply elem_of_list_fmap. by exists (memo_get (ir_memo i) rv, w). }
          rewrite (extends_owner_old (st_heap st)) in Hj; [|apply (nf_ext _ _ _ _ _ _ Hn)|done].
          destruct (inv_good _ _ (pt_inv _ _ _ _ _ _ _ Hp)) as (Hwf & _).
          destruct (wf_owner _ Hwf _ _ _ Hj) as (nd' & Hnd' & _). congruence.
        * intros Hnone. destruct (K4 (memo_get (ir_memo i) rv)) as (w' & j & Hw' & Hj).
          { by apply (pt_left _ _ _ _ _ _ _ Hp). }
          assert (w' = w) as -> by congruence. by exists j.
      + intros r1 r2 w H1 H2 N1 N2.
        apply (pt_steps _ _ _ _ _ _ _ Hp) in H1 as (R1 & O1 & W1). apply (pt_steps _ _ _ _ _ _ _ Hp) in H2 as (R2 & O2 & W2).
        apply (pt_inj _ _ _ _ _ _ _ Hp); [done|done|]. apply (K5 _ _ w); try done; by apply (pt_left _ _ _ _ _ _ _ Hp).
  Qed.

  (** ** C10 *)
  Lemma updates_keys s : construct_sampler o h obs topo topo_rv = Ok s ->
    (forall rv f k, model_rv h obs rv -> rv ∉ dkeys obs -> sampler_for o h obs topo topo_rv rv = Some f ->
       k ∈ dkeys (f_updates f) -> k ∈ dkeys (s_updates s)) /\
    (forall k, k ∈ dkeys (s_updates s) ->
       (exists rv f, model_rv h obs rv /\ rv ∉ dkeys obs /\ sampler_for o h obs topo topo_rv rv = Some f /\
          k ∈ dkeys (f_updates f)) \/
       (exists rv w n j j' u, dget (s_steps s) rv = Some w /\ sampler_for o h obs topo topo_rv rv = None /\
          owner (s_heap s) w = Some (n, j) /\ dget (s_updates s) k = Some u /\ owner (s_heap s) u = Some (n, j'))).
  Proof.
    intros Hs. destruct (sampler_parts s Hs) as (i & outs & inits & st0 & st & pss & Hp).
    pose proof (pt_nuts _ _ _ _ _ _ _ Hp) as Hn. split.
    - intros rv f k Hrv Hno Hfor Hk. apply (rv_outputs_spec h obs topo Htopo) in Hrv.
      assert (Hin : k ∈ dkeys (st_updates st)). { apply (pt_updates _ _ _ _ _ _ _ Hp). by exists rv, f. }
      destruct (st_left st) as [|u l] eqn:Hl.
      + destruct (nf_none _ _ _ _ _ _ Hn Hl) as (_ & _ & ->). done.
      + destruct (nf_kernel _ _ _ _ _ _ Hn) as (n & nd & _ & _ & _ & _ & _ & _ & _ & K8 & _); [by rewrite Hl|]. by apply K8.
    - intros k Hk.
      assert (Hup : forall k, k ∈ dkeys (st_updates st) -> exists rv f, model_rv h obs rv /\ rv ∉ dkeys obs /\
          sampler_for o h obs topo topo_rv rv = Some f /\ k ∈ dkeys (f_updates f)).
      { intros k' Hk'. apply (pt_updates _ _ _ _ _ _ _ Hp) in Hk' as (rv & f & Hrv & ?).
        exists rv, f. split; [|done]. by apply (rv_outputs_spec h obs topo Htopo). }
      destruct (st_left st) as [|u l] eqn:Hl.
      + destruct (nf_none _ _ _ _ _ _ Hn Hl) as (_ & _ & E). rewrite E in Hk. left. by apply Hup.
      + destruct (nf_kernel _ _ _ _ _ _ Hn) as (n & nd & K1 & K2 & K3 & K4 & _ & K6 & _); [by rewrite Hl|].
        apply dget_in in Hk as [w Hw]. destruct (K6 k w Hw) as [Hold|(_ & j' & Hj')].
        * left. apply Hup. apply dget_in. by eauto.
        * right. assert (Hu : u ∈ st_left st) by (rewrite Hl; by left).
          destruct (pt_left_in _ _ _ _ _ _ _ Hp u Hu) as (rv & Hrv & ->).
          destruct (K4 _ Hu) as (x & j & Hx & Hj).
          apply (pt_left _ _ _ _ _ _ _ Hp) in Hu as [Hno Hnone]; [|done].
          exists rv, x, n, j, j', w. split_and!; try done. by apply (pt_steps _ _ _ _ _ _ _ Hp).
  Qed.

  (** ** C05 *)
  Lemma scan_steps s {D} (base : op -> list D -> option (list D)) cval (rho : vid -> option D) i outs inits st0 :
    construct_sampler o h obs topo topo_rv = Ok s ->
    sampler_init o h obs topo topo_rv = (i, outs, inits, st0) ->
    leaf_env (st_heap st0) rho ->
    (forall r1 r2 f g, r1 ∈ outs -> r2 ∈ outs -> r1 ∉ dkeys (ir_obs i) -> r2 ∉ dkeys (ir_obs i) -> r1 <> r2 ->
      chosen (st_found st0) r1 = Some f -> chosen (st_found st0) r2 = Some g -> separated (st_heap st0) outs f g) ->
    (forall rv g x v m j, rv ∈ outs -> rv ∉ dkeys (ir_obs i) -> chosen (st_found st0) rv = Some g ->
      x ∈ dvalues obs -> cut_reachable (st_heap st0) outs (roots_of g) v -> v ∉ outs ->
      owner (st_heap st0) v = Some (m, j) -> reads_model (st_heap st0) outs m -> ~ node_reachable h [x] m) ->
    forall sigma sigma' ups',
    (forall u, u ∉ outs -> sigma u = None) ->
    (forall k w, (k, w) ∈ inits ++ ir_obs i -> exists x, sigma k = Some x /\ evals base cval (st_heap st0) rho w x) ->
    scan base cval (st_heap st0) rho (ir_obs i) (st_found st0) outs (fun _ => None) sigma (fun _ => None) sigma' ups' ->
    (forall rv w f, sampler_for o h obs topo topo_rv rv = Some f -> dget (s_steps s) rv = Some w ->
       exists x, sigma' (memo_get (ir_memo i) rv) = Some x /\ evals base cval (s_heap s) rho w x) /\
    (forall k y, ups' k = Some y ->
       (exists u, dget (s_updates s) k = Some u /\ evals base cval (s_heap s) rho u y) \/
       (exists n nd, hn (s_heap s) n = Some nd /\ n_op nd = OOther (o_kernel o) /\ k ∈ n_ins nd)).
  Proof.
    intros Hs Hi Hleaf Hsep Hcur sigma sigma' ups' Hsig Hval Hscan.
    destruct (sampler_parts s Hs) as (i' & outs' & inits' & st0' & st & pss & Hp).
    pose proof (pt_init _ _ _ _ _ _ _ Hp) as Hi'. rewrite Hi in Hi'. injection Hi' as <- <- <- <-.
    pose proof (pt_facts _ _ _ _ _ _ _ Hp) as Hf. pose proof (pt_nuts _ _ _ _ _ _ _ Hp) as Hn.
    pose proof (pt_inv _ _ _ _ _ _ _ Hp) as Hinv. pose proof (if_inv _ _ _ _ _ _ _ _ Hf) as Hinv0.
    set (V := dkeys (st_pss st0)).
    assert (HV : forall u, u ∈ V <-> u ∈ outs).
    { intros u. unfold V. rewrite (if_pss _ _ _ _ _ _ _ _ Hf). unfold dkeys. rewrite map_app, elem_of_app.
      change (map fst inits) with (dkeys inits). rewrite (if_inits_keys _ _ _ _ _ _ _ _ Hf), elem_of_list_filter. split.
      - intros [[_ ?]|Hu]; [done|]. by apply (if_obs_in _ _ _ _ _ _ _ _ Hf).
      - intros Hu. destruct (decide (u ∈ dkeys (ir_obs i))); [by right|by left]. }
    assert (Hcut : forall hh roots v, cut_reachable hh V roots v -> cut_reachable hh outs roots v).
    { intros hh roots v Hv. induction Hv; [by apply cut_root|]. eapply cut_step; [done|by rewrite <- HV|done]. }
    assert (Hreads : forall hh n, reads_model hh V n -> reads_model hh outs n).
    { intros hh n (nd & u & H1 & H2 & H3). exists nd, u. split_and!; try done. rewrite <- HV. done. }
    destruct (scan_loop (o_order o) (ct_order o Hct) base cval h (ir_obs i) st0 rho Hinv0 Hleaf outs
        (pt_inloop _ _ _ _ _ _ _ Hp)) with (l := outs) (l1 := @nil vid) (first := fun _ : nid => @None (vid -> option D))
        (sigma := sigma) (ups := fun _ : vid => @None D) (sigma' := sigma') (ups' := ups') (st1 := st0) (st2 := st)
      as (first' & Hsi); try done.
    - intros r1 r2 f g H1 H2 H3 H4 H5 H6 H7 n j Hn'. destruct (Hsep r1 r2 f g H1 H2 H3 H4 H5 H6 H7 n j Hn') as [A1 A2].
      split.
      + intros Hj. destruct (A1 Hj) as [A3 A4]. split; [done|]. intros r Hr. destruct (A4 r Hr) as [A5 A6].
        split; [intros Hin; apply A5; by apply HV|done].
      + intros Hj v m j' Hv HvV Ho Hr. apply (A2 Hj v m j'); auto. by rewrite <- HV.
    - intros rv g w v m j H1 H2 H3 H4 H5 H6 H7 H8 H9.
      assert (Hz : w ∈ dvalues inits \/ w ∈ dvalues obs).
      { rewrite (if_pss _ _ _ _ _ _ _ _ Hf), fmap_app in H4. apply elem_of_app in H4 as [H4|H4]; [by left|right].
        rewrite (if_obs _ _ _ _ _ _ _ _ Hf) in H4. apply elem_of_list_fmap in H4 as ([k w'] & -> & Hin).
        apply elem_of_list_fmap in Hin as ([k0 w0] & Heq & Hin). simplify_eq. cbn. apply elem_of_list_fmap. by exists (k0, w0). }
      destruct H9 as (z & jz & Hzr & Hzo). destruct Hz as [Hz|Hz].
      + destruct Hzr as (r & ->%elem_of_list_singleton & Hru).
        pose proof (if_inits_new _ _ _ _ _ _ _ _ Hf w Hz) as How.
        apply rtc_inv in Hru as [->|(z' & Hz' & _)]; [congruence|].
        unfold input_of in Hz'. rewrite parents_no_owner in Hz' by done. by apply elem_of_nil in Hz'.
      + apply (Hcur rv g w v m j); auto; [by rewrite <- HV|].
        apply (if_old_reach _ _ _ _ _ _ _ _ Hf w z Hz) in Hzr. exists z, jz. split; [done|].
        rewrite <- Hzo. symmetry. apply extends_owner_old; [apply (inv_ext _ _ Hinv0)|].
        destruct (mo_good _ _ Hm) as (Hwf & _). eapply wf_reachable; [done| |exact Hzr].
        intros r ->%elem_of_list_singleton. by apply (mo_vals _ _ Hm).
    - apply (pt_loop _ _ _ _ _ _ _ Hp).
    - apply scan_inv_init.
      + intros u Hu. apply Hsig. by rewrite <- HV.
      + intros k w Hkw. apply Hval. apply dget_Some_in in Hkw. by rewrite (if_pss _ _ _ _ _ _ _ _ Hf) in Hkw.
    - assert (Hev : forall w x, is_Some (hv (st_heap st) w) -> evals base cval (st_heap st) rho w x -> evals base cval (s_heap s) rho w x).
      { intros w x Hw He. eapply (extends_evals base cval (st_heap st)); [apply (inv_good _ _ Hinv)|apply (nf_ext _ _ _ _ _ _ Hn)|done|done]. }
      split.
      + intros rv w f Hfor Hw. apply (pt_steps _ _ _ _ _ _ _ Hp) in Hw as (Hrv & Hno & Hw).
        assert (Hnl : memo_get (ir_memo i) rv ∉ st_left st).
        { rewrite (pt_left _ _ _ _ _ _ _ Hp) by done. intros [_ ?]. congruence. }
        rewrite (nf_other _ _ _ _ _ _ Hn) in Hw by done.
        destruct (si_val _ _ _ _ _ _ _ _ _ _ Hsi _ _ Hw) as (x & Hx & He). exists x. split; [done|].
        apply Hev; [|done]. apply (inv_vals _ _ Hinv). apply dget_Some_in in Hw.
        apply elem_of_list_fmap. by exists (memo_get (ir_memo i) rv, w).
      + intros k y Hk. destruct (si_ups _ _ _ _ _ _ _ _ _ _ Hsi k y Hk) as (u & Hu & Hfu & He).
        assert (Heu : evals base cval (s_heap s) rho u y) by (apply Hev; [apply Hfu|done]).
        destruct (st_left st) as [|l0 l] eqn:Hl.
        * destruct (nf_none _ _ _ _ _ _ Hn Hl) as (_ & _ & E). left. exists u. by rewrite E.
        * destruct (nf_kernel _ _ _ _ _ _ Hn) as (n & nd & K1 & K2 & K3 & K4 & _ & _ & K7 & _); [by rewrite Hl|].
          destruct (K7 k u Hu) as [?|?]; [left; by exists u|right]. by exists n, nd.
  Qed.
End final.
