(** Cloning of the model (construct_ir_fgraph): everything that is cloned is new,
    and the clones correspond one to one to the originals. *)
From Verif Require Export L_loop L_LibPy.

Lemma memo_add_keep olds : forall news memo v w,
  dget memo v = Some w -> dget (memo_add memo olds news) v = Some w.
Proof.
  induction olds as [|o olds IH]; intros news memo v w Hv; [done|].
  destruct news as [|x news]; [done|]. cbn. apply IH.
  destruct (dmem o memo) eqn:Hm; [done|]. rewrite dget_dset. case_decide; [|done]. subst.
  exfalso. apply dget_Some_in in Hv. unfold dmem in Hm. apply bool_decide_eq_false in Hm. apply Hm.
  apply elem_of_list_In. apply in_map_iff. exists (o, w). split; [done|]. by apply elem_of_list_In.
Qed.

Lemma memo_add_new olds : forall news memo v w,
  dget memo v = None -> dget (memo_add memo olds news) v = Some w ->
  exists i, olds !! i = Some v /\ news !! i = Some w.
Proof.
  induction olds as [|o olds IH]; intros news memo v w Hv Hw; cbn in Hw; [congruence|].
  destruct news as [|x news]; [congruence|].
  destruct (dmem o memo) eqn:Hm.
  - destruct (IH _ _ _ _ Hv Hw) as (i & Hi1 & Hi2). by exists (S i).
  - destruct (decide (v = o)) as [->|Hne].
    + rewrite (memo_add_keep _ _ _ o x) in Hw by (by rewrite dget_dset, decide_True).
      exists 0. cbn. split; [done|congruence].
    + apply IH in Hw as (i & Hi1 & Hi2); [by exists (S i)|]. by rewrite dget_dset, decide_False.
Qed.

Lemma memo_add_mem olds : forall news memo v,
  length olds = length news -> v ∈ olds -> is_Some (dget (memo_add memo olds news) v).
Proof.
  induction olds as [|o olds IH]; intros news memo v Hl Hv; [by apply elem_of_nil in Hv|].
  destruct news as [|x news]; [done|]. cbn in *. injection Hl as Hl.
  apply elem_of_cons in Hv as [->|Hv]; [|by apply IH].
  destruct (dmem o memo) eqn:Hm.
  - unfold dmem in Hm. apply bool_decide_eq_true in Hm.
    destruct (dget memo o) as [w|] eqn:Hw.
    + rewrite (memo_add_keep _ _ _ o w) by done. done.
    + apply dget_None in Hw. done.
  - rewrite (memo_add_keep _ _ _ o x); [done|]. by rewrite dget_dset, decide_True.
Qed.

Section clone.
  Context (h : heap) (vals : list vid).
  Hypothesis Hgood : good_heap h.
  Hypothesis Hshuf : shuffles_ok h.
  Hypothesis Hvals : forall v, v ∈ vals -> is_Some (hv h v).

  (** where a memoised variable goes *)
  Definition clone_of (hc : heap) (v w : vid) : Prop :=
    v ∉ vals /\ hv h w = None /\
    exists x x' n' i, hv h v = Some x /\ hv hc w = Some x' /\ v_name x' = v_name x /\
      v_ty x' = v_ty x /\ v_owner x' = Some (n', i) /\ hn h n' = None /\
      exists n nd nd', v_owner x = Some (n, i) /\ hn h n = Some nd /\ hn hc n' = Some nd' /\ n_op nd' = n_op nd.

  Record clone_inv (l : list nid) (hc : heap) (memo : dict nat nat) : Prop := CloneInv {
    ci_ext : extends h hc;
    ci_good : good_heap hc;
    ci_memo : forall v w, dget memo v = Some w -> (w = v /\ v ∈ vals) \/ clone_of hc v w;
    ci_inj : forall v1 v2 w, dget memo v1 = Some w -> dget memo v2 = Some w -> v1 = v2;
    ci_vals : forall v, v ∈ vals -> dget memo v = Some v;
    ci_done : forall n nd v, n ∈ l -> hn h n = Some nd -> v ∈ n_outs nd -> is_Some (dget memo v);
    ci_ins : forall n' nd' u, hn h n' = None -> hn hc n' = Some nd' -> u ∈ n_ins nd' ->
        hv h u = None \/ (is_Some (hv h u) /\ owner h u = None);
    ci_own : forall w x', hv h w = None -> hv hc w = Some x' ->
        exists n' i, v_owner x' = Some (n', i) /\ hn h n' = None;
    ci_shuf : shuffles_ok hc;
    (* a clone reads the clones of what the original reads *)
    ci_args : forall v w, dget memo v = Some w -> v ∉ vals ->
        exists n i nd n' nd', owner h v = Some (n, i) /\ hn h n = Some nd /\ owner hc w = Some (n', i) /\
          hn hc n' = Some nd' /\ n_op nd' = n_op nd /\ n_ins nd' = memo_get memo <$> n_ins nd /\
          (forall u, u ∈ n_ins nd -> owner h u = None \/ is_Some (dget memo u));
    ci_nosub : forall n', hn h n' = None -> is_subsume hc n' -> exists n, is_subsume h n;
  }.

  Lemma memo_get_some l hc memo u :
    clone_inv l hc memo -> is_Some (hv h u) -> is_Some (hv hc (memo_get memo u)).
  Proof.
    intros Hc Hu. unfold memo_get. destruct (dget memo u) as [w|] eqn:Hw.
    - apply (ci_memo _ _ _ Hc) in Hw as [[-> _]|(_ & _ & x & x' & n' & i & _ & Hx' & _)]; [|by eauto].
      eapply extends_some; [apply Hc|done].
    - eapply extends_some; [apply Hc|done].
  Qed.

  Lemma clone_step l hc memo n nd :
    clone_inv l hc memo -> hn h n = Some nd ->
    (forall u m i, u ∈ n_ins nd -> owner h u = Some (m, i) -> m ∈ l) ->
    (forall u, u ∈ n_ins nd -> u ∈ vals -> owner h u = None) ->
    let r := alloc_node hc (n_op nd) (memo_get memo <$> n_ins nd) (full_sig hc <$> n_outs nd) in
    clone_inv (l ++ [n]) r.1 (memo_add memo (n_outs nd) r.2).
  Proof.
    intros Hc Hn Htopo Hvo. cbn zeta.
    set (ins := memo_get memo <$> n_ins nd). set (tys := full_sig hc <$> n_outs nd).
    destruct (Hgood) as (Hwf & Hac & Hok). destruct (ci_good _ _ _ Hc) as (Hwfc & Hacc & Hokc).
    pose proof (ci_ext _ _ _ Hc) as Hexc.
    assert (Hins : forall u, u ∈ ins -> is_Some (hv hc u)).
    { intros u Hu. apply elem_of_list_fmap in Hu as (u0 & -> & Hu0).
      eapply memo_get_some; [done|]. by eapply (wf_ins h Hwf). }
    pose proof (alloc_node_extends hc (n_op nd) ins tys) as Hex.
    pose proof (alloc_node_wf hc (n_op nd) ins tys Hins Hwfc) as Hwf1.
    pose proof (alloc_node_acyclic hc (n_op nd) ins tys Hins Hwfc Hacc) as Hac1.
    pose proof (alloc_node_spec hc (n_op nd) ins tys) as (Hlen & Hnd & Hfr & Hval & Hold & Hnn & Hn1 & Hm).
    pose proof (alloc_node_out_some hc (n_op nd) ins tys) as Hout.
    set (n' := fresh (dom (h_nodes hc))) in *.
    destruct (alloc_node hc (n_op nd) ins tys) as [h1 outs] eqn:Hal. cbn [fst snd] in *.
    assert (Hlen' : length (n_outs nd) = length outs) by (rewrite Hlen; unfold tys; by rewrite fmap_length).
    assert (Hnone : forall v, hv hc v = None -> hv h v = None).
    { intros v Hv. destruct (hv h v) as [x|] eqn:Hx; [|done]. apply Hexc in Hx. congruence. }
    assert (Hnnone : forall m, hn hc m = None -> hn h m = None).
    { intros m Hmn. destruct (hn h m) as [x|] eqn:Hx; [|done]. apply Hexc in Hx. congruence. }
    constructor.
    - by eapply extends_trans.
    - split_and!; [done|done|]. intros m ndm s args Hmd Hop.
      destruct (decide (m = n')) as [->|Hne].
      + rewrite Hn1 in Hmd. simplify_eq. cbn in *. destruct (Hok _ _ _ _ Hn Hop) as [[o Ho] Hk].
        rewrite Ho in Hlen'. destruct outs as [|w [|]]; try done. split; [by eauto|].
        intros k ord Hin. unfold ins. rewrite fmap_length. by eapply Hk.
      + rewrite Hm in Hmd by done. by eapply Hokc.
    - intros v w Hw. destruct (dget memo v) as [w0|] eqn:Hw0.
      + rewrite (memo_add_keep _ _ _ v w0) in Hw by done. simplify_eq.
        apply (ci_memo _ _ _ Hc) in Hw0 as [?|(Hv & Hwn & x & x' & m & i & H1 & H2 & H3)]; [by left|right].
        destruct H3 as (H3 & H4 & H5 & H6 & n0 & nd0 & nd0' & H7 & H8 & H9 & H10).
        split_and!; [done|done|]. exists x, x', m, i. split_and!; try tauto; [by apply Hex|].
        exists n0, nd0, nd0'. split_and!; try done. by apply Hex.
      + destruct (memo_add_new _ _ _ _ _ Hw0 Hw) as (i & Hi1 & Hi2).
        assert (v ∉ vals). { intros Hv. apply (ci_vals _ _ _ Hc) in Hv. congruence. }
        right. split_and!; [done|apply Hnone, Hfr; by eapply elem_of_list_lookup_2|].
        pose proof (wf_outs h Hwf _ _ _ _ Hn Hi1) as Hown.
        unfold owner in Hown. destruct (hv h v) as [x|] eqn:Hx; [|done]. cbn in Hown.
        assert (Hsig : tys !! i = Some (v_name x, v_ty x)).
        { unfold tys. rewrite list_lookup_fmap, Hi1. cbn. unfold full_sig.
          by rewrite (proj1 Hexc _ _ Hx). }
        exists x, (Var (v_name x) (v_ty x) KPlain (Some (n', i))), n', i.
        split_and!; try done; [by apply Hval|by apply Hnnone|].
        exists n, nd, (Node (n_op nd) ins outs). split_and!; done.
    - intros v1 v2 w H1 H2.
      assert (Hcase : forall v, dget (memo_add memo (n_outs nd) outs) v = Some w ->
        (dget memo v = Some w /\ w ∉ outs) \/ exists i, n_outs nd !! i = Some v /\ outs !! i = Some w).
      { intros v Hv. destruct (dget memo v) as [w0|] eqn:Hw0.
        - left. rewrite (memo_add_keep _ _ _ v w0) in Hv by done. simplify_eq. split; [done|].
          intros Hin. apply Hfr in Hin.
          apply (ci_memo _ _ _ Hc) in Hw0 as [[-> Hvv]|(_ & _ & x & x' & m & i & _ & Hx' & _)]; [|congruence].
          destruct (Hvals _ Hvv) as [y Hy]. apply Hexc in Hy. congruence.
        - right. by eapply memo_add_new. }
      destruct (Hcase _ H1) as [[A1 A2]|(i & A1 & A2)], (Hcase _ H2) as [[B1 B2]|(j & B1 & B2)].
      + by eapply (ci_inj _ _ _ Hc).
      + exfalso. apply A2. by eapply elem_of_list_lookup_2.
      + exfalso. apply B2. by eapply elem_of_list_lookup_2.
      + pose proof (NoDup_lookup _ _ _ _ Hnd A2 B2). subst. congruence.
    - intros v Hv. apply memo_add_keep. by apply (ci_vals _ _ _ Hc).
    - intros m ndm v Hml Hmd Hv. apply elem_of_app in Hml as [Hml| ->%elem_of_list_singleton].
      + destruct (ci_done _ _ _ Hc _ _ _ Hml Hmd Hv) as [w Hw]. exists w. by apply memo_add_keep.
      + simplify_eq. by apply memo_add_mem.
    - intros m ndm u Hmn Hmd Hu. destruct (decide (m = n')) as [->|Hne].
      + rewrite Hn1 in Hmd. simplify_eq. cbn in Hu. apply elem_of_list_fmap in Hu as (u0 & -> & Hu0).
        pose proof (wf_ins h Hwf _ _ _ Hn Hu0) as Hu0s.
        unfold memo_get. destruct (dget memo u0) as [w|] eqn:Hw.
        * apply (ci_memo _ _ _ Hc) in Hw as [[-> Hv]|(_ & Hwn & _)]; [right|by left].
          split; [done|]. by apply Hvo.
        * right. split; [done|]. destruct (owner h u0) as [[m i]|] eqn:Hown; [|done].
          pose proof (Htopo _ _ _ Hu0 Hown) as Hml.
          destruct (wf_owner h Hwf _ _ _ Hown) as (ndm & Hndm & Hom).
          destruct (ci_done _ _ _ Hc m ndm u0 Hml Hndm) as [w Hw']; [by eapply elem_of_list_lookup_2|].
          congruence.
      + rewrite Hm in Hmd by done. by eapply (ci_ins _ _ _ Hc).
    - intros w x' Hwn Hx'. destruct (decide (w ∈ outs)) as [Hin|Hin].
      + destruct (Hout w Hin) as (k & nm & ty & _ & _ & Hx). rewrite Hx in Hx'. simplify_eq.
        exists n', k. split; [done|by apply Hnnone].
      + rewrite Hold in Hx' by done. by eapply (ci_own _ _ _ Hc).
    - destruct (ci_shuf _ _ _ Hc) as [S1 S2]. split.
      + intros m ndm ord Hmd Hop. destruct (decide (m = n')) as [->|Hne].
        * rewrite Hn1 in Hmd. simplify_eq. cbn in Hop. destruct (proj1 Hshuf _ _ _ Hn Hop) as [[x0 Hx0] [v0 Hv0]].
          cbn. split; [unfold ins; rewrite Hx0; by eexists|]. rewrite Hv0 in Hlen'.
          destruct outs as [|y [|]]; try done. by eexists.
        * rewrite Hm in Hmd by done. by eapply S1.
      + intros v x c Hx Hk. destruct (decide (v ∈ outs)) as [Hin|Hin].
        * destruct (Hout v Hin) as (k & nm & ty & _ & _ & Hx2). rewrite Hx2 in Hx. injection Hx as <-. done.
        * rewrite Hold in Hx by done. by eapply S2.
    - assert (Hkeep : forall ndx, (forall u, u ∈ n_ins ndx -> owner h u = None \/ is_Some (dget memo u)) ->
        (forall u, u ∈ n_ins ndx -> is_Some (hv h u)) ->
        memo_get (memo_add memo (n_outs nd) outs) <$> n_ins ndx = memo_get memo <$> n_ins ndx /\
        (forall u, u ∈ n_ins ndx -> owner h u = None \/ is_Some (dget (memo_add memo (n_outs nd) outs) u))).
      { intros ndx Hx Hxs. split.
        - apply list_fmap_ext. intros k u Hu. apply elem_of_list_lookup_2 in Hu. unfold memo_get.
          destruct (dget memo u) as [w|] eqn:Hw; [by rewrite (memo_add_keep _ _ _ u w)|].
          destruct (dget (memo_add memo (n_outs nd) outs) u) as [w|] eqn:Hw'; [|done].
          destruct (memo_add_new _ _ _ _ _ Hw Hw') as (j & Hj1 & Hj2).
          pose proof (wf_outs h Hwf _ _ _ _ Hn Hj1) as Hown. destruct (Hx u Hu) as [Hx'|[? Hx']]; congruence.
        - intros u Hu. destruct (Hx u Hu) as [?|[w Hw]]; [by left|right]. exists w. by apply memo_add_keep. }
      intros v w Hw Hv. destruct (dget memo v) as [w0|] eqn:Hw0.
      + rewrite (memo_add_keep _ _ _ v w0) in Hw by done. injection Hw as <-.
        destruct (ci_args _ _ _ Hc v w0 Hw0 Hv) as (n0 & i & nd0 & n0' & nd0' & G1 & G2 & G3 & G4 & G5 & G6 & G7).
        destruct (Hkeep nd0 G7) as [K1 K2]; [intros u Hu; by eapply (wf_ins h Hwf)|].
        exists n0, i, nd0, n0', nd0'. split_and!; try done; [by eapply extends_owner|by apply Hex|]. by rewrite K1.
      + destruct (memo_add_new _ _ _ _ _ Hw0 Hw) as (i & Hi1 & Hi2).
        pose proof (wf_outs h Hwf _ _ _ _ Hn Hi1) as Hown.
        assert (Hmemo : forall u, u ∈ n_ins nd -> owner h u = None \/ is_Some (dget memo u)).
        { intros u Hu. destruct (owner h u) as [[m j]|] eqn:Ho; [right|by left].
          destruct (wf_owner h Hwf _ _ _ Ho) as (ndm & Hndm & Hom).
          apply (ci_done _ _ _ Hc m ndm u); [by eapply Htopo|done|]. by eapply elem_of_list_lookup_2. }
        destruct (Hkeep nd Hmemo) as [K1 K2]; [intros u Hu; by eapply (wf_ins h Hwf)|].
        exists n, i, nd, n', (Node (n_op nd) ins outs). split_and!; try done.
        assert (Hw2 : exists sg, tys !! i = Some sg).
        { apply lookup_lt_is_Some. unfold tys. rewrite fmap_length. by eapply lookup_lt_Some. }
        destruct Hw2 as [[nm ty] Hsg]. unfold owner. by rewrite (Hval i w nm ty Hi2 Hsg).
    - intros m Hmn (ndm & s & args & Hmd & Hop). destruct (decide (m = n')) as [->|Hne].
      + rewrite Hn1 in Hmd. simplify_eq. cbn in Hop. exists n. by exists nd, s, args.
      + rewrite Hm in Hmd by done. apply (ci_nosub _ _ _ Hc m Hmn). by exists ndm, s, args.
  Qed.

  Lemma clone_nodes_inv roots topo hc memo :
    topo_order h roots topo ->
    (forall u, reachable h roots u -> u ∈ vals -> owner h u = None) ->
    clone_inv [] hc memo -> hc = h ->
    let r := clone_nodes hc memo topo in clone_inv topo r.1 r.2.
  Proof.
    intros Htopo Hvo Hinv ->. cbn zeta.
    assert (Hgen : forall l2 l1 hc memo, topo = l1 ++ l2 -> clone_inv l1 hc memo ->
      clone_inv topo (clone_nodes hc memo l2).1 (clone_nodes hc memo l2).2).
    { induction l2 as [|n l2 IH]; intros l1 hc memo' Heq Hc.
      - rewrite app_nil_r in Heq. subst. done.
      - assert (node_reachable h roots n) as Hnr.
        { apply Htopo. rewrite Heq. apply elem_of_app. right. by left. }
        assert (exists nd, hn h n = Some nd) as [nd Hn].
        { destruct Hnr as (v & i & _ & Ho). destruct Hgood as (Hwf & _).
          destruct (wf_owner h Hwf _ _ _ Ho) as (nd & Hnd & _). by eauto. }
        cbn. rewrite (proj2 (ci_ext _ _ _ Hc) _ _ Hn).
        pose proof (clone_step l1 hc memo' n nd Hc Hn) as Hstep. cbn zeta in Hstep.
        destruct (alloc_node hc (n_op nd) (memo_get memo' <$> n_ins nd) (full_sig hc <$> n_outs nd)) as [h1 outs].
        cbn [fst snd] in Hstep. apply (IH (l1 ++ [n])).
        + by rewrite <- app_assoc.
        + apply Hstep.
          * intros u m i Hu Ho. by eapply (proj2 Htopo).
          * intros u Hu. apply Hvo. by eapply node_reachable_ins. }
    by apply (Hgen topo []).
  Qed.
End clone.
