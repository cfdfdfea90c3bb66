From Verif Require Export S_subsume L_inline.

Lemma extends_evals_inv {D} (base : op -> list D -> option (list D)) cval h h' rho x y :
  wf_heap h -> extends h h' -> is_Some (hv h x) ->
  evals base cval h' rho x y -> evals base cval h rho x y.
Proof.
  intros Hwf Hex Hx He. pose proof (extends_agree h h' x Hwf Hex Hx) as [Ha1 Ha2].
  assert (Hown : forall v, reachable h [x] v -> owner h' v = owner h v).
  { intros v Hv. unfold owner. by rewrite Ha1. }
  eapply (evals_agree base cval (reachable h [x]) h' h rho rho).
  - intros v u Hv Hu. eapply reachable_step; [exact Hv|].
    apply (extends_input_of h h'); [done|done| |done].
    eapply wf_reachable; [done| |exact Hv]. by intros r ->%elem_of_list_singleton.
  - split.
    + intros v Hv. by rewrite Ha1.
    + intros v n i Hv Ho. rewrite Hown in Ho by done. by rewrite (Ha2 v n i).
  - done.
  - done.
  - apply reachable_root. by left.
Qed.

Lemma extends_evals_iff {D} (base : op -> list D -> option (list D)) cval h h' rho x y :
  wf_heap h -> extends h h' -> is_Some (hv h x) ->
  evals base cval h rho x y <-> evals base cval h' rho x y.
Proof. intros. split; [by apply extends_evals|by apply extends_evals_inv]. Qed.

Lemma shuffle_of_extends h h' v o x : extends h h' -> shuffle_of h v o x -> shuffle_of h' v o x.
Proof. intros Hex (m & Ho & Hn). exists m. split; [by eapply extends_owner|by apply Hex]. Qed.

Lemma extends_fresh h h' v : extends h h' -> hv h' v = None -> hv h v = None.
Proof. intros Hex Hv. destruct (hv h v) as [x|] eqn:Hx; [|done]. apply Hex in Hx. congruence. Qed.

(** value of a shuffled variable *)
Lemma evals_shuffle {D} (base : op -> list D -> option (list D)) cval h rho v o x y :
  rho v = None -> shuffle_of h v o x ->
  evals base cval h rho v y <-> exists a, evals base cval h rho x a /\ shuffle base o a = Some y.
Proof.
  intros Hv (m & Ho & Hn). split.
  - intros He. inversion He as [|? w c _ Hw Hwo|? n i nd xs ys ? _ Ho' Hn' Hl Hs Hi]; subst; [congruence| |].
    + unfold owner in Ho. rewrite Hw in Ho. cbn in Ho. congruence.
    + rewrite Ho in Ho'. injection Ho' as <- <-. rewrite Hn in Hn'. injection Hn' as <-. cbn in *.
      inversion Hl as [|? ? a ? Ha Hnil]; subst. inversion Hnil; subst.
      exists a. split; [done|]. unfold shuffle. rewrite Hs. done.
  - intros (a & Ha & Hs). unfold shuffle in Hs. destruct (base (ODimShuffle o) [a]) as [ys|] eqn:Hb; [|done].
    cbn in Hs. eapply (ev_app _ _ _ _ _ m 0); [done|exact Ho|exact Hn| |exact Hb|done].
    cbn. constructor; [done|constructor].
Qed.

Inductive item_rel (h0 h : heap) (i : vid) : item -> Prop :=
  | ir_keep : item_rel h0 h i (Item i None (Some i))
  | ir_ds x o : shuffle_of h i o x -> item_rel h0 h i (Item x (Some o) (Some i))
  | ir_split x y k o :
      shuffle_of h i (replicate k None ++ o) x -> shuffle_of h y o x -> hv h0 y = None ->
      item_rel h0 h i (Item y (Some (replicate k None ++ dims (length o))) None).

Lemma item_rel_extends h0 h h' i it : extends h h' -> item_rel h0 h i it -> item_rel h0 h' i it.
Proof. intros Hex Hi. inversion Hi; subst; econstructor; eauto using shuffle_of_extends. Qed.

Lemma item_rel_base h0 h0' h i it : extends h0 h0' -> item_rel h0' h i it -> item_rel h0 h i it.
Proof. intros Hex Hi. inversion Hi; subst; econstructor; eauto using extends_fresh. Qed.

(** a new DimShuffle *)
Lemma alloc_shuffle h o x ty h1 y ys :
  wf_heap h -> acyclic h -> shuffles_ok h -> is_Some (hv h x) ->
  alloc_node h (ODimShuffle o) [x] [(None, ty)] = (h1, y :: ys) ->
  extends h h1 /\ wf_heap h1 /\ acyclic h1 /\ shuffles_ok h1 /\ no_new_subsume h h1 /\
  shuffle_of h1 y o x /\ hv h y = None.
Proof.
  intros Hwf Hac [Hs1 Hs2] Hx Hal.
  assert (Hin1 : forall u, u ∈ [x] -> is_Some (hv h u)) by (by intros u ->%elem_of_list_singleton).
  pose proof (alloc_node_extends h (ODimShuffle o) [x] [(None, ty)]) as Hex.
  pose proof (alloc_node_wf h (ODimShuffle o) [x] [(None, ty)] Hin1 Hwf) as Hwf2.
  pose proof (alloc_node_acyclic h (ODimShuffle o) [x] [(None, ty)] Hin1 Hwf Hac) as Hac2.
  pose proof (alloc_node_no_subsume h (ODimShuffle o) [x] [(None, ty)] I) as Hns.
  pose proof (alloc_node_spec h (ODimShuffle o) [x] [(None, ty)]) as Hsp.
  rewrite Hal in Hex, Hwf2, Hac2, Hns, Hsp. cbn [fst snd] in *.
  destruct Hsp as (Hlen & _ & Hfr & Hval & Holdv & Hnn & Hn1 & Hn2).
  destruct ys as [|? ?]; [|done].
  pose proof (Hval 0 y _ _ eq_refl eq_refl) as Hy.
  split_and!; try done.
  - split.
    + intros n nd o' Hn Ho'. destruct (decide (n = fresh (dom (h_nodes h)))) as [->|Hne].
      * rewrite Hn1 in Hn. injection Hn as <-. cbn. eauto.
      * rewrite Hn2 in Hn by done. by eapply Hs1.
    + intros v xv c Hv Hk. destruct (decide (v ∈ [y])) as [Hin|Hin].
      * apply elem_of_list_singleton in Hin as ->. rewrite Hy in Hv. injection Hv as <-. done.
      * rewrite Holdv in Hv by done. by eapply Hs2.
  - exists (fresh (dom (h_nodes h))). split; [unfold owner; by rewrite Hy|done].
  - apply Hfr. by left.
Qed.

Lemma replicate_forall (l : list (option nat)) : l = replicate (length l) None -> exists k, l = replicate k None.
Proof. eauto. Qed.

Section loop.
  Context (T : tyops) (out_ndim : nat).

  Lemma subsume_arg_spec h i h1 it b :
    subsume_arg T out_ndim h i = (h1, it, b) ->
    wf_heap h -> acyclic h -> shuffles_ok h -> is_Some (hv h i) ->
    extends h h1 /\ wf_heap h1 /\ acyclic h1 /\ shuffles_ok h1 /\ no_new_subsume h h1 /\
    item_rel h h1 i it /\ is_Some (hv h1 (it_new it)).
  Proof.
    intros Ha Hwf Hac Hsh Hi.
    assert (Hkeep : (h, Item i None (Some i), false) = (h1, it, b) ->
      extends h h1 /\ wf_heap h1 /\ acyclic h1 /\ shuffles_ok h1 /\ no_new_subsume h h1 /\
      item_rel h h1 i it /\ is_Some (hv h1 (it_new it))).
    { intros [= <- <- <-]. split_and!; try done; [|constructor]. intros n nd. congruence. }
    unfold subsume_arg in Ha. destruct (owner h i) as [[m j]|] eqn:Ho; [|by apply Hkeep].
    destruct (hn h m) as [nd|] eqn:Hn; [|by apply Hkeep].
    destruct nd as [nop nins nouts]. destruct nop as [ | |ds_order| | | ]; try (by apply Hkeep).
    destruct nins as [|x [|? ?]]; try (by apply Hkeep).
    destruct (ty_of h x) as [ty|] eqn:Hty; [|by apply Hkeep].
    assert (Hx : is_Some (hv h x)).
    { unfold ty_of in Hty. destruct (hv h x); [done|by cbn in Hty]. }
    assert (Hof : shuffle_of h i ds_order x).
    { destruct (proj1 Hsh _ _ _ Hn eq_refl) as [_ [v Hv]]. cbn in Hv. subst nouts.
      destruct (wf_owner h Hwf _ _ _ Ho) as (nd & Hn' & Hj). rewrite Hn in Hn'. injection Hn' as <-. cbn in Hj.
      destruct j as [|j]; [|done]. cbn in Hj. injection Hj as ->. by exists m. }
    destruct (py_split out_ndim (t_ndim T ty) ds_order) as [el new] eqn:Hsp.
    assert (Hcat : ds_order = el ++ new).
    { unfold py_split in Hsp. injection Hsp as <- <-. by rewrite take_drop. }
    case_decide as Hel; [by apply Hkeep|]. case_decide as Hnew.
    - injection Ha as <- <- <-. split_and!; try done; [|by constructor]. intros n nd. congruence.
    - destruct (alloc_node h (ODimShuffle new) [x] [(None, t_shuffle T ty new)]) as [h2 ys] eqn:Hal.
      destruct ys as [|y ys]; [by apply Hkeep|]. injection Ha as <- <- <-.
      destruct (alloc_shuffle _ _ _ _ _ _ _ Hwf Hac Hsh Hx Hal) as (A1 & A2 & A3 & A4 & A5 & A6 & A7).
      assert (Hek : el = replicate (length el) None).
      { destruct (decide (el = replicate (length el) None)); [done|]. exfalso. apply Hel. by right. }
      split_and!; try done.
      + rewrite Hek. apply (ir_split _ _ _ x); [|done|done]. rewrite <- Hek, <- Hcat. by eapply shuffle_of_extends.
      + change (is_Some (hv h2 y)). destruct A6 as (m' & Ho' & _). unfold owner in Ho'. destruct (hv h2 y); [done|by cbn in Ho'].
  Qed.

  Lemma subsume_args_spec ins : forall h h1 its b,
    subsume_args T out_ndim h ins = (h1, its, b) ->
    wf_heap h -> acyclic h -> shuffles_ok h -> (forall i, i ∈ ins -> is_Some (hv h i)) ->
    extends h h1 /\ wf_heap h1 /\ acyclic h1 /\ shuffles_ok h1 /\ no_new_subsume h h1 /\
    Forall2 (item_rel h h1) ins its /\ (forall it, it ∈ its -> is_Some (hv h1 (it_new it))).
  Proof.
    induction ins as [|i ins IH]; intros h h1 its b Ha Hwf Hac Hsh Hins; cbn in Ha.
    { injection Ha as <- <- <-. split_and!; try done; [|by intros ? ?%elem_of_nil]. intros n nd. congruence. }
    destruct (subsume_arg T out_ndim h i) as [[ha it] b1] eqn:H1.
    destruct (subsume_args T out_ndim ha ins) as [[hb its'] b2] eqn:H2.
    injection Ha as <- <- <-.
    destruct (subsume_arg_spec _ _ _ _ _ H1 Hwf Hac Hsh) as (A1 & A2 & A3 & A4 & A5 & A6 & A7); [apply Hins; by left|].
    destruct (IH _ _ _ _ H2 A2 A3 A4) as (B1 & B2 & B3 & B4 & B5 & B6 & B7).
    { intros j Hj. eapply extends_some; [done|]. apply Hins. by right. }
    split_and!; try done.
    - by eapply extends_trans.
    - by eapply no_new_subsume_trans.
    - constructor; [by eapply item_rel_extends|]. eapply Forall2_impl; [exact B6|]. intros. by eapply item_rel_base.
    - intros it' [->|Hit]%elem_of_cons; [by eapply extends_some|by apply B7].
  Qed.
End loop.

Lemma last_index_lookup v l k : last_index v l = Some k -> l !! k = Some v.
Proof.
  revert k. induction l as [|x l IH]; intros k; cbn; [done|].
  destruct (last_index v l) as [k'|].
  - intros [= <-]. cbn. by apply IH.
  - case_decide; [|done]. intros [= <-]. cbn. by subst.
Qed.
Lemma last_index_None v l : last_index v l = None <-> v ∉ l.
Proof.
  induction l as [|x l IH]; cbn; [split; [intros _; apply not_elem_of_nil|done]|].
  rewrite not_elem_of_cons. destruct (last_index v l) as [k'|].
  - split; [done|]. intros [_ H]. by apply IH in H.
  - case_decide; split; try done.
    + by intros [? _].
    + intros _. split; [done|by apply IH].
Qed.

Lemma is_constant_const_of h v : is_constant h v = true <-> is_Some (const_of h v).
Proof.
  unfold is_constant, const_of. destruct (hv h v) as [[nm ty [c|u|] ow]|]; split; try done; by intros [].
Qed.

Lemma elem_of_remove_constants h vs v :
  v ∈ remove_constants h (PVar <$> vs) <-> v ∈ vs /\ is_constant h v = false.
Proof.
  induction vs as [|w vs IH]; cbn; [set_solver|].
  destruct (is_constant h w) eqn:Hw; rewrite ?elem_of_cons, IH.
  - split; [intros [? ?]; eauto|]. intros [[->|?] ?]; [congruence|done].
  - split; [intros [->|[? ?]]; eauto|]. intros [[->|?] ?]; [by left|right; done].
Qed.

Section node.
  Context (T : tyops) (h : heap) (n : nid) (h2 : heap) (old new : vid).
  Hypothesis Hgood : good_heap h.
  Hypothesis Hsh : shuffles_ok h.
  Hypothesis Hsub : subsume_node T h n = Ok (Some (h2, old, new)).

  Lemma subsume_node_parts :
    exists s ins ty h1 items used args ws,
      hn h n = Some (Node (OElem s) ins [old]) /\ ty_of h old = Some ty /\
      subsume_args T (t_ndim T ty) h ins = (h1, items, true) /\
      used = remove_constants h1 (PVar <$> (it_new <$> items)) /\
      mapM (inner_arg h1 used) items = Some args /\
      existsb (is_shared_var h1) used = false /\
      alloc_node h1 (OSubsume s args) used [(None, ty)] = (h2, new :: ws).
  Proof.
    unfold subsume_node in Hsub. destruct (hn h n) as [[nop ins outs]|] eqn:Hn; [|done].
    destruct nop as [|s| | | | ]; try done. destruct outs as [|out more]; [done|].
    destruct (ty_of h out) as [ty|] eqn:Hty; [|done].
    destruct (subsume_args T (t_ndim T ty) h ins) as [[h1 items] found] eqn:Ha. destruct found; [|done].
    destruct (existsb (is_shared_var h1) _) eqn:Hsv; [done|].
    destruct (mapM (inner_arg h1 _) items) as [args|] eqn:Hm; [|done].
    destruct more; [|done].
    destruct (alloc_node h1 (OSubsume s args) _ [(None, ty)]) as [hx ws] eqn:Hal.
    destruct ws as [|w ws]; [done|]. injection Hsub as <- <- <-.
    exists s, ins, ty, h1, items. eexists _, args, ws. split_and!; done.
  Qed.

  Lemma subsume_node_extends : extends h h2 /\ good_heap h2 /\ shuffles_ok h2 /\
    owner h old = Some (n, 0) /\ hv h new = None /\ is_Some (hv h2 new) /\ ty_of h2 new = ty_of h2 old.
  Proof.
    destruct subsume_node_parts as (s & ins & ty & h1 & items & used & args & ws & Hn & Hty & Ha & Hu & Hm & Hsv & Hal).
    destruct Hgood as (Hwf & Hac & Hok).
    assert (Hins : forall i, i ∈ ins -> is_Some (hv h i)) by (intros i Hi; by eapply (wf_ins h Hwf)).
    destruct (subsume_args_spec T _ _ _ _ _ _ Ha Hwf Hac Hsh Hins) as (A1 & A2 & A3 & A4 & A5 & A6 & A7).
    assert (Hused : forall u, u ∈ used -> is_Some (hv h1 u)).
    { intros u. rewrite Hu. intros [Hin _]%elem_of_remove_constants.
      apply elem_of_list_fmap in Hin as (it & -> & Hit). by apply A7. }
    pose proof (alloc_node_extends h1 (OSubsume s args) used [(None, ty)]) as Hex.
    pose proof (alloc_node_wf h1 (OSubsume s args) used [(None, ty)] Hused A2) as Hwf2.
    pose proof (alloc_node_acyclic h1 (OSubsume s args) used [(None, ty)] Hused A2 A3) as Hac2.
    pose proof (alloc_node_spec h1 (OSubsume s args) used [(None, ty)]) as Hsp.
    rewrite Hal in Hex, Hwf2, Hac2, Hsp. cbn [fst snd] in *.
    destruct Hsp as (Hlen & _ & Hfr & Hval & Holdv & Hnn & Hn1 & Hn2).
    destruct ws; [|done]. pose proof (Hval 0 new _ _ eq_refl eq_refl) as Hy.
    assert (Hold : is_Some (hv h old)) by (unfold ty_of in Hty; destruct (hv h old); [done|by cbn in Hty]).
    unfold good_heap. split_and!.
    - by eapply extends_trans.
    - done.
    - done.
    - intros m nd s' args' Hm' Hop. destruct (decide (m = fresh (dom (h_nodes h1)))) as [->|Hne].
      + rewrite Hn1 in Hm'. injection Hm' as <-. cbn in *. injection Hop as <- <-. split; [by eexists|].
        intros k ord Hin. apply mapM_Some_1 in Hm. rewrite Forall2_lookup in Hm.
        apply elem_of_list_lookup in Hin as [j Hj]. specialize (Hm j). rewrite Hj in Hm.
        inversion Hm as [it ? Hia Hitj|]; subst. rename Hia into Hia.
        assert (Hli : exists v, last_index v (remove_constants h1 (PVar <$> (it_new <$> items))) = Some k).
        { unfold inner_arg in Hia. destruct (a ← it_arg it; last_index a _) as [k'|] eqn:Hk'.
          - injection Hia as -> _. destruct (it_arg it) as [a|]; [|done]. by exists a.
          - unfold inner_leaf in Hia. destruct (last_index (it_new it) _) as [k''|] eqn:Hk''.
            + injection Hia as -> _. by exists (it_new it).
            + destruct (const_of h1 (it_new it)); cbn in Hia; done. }
        destruct Hli as [v Hli]. apply last_index_lookup in Hli. by eapply lookup_lt_Some.
      + rewrite Hn2 in Hm' by done. by eapply (no_new_subsume_ok h h1).
    - split.
      + intros m nd o Hm' Hop. destruct (decide (m = fresh (dom (h_nodes h1)))) as [->|Hne].
        * rewrite Hn1 in Hm'. injection Hm' as <-. done.
        * rewrite Hn2 in Hm' by done. by eapply (proj1 A4).
      + intros v x c Hv Hk. destruct (decide (v ∈ [new])) as [Hin|Hin].
        * apply elem_of_list_singleton in Hin as ->. rewrite Hy in Hv. injection Hv as <-. done.
        * rewrite Holdv in Hv by done. by eapply (proj2 A4).
    - by eapply (wf_outs h Hwf).
    - eapply extends_fresh; [exact A1|]. apply Hfr. by left.
    - by rewrite Hy.
    - unfold ty_of at 1. rewrite Hy. cbn. rewrite (extends_ty h h2 old); [done| |done]. by eapply extends_trans.
  Qed.

  Context {D : Type} (base : op -> list D -> option (list D)) (cval : nat -> D) (rho : vid -> option D).
  Hypothesis Hlaw : shuffle_law base.
  Hypothesis Henv : env_on h rho.
  Hypothesis Hrc : forall v, is_constant h v = true -> rho v = None.
  Hypothesis Hro : rho old = None.
  Hypothesis Hrs : forall i o x, input_of h old i -> shuffle_of h i o x -> rho i = None.

  Lemma subsume_node_value x : evals base cval h rho old x <-> evals base cval h2 rho new x.
  Proof.
    destruct subsume_node_parts as (s & ins & ty & h1 & items & used & args & ws & Hn & Hty & Ha & Hu & Hm & Hsv & Hal).
    destruct Hgood as (Hwf & Hac & Hok).
    assert (Hins : forall i, i ∈ ins -> is_Some (hv h i)) by (intros i Hi; by eapply (wf_ins h Hwf)).
    destruct (subsume_args_spec T _ _ _ _ _ _ Ha Hwf Hac Hsh Hins) as (A1 & A2 & A3 & A4 & A5 & A6 & A7).
    assert (Hused : forall u, u ∈ used -> is_Some (hv h1 u)).
    { intros u. rewrite Hu. intros [Hin _]%elem_of_remove_constants.
      apply elem_of_list_fmap in Hin as (it & -> & Hit). by apply A7. }
    pose proof (alloc_node_extends h1 (OSubsume s args) used [(None, ty)]) as Hex.
    pose proof (alloc_node_spec h1 (OSubsume s args) used [(None, ty)]) as Hsp.
    rewrite Hal in Hex, Hsp. cbn [fst snd] in *.
    destruct Hsp as (Hlen & _ & Hfr & Hval & Holdv & Hnn & Hn1 & Hn2).
    destruct ws; [|done]. pose proof (Hval 0 new _ _ eq_refl eq_refl) as Hy.
    assert (Hown : owner h old = Some (n, 0)) by (by eapply (wf_outs h Hwf)).
    assert (Hrn : rho new = None).
    { apply Henv. eapply extends_fresh; [exact A1|]. apply Hfr. by left. }
    assert (Hinp : forall i, i ∈ ins -> input_of h old i).
    { intros i Hi. unfold input_of, parents. by rewrite Hown, Hn. }
    assert (Hcsome : forall v, is_constant h1 v = true -> rho v = None).
    { intros v Hv. destruct (hv h v) as [xv|] eqn:Hxv; [|by apply Henv].
      apply Hrc. unfold is_constant in *. by rewrite (proj1 A1 _ _ Hxv), Hxv in *. }
    (* an argument and the pair it gives rise to *)
    assert (Hitem : forall i it y, i ∈ ins -> item_rel h h1 i it ->
      evals base cval h1 rho i y <->
      exists a, evals base cval h1 rho (it_new it) a /\
        match it_order it with None => Some a | Some o => shuffle base o a end = Some y).
    { intros i it y Hi Hit. inversion Hit as [|v o Hso|v w k o Hs1 Hs2 Hfw]; subst; cbn.
      - split; [eauto|]. intros (a & Ha' & Hay). injection Hay as ->. done.
      - apply evals_shuffle; [|done]. eapply (Hrs i o v); [by apply Hinp|].
        destruct Hso as (m & Ho & Hmn). assert (Hi' : owner h1 i = owner h i) by (apply extends_owner_old; [done|by apply Hins]).
        rewrite Hi' in Ho. destruct (wf_owner h Hwf _ _ _ Ho) as (nd & Hmn' & _).
        exists m. split; [done|]. rewrite Hmn'. f_equal. apply (proj2 A1) in Hmn'. congruence.
      - rewrite (evals_shuffle base cval h1 rho i (replicate k None ++ o) v y); [| |exact Hs1].
        2:{ apply (Hrs i (replicate k None ++ o) v); [by apply Hinp|].
          destruct Hs1 as (m & Ho & Hmn). assert (Hi' : owner h1 i = owner h i) by (apply extends_owner_old; [done|by apply Hins]).
          rewrite Hi' in Ho. destruct (wf_owner h Hwf _ _ _ Ho) as (nd & Hmn' & _).
          exists m. split; [done|]. rewrite Hmn'. f_equal. apply (proj2 A1) in Hmn'. congruence. }
        split.
        + intros (a & Ha' & Hs). rewrite Hlaw in Hs. destruct (shuffle base o a) as [b|] eqn:Hb; [|done]. cbn in Hs.
          exists b. split; [|done]. apply (evals_shuffle base cval h1 rho w o v); [by apply Henv|done|]. by exists a.
        + intros (b & Hb & Hs). apply (evals_shuffle base cval h1 rho w o v) in Hb as (a & Ha' & Hab); [|by apply Henv|done].
          exists a. split; [done|]. rewrite Hlaw, Hab. done. }
    (* the inner argument, once the inputs have values *)
    assert (Hinner : forall xs i it a y, evals_list base cval h1 rho used xs -> i ∈ ins -> it ∈ items -> item_rel h h1 i it ->
      inner_arg h1 used it = Some a -> evals base cval h1 rho i y <-> sarg_val base cval xs a = Some y).
    { intros xs i it a y Hxs Hi Hit Hrel Hia.
      assert (Hlk : forall v k, last_index v used = Some k -> forall y, evals base cval h1 rho v y <-> xs !! k = Some y).
      { intros v k Hk y'. apply last_index_lookup in Hk. apply evals_list_Forall2 in Hxs.
        rewrite Forall2_lookup in Hxs. specialize (Hxs k). rewrite Hk in Hxs. inversion Hxs as [? z Hz|]; subst.
        split; [|by intros [= ->]]. intros Hv. f_equal. by eapply evals_det. }
      unfold inner_arg in Hia. destruct (a0 ← it_arg it; last_index a0 used) as [k|] eqn:Hk.
      - injection Hia as <-. cbn. destruct (it_arg it) as [a0|] eqn:Ha0; [|done]. cbn in Hk.
        assert (a0 = i) as -> by (inversion Hrel; subst; cbn in Ha0; congruence).
        rewrite (Hlk _ _ Hk). destruct (xs !! k); cbn; done.
      - rewrite (Hitem i it y Hi Hrel). unfold inner_leaf in Hia. destruct (last_index (it_new it) used) as [k'|] eqn:Hk'.
        + injection Hia as <-. unfold sarg_val. cbn. split.
          * intros (b & Hb & Ho). apply (Hlk _ _ Hk') in Hb. rewrite Hb. cbn. destruct (it_order it); done.
          * destruct (xs !! k') as [b|] eqn:Hb; [|done]. cbn. intros Ho. exists b. split; [by apply (Hlk _ _ Hk')|].
            destruct (it_order it); done.
        + destruct (const_of h1 (it_new it)) as [c|] eqn:Hc; [|done]. cbn in Hia. injection Hia as <-.
          assert (Hev : forall b, evals base cval h1 rho (it_new it) b <-> b = cval c).
          { pose proof Hc as Hc'. unfold const_of in Hc'. destruct (hv h1 (it_new it)) as [[nm ty' [c'|du|] ow]|] eqn:Hv; try done.
            injection Hc' as ->. assert (ow = None) as -> by (by apply (proj2 A4 _ _ _ Hv eq_refl)).
            assert (He : evals base cval h1 rho (it_new it) (cval c)).
            { eapply ev_const; [|exact Hv|done|done]. apply Hcsome. apply is_constant_const_of. by rewrite Hc. }
            intros b. split; [intros Hb; by eapply evals_det|by intros ->]. }
          unfold sarg_val. cbn. split.
          * intros (b & Hb & Ho). apply Hev in Hb as ->. destruct (it_order it); done.
          * intros Ho. exists (cval c). split; [by apply Hev|]. destruct (it_order it); done. }
    apply mapM_Some_1 in Hm.
    assert (Hlist : forall xs ys, evals_list base cval h1 rho used xs ->
      evals_list base cval h1 rho ins ys <-> mapM (sarg_val base cval xs) args = Some ys).
    { intros xs ys Hxs. rewrite evals_list_Forall2. rewrite mapM_Some.
      assert (Hl1 : length ins = length items) by (by eapply Forall2_length).
      assert (Hl2 : length items = length args) by (by eapply Forall2_length).
      assert (Hpt : forall j i a, ins !! j = Some i -> args !! j = Some a ->
        forall y, evals base cval h1 rho i y <-> sarg_val base cval xs a = Some y).
      { intros j i a Hi Ha'. destruct (lookup_lt_is_Some_2 items j) as [it Hit].
        { rewrite <- Hl1. by eapply lookup_lt_Some. }
        intros y. apply (Hinner xs i it a y); [done|by eapply elem_of_list_lookup_2|by eapply elem_of_list_lookup_2| |].
        - rewrite Forall2_lookup in A6. specialize (A6 j). rewrite Hi, Hit in A6. by inversion A6.
        - rewrite Forall2_lookup in Hm. specialize (Hm j). rewrite Hit, Ha' in Hm. by inversion Hm. }
      rewrite !Forall2_same_length_lookup. split; intros [Hl Hp].
      - split; [congruence|]. intros j a y Ha' Hy'. destruct (lookup_lt_is_Some_2 ins j) as [i Hi].
        { rewrite Hl. by eapply lookup_lt_Some. } apply (Hpt j i a Hi Ha'). by eapply Hp.
      - split; [congruence|]. intros j i y Hi Hy'. destruct (lookup_lt_is_Some_2 args j) as [a Ha'].
        { rewrite Hl. by eapply lookup_lt_Some. } apply (Hpt j i a Hi Ha'). by eapply Hp. }
    assert (Hup : forall vs ys, (forall v, v ∈ vs -> is_Some (hv h v)) ->
      evals_list base cval h rho vs ys <-> evals_list base cval h1 rho vs ys).
    { intros vs ys Hvs. rewrite !evals_list_Forall2, !Forall2_same_length_lookup.
      split; intros [Hl Hp]; (split; [done|]); intros j v y Hv Hy'.
      - apply (extends_evals_iff base cval h h1); [done|done| |by eapply Hp]. apply Hvs. by eapply elem_of_list_lookup_2.
      - apply (extends_evals_iff base cval h h1); [done|done| |by eapply Hp]. apply Hvs. by eapply elem_of_list_lookup_2. }
    assert (Hup2 : forall vs ys, (forall v, v ∈ vs -> is_Some (hv h1 v)) ->
      evals_list base cval h1 rho vs ys <-> evals_list base cval h2 rho vs ys).
    { intros vs ys Hvs. rewrite !evals_list_Forall2, !Forall2_same_length_lookup.
      split; intros [Hl Hp]; (split; [done|]); intros j v y Hv Hy'.
      - apply (extends_evals_iff base cval h1 h2); [done|done| |by eapply Hp]. apply Hvs. by eapply elem_of_list_lookup_2.
      - apply (extends_evals_iff base cval h1 h2); [done|done| |by eapply Hp]. apply Hvs. by eapply elem_of_list_lookup_2. }
    split; intros He.
    - inversion He as [|? w c _ Hw Hwo|? m i nd ys zs ? _ Ho' Hn' Hl Hs Hi]; subst; [congruence| |].
      { unfold owner in Hown. rewrite Hw in Hown. cbn in Hown. congruence. }
      rewrite Hown in Ho'. injection Ho' as <- <-. rewrite Hn in Hn'. injection Hn' as <-. cbn in *.
      apply Hup in Hl; [|done].
      (* every input has a value *)
      assert (exists xs, evals_list base cval h1 rho (remove_constants h1 (PVar <$> (it_new <$> items))) xs) as [xs Hxs].
      { assert (Hall : forall u, u ∈ remove_constants h1 (PVar <$> (it_new <$> items)) -> exists a, evals base cval h1 rho u a).
        { intros u [Hin _]%elem_of_remove_constants. apply elem_of_list_fmap in Hin as (it & -> & Hit).
          apply elem_of_list_lookup in Hit as [j Hj]. destruct (lookup_lt_is_Some_2 ins j) as [i Hi'].
          { rewrite (Forall2_length _ _ _ A6). by eapply lookup_lt_Some. }
          rewrite Forall2_lookup in A6. specialize (A6 j). rewrite Hi', Hj in A6. inversion A6 as [? ? Hrel|]; subst.
          apply evals_list_Forall2 in Hl. rewrite Forall2_lookup in Hl. specialize (Hl j). rewrite Hi' in Hl. inversion Hl as [? y Hy'|]; subst.
          apply (Hitem i it y) in Hy' as (a & Ha' & _); [by exists a| |done]. by eapply elem_of_list_lookup_2. }
        clear -Hall. induction (remove_constants h1 (PVar <$> (it_new <$> items))) as [|u l IH]; [exists []; constructor|].
        destruct (Hall u) as [a Ha]; [by left|]. destruct IH as [xs Hxs]; [intros; apply Hall; by right|].
        exists (a :: xs). by constructor. }
      eapply (ev_app _ _ _ _ _ (fresh (dom (h_nodes h1))) 0); [done|by (unfold owner; rewrite Hy)|exact Hn1| | |exact Hi].
      + cbn [n_ins]. apply (proj1 (Hup2 _ xs Hused)). exact Hxs.
      + cbn. apply (Hlist xs) in Hl; [|done]. by rewrite Hl.
    - inversion He as [|? w c _ Hw Hwo|? m i nd xs zs ? _ Ho' Hn' Hl Hs Hi]; [congruence| |].
      { rewrite Hy in Hw. injection Hw as <-. done. }
      assert (owner h2 new = Some (fresh (dom (h_nodes h1)), 0)) as Hon by (unfold owner; by rewrite Hy).
      rewrite Hon in Ho'. injection Ho' as <- <-. rewrite Hn1 in Hn'. injection Hn' as <-. cbn in Hl, Hs.
      destruct (mapM (sarg_val base cval xs) args) as [ys|] eqn:Hys; [|done]. cbn in Hs.
      apply (Hup2 _ _ Hused) in Hl. apply (Hlist xs) in Hys; [|done]. apply Hup in Hys; [|done].
      eapply (ev_app _ _ _ _ _ n 0); [done|exact Hown|exact Hn|exact Hys|exact Hs|exact Hi].
  Qed.
End node.

(** ** when the rewrite applies *)
Lemma subsume_items_inner h1 items :
  is_Some (mapM (inner_arg h1 (remove_constants h1 (PVar <$> (it_new <$> items)))) items).
Proof.
  apply mapM_is_Some_2. apply Forall_forall. intros it Hit.
  change (is_Some (inner_arg h1 (remove_constants h1 (PVar <$> (it_new <$> items))) it)). unfold inner_arg.
  set (used := remove_constants h1 (PVar <$> (it_new <$> items))).
  destruct (a ← it_arg it; last_index a used) as [k|]; [by eexists|]. unfold inner_leaf.
  destruct (last_index (it_new it) used) as [k|] eqn:Hk; [by eexists|].
  apply last_index_None in Hk. destruct (is_constant h1 (it_new it)) eqn:Hc.
  - apply is_constant_const_of in Hc as [c ->]. by eexists.
  - exfalso. apply Hk. apply elem_of_remove_constants. split; [|done]. apply elem_of_list_fmap. by exists it.
Qed.

(** [i] is a DimShuffle whose leading entries, as many as the rank grows, are all new
    dimensions *)
Definition subsumable (T : tyops) (h : heap) (out_ndim : nat) (i : vid) : Prop :=
  exists order x ty el rest, shuffle_of h i order x /\ ty_of h x = Some ty /\
    py_split out_ndim (t_ndim T ty) order = (el, rest) /\ el <> [] /\ Forall (fun o => o = None) el.

Lemma all_none_replicate (el : list (option nat)) : el = replicate (length el) None <-> Forall (fun o => o = None) el.
Proof.
  induction el as [|o el IH]; cbn; [split; constructor|]. rewrite Forall_cons. split.
  - intros [= -> H]. split; [done|by apply IH].
  - intros [-> H]. f_equal. by apply IH.
Qed.

Lemma subsume_arg_found T out h i h1 it b :
  wf_heap h -> shuffles_ok h ->
  subsume_arg T out h i = (h1, it, b) -> b = true <-> subsumable T h out i.
Proof.
  intros Hwf Hsh Ha.
  assert (Hno : (h, Item i None (Some i), false) = (h1, it, b) -> ~ subsumable T h out i ->
    b = true <-> subsumable T h out i).
  { intros [= _ _ <-] Hn. split; [done|]. intros H. by apply Hn in H. }
  unfold subsume_arg in Ha. destruct (owner h i) as [[m j]|] eqn:Ho.
  2:{ apply Hno; [done|]. intros (o & x & ty & el & rest & (m & Ho' & _) & _). congruence. }
  destruct (hn h m) as [nd|] eqn:Hn.
  2:{ apply Hno; [done|]. intros (o & x & ty & el & rest & (m' & Ho' & Hn') & _). by simplify_eq. }
  destruct nd as [nop nins nouts]. destruct nop as [ | |ds_order| | | ];
    try (apply Hno; [done|]; intros (o & x & ty & el & rest & (m' & Ho' & Hn') & _); by simplify_eq).
  destruct (proj1 Hsh _ _ _ Hn eq_refl) as [[x Hx] [v Hv]]. cbn in Hx, Hv. subst nins nouts.
  assert (Hof : shuffle_of h i ds_order x).
  { destruct (wf_owner h Hwf _ _ _ Ho) as (nd & Hn' & Hj). rewrite Hn in Hn'. injection Hn' as <-. cbn in Hj.
    destruct j as [|j]; [|done]. cbn in Hj. injection Hj as ->. by exists m. }
  assert (Huniq : forall o' x', shuffle_of h i o' x' -> o' = ds_order /\ x' = x).
  { intros o' x' (m' & Ho' & Hn'). rewrite Ho in Ho'. injection Ho' as <- _. rewrite Hn in Hn'. by injection Hn' as -> ->. }
  destruct (ty_of h x) as [ty|] eqn:Hty.
  2:{ apply Hno; [done|]. intros (o' & x' & ty' & el & rest & Hs & Hty' & _). apply Huniq in Hs as [-> ->]. congruence. }
  destruct (py_split out (t_ndim T ty) ds_order) as [el rest] eqn:Hsp.
  case_decide as Hel.
  - apply Hno; [done|]. intros (o' & x' & ty' & el' & rest' & Hs & Hty' & Hsp' & Hne & Hall).
    apply Huniq in Hs as [-> ->]. rewrite Hty in Hty'. injection Hty' as <-. rewrite Hsp in Hsp'. injection Hsp' as <- <-.
    destruct Hel as [?|Hel]; [done|]. by apply Hel, all_none_replicate.
  - assert (Hyes : subsumable T h out i).
    { exists ds_order, x, ty, el, rest. split_and!; try done; [intros ->; apply Hel; by left|].
      apply all_none_replicate. destruct (decide (el = replicate (length el) None)); [done|]. exfalso. apply Hel. by right. }
    case_decide; [injection Ha as _ _ <-; done|].
    pose proof (alloc_node_spec h (ODimShuffle rest) [x] [(None, t_shuffle T ty rest)]) as (Hlen & _).
    destruct (alloc_node h (ODimShuffle rest) [x] [(None, t_shuffle T ty rest)]) as [h2 ys]. cbn in Hlen.
    destruct ys; [done|]. injection Ha as _ _ <-. done.
Qed.

Lemma subsumable_extends T h h' out i :
  wf_heap h -> extends h h' -> is_Some (hv h i) -> subsumable T h' out i <-> subsumable T h out i.
Proof.
  intros Hwf Hex Hi. split; intros (o & x & ty & el & rest & Hs & Hty & Hrest).
  - destruct Hs as (m & Ho & Hn). rewrite (extends_owner_old h h') in Ho by done.
    destruct (wf_owner h Hwf _ _ _ Ho) as (nd & Hn' & _). pose proof (proj2 Hex _ _ Hn') as Hn''.
    rewrite Hn in Hn''. injection Hn'' as <-.
    exists o, x, ty, el, rest. split_and!; [by exists m| |apply Hrest|apply Hrest|apply Hrest].
    rewrite <- (extends_ty h h'); [done|done|]. eapply (wf_ins h Hwf); [exact Hn'|]. by left.
  - exists o, x, ty, el, rest. split_and!; [by eapply shuffle_of_extends| |apply Hrest|apply Hrest|apply Hrest].
    rewrite (extends_ty h h'); [done|done|]. unfold ty_of in Hty. destruct (hv h x); [done|by cbn in Hty].
Qed.

Lemma subsume_args_found T out ins : forall h h1 its b,
  wf_heap h -> acyclic h -> shuffles_ok h -> (forall i, i ∈ ins -> is_Some (hv h i)) ->
  subsume_args T out h ins = (h1, its, b) -> b = true <-> exists i, i ∈ ins /\ subsumable T h out i.
Proof.
  induction ins as [|i ins IH]; intros h h1 its b Hwf Hac Hsh Hins Ha; cbn in Ha.
  { injection Ha as _ _ <-. split; [done|]. by intros (? & ?%elem_of_nil & _). }
  destruct (subsume_arg T out h i) as [[ha it] b1] eqn:H1.
  destruct (subsume_args T out ha ins) as [[hb its'] b2] eqn:H2.
  injection Ha as <- <- <-.
  assert (Hi : is_Some (hv h i)) by (apply Hins; by left).
  destruct (subsume_arg_spec T _ _ _ _ _ _ H1 Hwf Hac Hsh Hi) as (A1 & A2 & A3 & A4 & _).
  assert (Hins' : forall j, j ∈ ins -> is_Some (hv h j)) by (intros; apply Hins; by right).
  rewrite orb_true_iff. rewrite (subsume_arg_found T out h i ha it b1 Hwf Hsh H1).
  rewrite (IH ha hb its' b2 A2 A3 A4); [| |done].
  2:{ intros j Hj. eapply extends_some; [done|]. by apply Hins'. }
  split.
  - intros [H|(j & Hj & H)]; [exists i; split; [by left|done]|].
    exists j. split; [by right|]. apply (subsumable_extends T h ha); [done|done|by apply Hins'|done].
  - intros (j & [->|Hj]%elem_of_cons & H); [by left|right]. exists j. split; [done|].
    apply (subsumable_extends T h ha); [done|done|by apply Hins'|done].
Qed.

Lemma subsume_node_none T h n :
  good_heap h -> shuffles_ok h ->
  subsume_node T h n = Ok None <->
  ~ exists s ins out outs ty, hn h n = Some (Node (OElem s) ins (out :: outs)) /\ ty_of h out = Some ty /\
      exists i, i ∈ ins /\ subsumable T h (t_ndim T ty) i.
Proof.
  intros (Hwf & Hac & Hok) Hsh. unfold subsume_node.
  destruct (hn h n) as [[nop ins outs]|] eqn:Hn.
  2:{ split; [|done]. intros _ (s & ins & out & outs & ty & H & _). done. }
  destruct nop as [|s| | | | ]; try (split; [|done]; intros _ (s' & ins' & out & outs' & ty & H & _); done).
  destruct outs as [|out more]; [split; [|done]; intros _ (s' & ins' & out & outs' & ty & H & _); done|].
  destruct (ty_of h out) as [ty|] eqn:Hty.
  2:{ split; [|done]. intros _ (s' & ins' & out' & outs' & ty & H & H' & _). injection H as -> -> -> ->. congruence. }
  assert (Hins : forall i, i ∈ ins -> is_Some (hv h i)) by (intros i Hi; by eapply (wf_ins h Hwf)).
  destruct (subsume_args T (t_ndim T ty) h ins) as [[h1 items] found] eqn:Ha.
  pose proof (subsume_args_found T _ ins h h1 items found Hwf Hac Hsh Hins Ha) as Hf.
  assert (Hex : (exists s' ins' out' outs' ty', Some (Node (OElem s) ins (out :: more)) = Some (Node (OElem s') ins' (out' :: outs')) /\
      ty_of h out' = Some ty' /\ exists i, i ∈ ins' /\ subsumable T h (t_ndim T ty') i) <-> found = true).
  { rewrite Hf. split.
    - intros (s' & ins' & out' & outs' & ty' & H & H' & H''). injection H as -> -> -> ->. rewrite Hty in H'. by injection H' as ->.
    - intros H. exists s, ins, out, more, ty. done. }
  rewrite Hex. destruct found; [|split; done]. split; [|intros H; by exfalso; apply H].
  destruct (existsb _ _); [done|]. destruct (mapM _ items); [|done]. destruct more; [|done].
  pose proof (alloc_node_spec h1 (OSubsume s l) (remove_constants h1 (PVar <$> (it_new <$> items))) [(None, ty)]) as (Hlen & _).
  destruct (alloc_node h1 _ _ _) as [h2 ws]. cbn in Hlen. by destruct ws.
Qed.

Lemma subsume_node_no_missing T h n : subsume_node T h n <> Raise MissingInputError.
Proof.
  unfold subsume_node. destruct (hn h n) as [[nop ins outs]|]; [|done]. destruct nop; try done.
  destruct outs as [|out more]; [done|]. destruct (ty_of h out) as [ty|]; [|done].
  destruct (subsume_args T (t_ndim T ty) h ins) as [[h1 items] found]. destruct found; [|done].
  destruct (existsb _ _); [done|]. destruct (subsume_items_inner h1 items) as [args ->].
  destruct more; [|done]. destruct (alloc_node h1 _ _ _) as [h2 ws]. by destruct ws.
Qed.

(** what is handed to the new op for argument [i] *)
Lemma subsume_type_error T h n s ins out ty i :
  good_heap h -> shuffles_ok h ->
  hn h n = Some (Node (OElem s) ins [out]) -> ty_of h out = Some ty ->
  (exists j, j ∈ ins /\ subsumable T h (t_ndim T ty) j) ->
  i ∈ ins -> is_shared_var h i = true -> owner h i = None ->
  subsume_node T h n = Raise TypeError.
Proof.
  intros (Hwf & Hac & Hok) Hsh Hn Hty Hj Hi Hs Ho. unfold subsume_node. rewrite Hn, Hty.
  assert (Hins : forall i, i ∈ ins -> is_Some (hv h i)) by (intros k Hk; by eapply (wf_ins h Hwf)).
  destruct (subsume_args T (t_ndim T ty) h ins) as [[h1 items] found] eqn:Ha.
  apply (subsume_args_found T _ ins h h1 items found Hwf Hac Hsh Hins Ha) in Hj as ->.
  destruct (subsume_args_spec T _ _ _ _ _ _ Ha Hwf Hac Hsh Hins) as (A1 & A2 & A3 & A4 & A5 & A6 & A7).
  assert (existsb (is_shared_var h1) (remove_constants h1 (PVar <$> (it_new <$> items))) = true) as ->; [|done].
  apply existsb_exists. exists i. unfold is_shared_var in *. destruct (hv h i) as [xi|] eqn:Hxi; [|done].
  rewrite (proj1 A1 _ _ Hxi). split; [|done]. apply elem_of_list_In, elem_of_remove_constants. split.
  - apply elem_of_list_lookup in Hi as [k Hk]. rewrite Forall2_lookup in A6. specialize (A6 k). rewrite Hk in A6.
    inversion A6 as [? it Hrel Hit|]; subst. apply elem_of_list_fmap. exists it. split; [|by eapply elem_of_list_lookup_2].
    inversion Hrel as [|x o (m & Ho' & _)|x y k' o (m & Ho' & _)]; subst; [done| |];
      rewrite (extends_owner_old h h1) in Ho' by (by eauto); congruence.
  - unfold is_constant. rewrite (proj1 A1 _ _ Hxi). destruct xi as [? ? [| |] ?]; done.
Qed.

(** ** subsuming and inlining again *)
Lemma subsume_inline T h n h2 old new :
  good_heap h -> shuffles_ok h -> subsume_node T h n = Ok (Some (h2, old, new)) ->
  exists m h3 w, owner h2 new = Some (m, 0) /\ inline_node h2 m = Some (h3, new, w) /\
    extends h h3 /\ good_heap h3 /\
    subsume_node T h2 m = Ok None /\
    forall D (base : op -> list D -> option (list D)) cval rho x,
      shuffle_law base -> env_on h rho -> (forall v, is_constant h v = true -> rho v = None) -> rho old = None ->
      (forall i o y, input_of h old i -> shuffle_of h i o y -> rho i = None) ->
      evals base cval h rho old x -> evals base cval h3 rho w x.
Proof.
  intros Hgood Hsh Hsub.
  destruct (subsume_node_extends T h n h2 old new Hgood Hsh Hsub) as (Hex & Hg2 & Hs2 & Hown & Hfr & Hnew & Hty).
  destruct (subsume_node_parts T h n h2 old new Hsub) as (s & ins & ty & h1 & items & used & args & ws & Hn & Hty' & Ha & Hu & Hm & Hsv & Hal).
  pose proof (alloc_node_spec h1 (OSubsume s args) used [(None, ty)]) as Hsp. rewrite Hal in Hsp. cbn [fst snd] in Hsp.
  destruct Hsp as (Hlen & _ & _ & Hval & _ & _ & Hn1 & _). destruct ws; [|done].
  pose proof (Hval 0 new _ _ eq_refl eq_refl) as Hy.
  destruct (inline_node_total h2 _ _ s args (proj1 Hg2) (proj2 (proj2 Hg2)) Hn1 eq_refl) as (h3 & old' & w & Hin & Hout).
  cbn in Hout. injection Hout as <-.
  destruct (inline_node_spec h2 _ h3 new w (proj1 Hg2) (proj1 (proj2 Hg2)) Hin) as (B1 & B2 & B3 & B4 & B5 & B6 & _ & _ & _ & _ & _ & B12).
  exists (fresh (dom (h_nodes h1))), h3, w. unfold good_heap. split_and!.
  - unfold owner. by rewrite Hy.
  - done.
  - by eapply extends_trans.
  - done.
  - done.
  - apply (no_new_subsume_ok h2 h3); [done|done|apply Hg2].
  - unfold subsume_node. by rewrite Hn1.
  - intros D base cval rho x Hlaw Henv Hrc Hro Hrs He. apply B12.
    + by eapply env_on_extends.
    + by apply Henv.
    + by apply (subsume_node_value T h n h2 old new Hgood Hsh Hsub base cval rho Hlaw Henv Hrc Hro Hrs).
Qed.

(** ** SubsumingElemwise.make_node *)
Lemma subsuming_make_node_spec h n_inner shared inputs :
  length shared <= n_inner ->
  let used := remove_constants h inputs in
  subsuming_make_node h n_inner shared inputs =
    if decide (length used + length shared = n_inner) then Ok used
    else if decide (length used = n_inner) then Ok (take (n_inner - length shared) used)
    else Raise ValueError.
Proof.
  intros Hs used. unfold subsuming_make_node. fold used.
  destruct (decide (length used = n_inner - length shared)) as [He|He].
  - rewrite (decide_True (P := length used + length shared = n_inner)) by lia.
    unfold opfromgraph_inputs. rewrite app_length. case_decide as Hd.
    + (* no shared inputs *) assert (length shared = 0) as H0 by lia. apply nil_length_inv in H0 as ->. rewrite !app_nil_r. cbn.
      f_equal. apply take_ge. lia.
    + rewrite decide_True by lia. cbn. f_equal. rewrite app_length. rewrite Nat.add_sub. by rewrite take_app.
  - rewrite (decide_False (P := length used + length shared = n_inner)) by lia.
    unfold opfromgraph_inputs. rewrite (decide_False (P := length used = n_inner - length shared)) by done.
    case_decide as Hd; [|done]. cbn. f_equal. by rewrite Hd.
Qed.
