(** Inlining of SubsumingElemwise nodes (expand_subsumptions). *)
From Verif Require Export L_alloc.

Lemma reachable_single h r u : reachable h [r] u <-> rtc (input_of h) r u.
Proof.
  split.
  - intros (r' & Hr & H). by apply elem_of_list_singleton in Hr as ->.
  - intros H. exists r. split; [by left|done].
Qed.

(** environments only speak about existing variables *)
Definition env_on {D} (h : heap) (rho : vid -> option D) : Prop :=
  forall v, hv h v = None -> rho v = None.

Lemma env_on_extends {D} h h' (rho : vid -> option D) : extends h h' -> env_on h rho -> env_on h' rho.
Proof.
  intros [Hex _] He v Hv. apply He. destruct (hv h v) as [x|] eqn:Hx; [|done].
  apply Hex in Hx. congruence.
Qed.

Definition no_new_subsume (h h' : heap) : Prop :=
  forall n nd, hn h n = None -> hn h' n = Some nd ->
    match n_op nd with OSubsume _ _ => False | _ => True end.

Lemma no_new_subsume_trans h1 h2 h3 :
  extends h2 h3 -> no_new_subsume h1 h2 -> no_new_subsume h2 h3 -> no_new_subsume h1 h3.
Proof.
  intros [_ Hex] H12 H23 n nd Hn Hn3. destruct (hn h2 n) as [nd'|] eqn:Hn2.
  - pose proof (Hex _ _ Hn2). simplify_eq. by apply (H12 n).
  - by apply (H23 n).
Qed.

Lemma alloc_node_no_subsume h o ins tys :
  match o with OSubsume _ _ => False | _ => True end ->
  no_new_subsume h (alloc_node h o ins tys).1.
Proof.
  intros Ho n nd Hn Hn'.
  destruct (alloc_node_spec h o ins tys) as (_ & _ & _ & _ & _ & _ & H1 & H2).
  destruct (decide (n = fresh (dom (h_nodes h)))) as [->|Hne].
  - rewrite H1 in Hn'. simplify_eq. done.
  - rewrite H2 in Hn' by done. congruence.
Qed.

Lemma no_new_subsume_ok h h' :
  extends h h' -> no_new_subsume h h' -> subsume_ok h -> subsume_ok h'.
Proof.
  intros [_ Hex] Hno Hok n nd s args Hn Ho.
  destruct (hn h n) as [nd0|] eqn:Hn0.
  - pose proof (Hex _ _ Hn0). simplify_eq. by eapply Hok.
  - exfalso. specialize (Hno _ _ Hn0 Hn). by rewrite Ho in Hno.
Qed.

Section inline_args.
  Context (ty : vtype).

  Lemma inline_base_spec h ins a ha v :
    inline_base h ins ty a = Some (ha, v) ->
    wf_heap h -> acyclic h -> (forall u, u ∈ ins -> is_Some (hv h u)) ->
    extends h ha /\ wf_heap ha /\ acyclic ha /\ no_new_subsume h ha /\
    is_Some (hv ha v) /\
    (forall u, reachable ha [v] u -> hv h u = None \/ reachable h ins u) /\
    (forall z u, hv h z = None -> input_of ha z u -> hv h u = None \/ reachable h ins u) /\
    (forall D (base : op -> list D -> option (list D)) cval rho xs y,
       env_on h rho -> evals_list base cval h rho ins xs ->
       match a with SIn k _ => xs !! k | SConst c _ => Some (cval c) end = Some y -> evals base cval ha rho v y).
  Proof.
    intros Ha Hwf Hac Hins. destruct a as [k o|c o]; cbn in Ha.
    - destruct (ins !! k) as [w|] eqn:Hk; [|done]. cbn in Ha. simplify_eq.
      assert (Hvin : v ∈ ins) by (by eapply elem_of_list_lookup_2).
      split_and!; try done.
      + intros n nd. congruence.
      + by apply Hins.
      + intros u Hu. right. eapply reachable_mono; [|exact Hu]. by intros x ->%elem_of_list_singleton.
      + intros z u Hz. unfold input_of, parents, owner. rewrite Hz. by intros ?%elem_of_nil.
      + intros D base cval rho xs y Hrho Hxs Hy. cbn in Hy.
        apply evals_list_Forall2 in Hxs. by eapply Forall2_lookup_lr.
    - pose proof (alloc_var_extends h (Var None ty (KConst c) None)) as Hex.
      pose proof (alloc_var_wf h (Var None ty (KConst c) None) Hwf eq_refl) as Hwf2.
      pose proof (alloc_var_acyclic h (Var None ty (KConst c) None) Hwf eq_refl Hac) as Hac2.
      pose proof (hv_alloc_var h (Var None ty (KConst c) None)) as Hhv.
      pose proof (alloc_var_fresh h (Var None ty (KConst c) None)) as Hfr.
      pose proof (alloc_var_hn h (Var None ty (KConst c) None)) as Hhn.
      destruct (alloc_var h (Var None ty (KConst c) None)) as [h2 v2] eqn:Hal. cbn in *. simplify_eq.
      pose proof Hhv as Hhv0.
      specialize (Hhv v). rewrite decide_True in Hhv by done.
      split_and!; try done.
      + intros n nd Hn. rewrite Hhn. congruence.
      + intros u (r & Hr & Hru). apply elem_of_list_singleton in Hr as ->.
        apply rtc_inv in Hru as [->|(w & Hvw & _)]; [by left|].
        unfold input_of, parents, owner in Hvw. rewrite Hhv in Hvw. cbn in Hvw.
        by apply elem_of_nil in Hvw.
      + intros z u Hz. unfold input_of, parents, owner. rewrite Hhv0. case_decide.
        * by intros ?%elem_of_nil.
        * rewrite Hz. by intros ?%elem_of_nil.
      + intros D base cval rho xs y Hrho Hxs Hy. cbn in Hy. simplify_eq.
        eapply ev_const; [by apply Hrho|exact Hhv|done|done].
  Qed.

  Lemma inline_shuffle_spec h ord w ha v :
    inline_shuffle h w ty ord = Some (ha, v) ->
    wf_heap h -> acyclic h -> is_Some (hv h w) ->
    extends h ha /\ wf_heap ha /\ acyclic ha /\ no_new_subsume h ha /\
    is_Some (hv ha v) /\
    (forall u, reachable ha [v] u -> hv h u = None \/ reachable h [w] u) /\
    (forall z u, hv h z = None -> input_of ha z u -> hv h u = None \/ reachable h [w] u) /\
    (forall D (base : op -> list D -> option (list D)) cval rho xk y,
       env_on h rho -> evals base cval h rho w xk ->
       match ord with None => Some xk | Some o => ys ← base (ODimShuffle o) [xk]; ys !! 0 end = Some y ->
       evals base cval ha rho v y).
  Proof.
    intros Ha Hwf Hac Hw. destruct ord as [ord|]; cbn in Ha.
    - destruct (alloc_node h (ODimShuffle ord) [w] [(None, ty)]) as [h2 ws] eqn:Hal.
      destruct (ws !! 0) as [v0|] eqn:Hv0; [|done]. cbn in Ha. simplify_eq.
      assert (Hin1 : forall u, u ∈ [w] -> is_Some (hv h u)) by (by intros u ->%elem_of_list_singleton).
      pose proof (alloc_node_extends h (ODimShuffle ord) [w] [(None, ty)]) as Hex.
      pose proof (alloc_node_wf h (ODimShuffle ord) [w] [(None, ty)] Hin1 Hwf) as Hwf2.
      pose proof (alloc_node_acyclic h (ODimShuffle ord) [w] [(None, ty)] Hin1 Hwf Hac) as Hac2.
      pose proof (alloc_node_no_subsume h (ODimShuffle ord) [w] [(None, ty)] I) as Hns.
      pose proof (alloc_node_out_some h (ODimShuffle ord) [w] [(None, ty)] v) as Ho.
      pose proof (alloc_node_reachable h (ODimShuffle ord) [w] [(None, ty)] Hin1 Hwf v) as Hre.
      pose proof (alloc_node_spec h (ODimShuffle ord) [w] [(None, ty)]) as Hsp.
      rewrite Hal in Hex, Hwf2, Hac2, Hns, Ho, Hre, Hsp. cbn [fst snd] in *.
      destruct Hsp as (_ & _ & Hfr & Hval & Holdv & _ & Hn1 & _).
      assert (Hvin : v ∈ ws) by (by eapply elem_of_list_lookup_2).
      destruct (Ho Hvin) as (k' & nm & ty' & Hk' & Hty' & Hx).
      split_and!; try done.
      + intros u Hu. destruct (Hre u Hvin Hu) as [->|Hu']; [left; by apply Hfr|by right].
      + intros z u Hz Hzu. destruct (decide (z ∈ ws)) as [Hzw|Hzw].
        * right. unfold input_of in Hzu.
          pose proof (alloc_node_parents h (ODimShuffle ord) [w] [(None, ty)] z) as Hpz.
          rewrite Hal in Hpz. cbn [fst snd] in Hpz. rewrite Hpz in Hzu by done.
          apply elem_of_list_singleton in Hzu as ->. apply reachable_root. by left.
        * unfold input_of, parents, owner in Hzu. rewrite Holdv, Hz in Hzu by done. by apply elem_of_nil in Hzu.
      + intros D base cval rho xk y Hrho Hw' Hy.
        destruct (base (ODimShuffle ord) [xk]) as [zs|] eqn:Hzs; [|done]. cbn in Hy.
        pose proof (Hval 0 v _ _ Hv0 eq_refl) as Hv00.
        eapply (ev_app _ _ _ _ _ (fresh (dom (h_nodes h))) 0); [|by (unfold owner; rewrite Hv00)|exact Hn1| |exact Hzs|done].
        * apply Hrho. by apply Hfr.
        * cbn [n_ins]. apply evl_cons; [|apply evl_nil]. eapply extends_evals; [exact Hwf|exact Hex|exact Hw|exact Hw'].
    - simplify_eq. split_and!; try done.
      + intros n nd. congruence.
      + intros u Hu. by right.
      + intros z u Hz. unfold input_of, parents, owner. rewrite Hz. by intros ?%elem_of_nil.
      + intros D base cval rho xk y Hrho Hxs Hy. by simplify_eq.
  Qed.

  Lemma inline_args_spec args : forall h ins h1 vs,
    inline_args h ins ty args = Some (h1, vs) ->
    wf_heap h -> acyclic h -> (forall u, u ∈ ins -> is_Some (hv h u)) ->
    extends h h1 /\ wf_heap h1 /\ acyclic h1 /\ no_new_subsume h h1 /\
    (forall v, v ∈ vs -> is_Some (hv h1 v)) /\
    (forall v u, v ∈ vs -> reachable h1 [v] u -> hv h u = None \/ reachable h ins u) /\
    (forall v u, hv h v = None -> input_of h1 v u -> hv h u = None \/ reachable h ins u) /\
    (forall D (base : op -> list D -> option (list D)) cval rho xs ys,
       env_on h rho -> evals_list base cval h rho ins xs ->
       mapM (sarg_val base cval xs) args = Some ys -> evals_list base cval h1 rho vs ys).
  Proof.
    induction args as [|a args IH]; intros h ins h1 vs Hi Hwf Hac Hins.
    - cbn in Hi. simplify_eq. split_and!; try done.
      + intros n nd. congruence.
      + by intros v ?%elem_of_nil.
      + by intros v u ?%elem_of_nil.
      + intros v u Hv. unfold input_of, parents, owner. rewrite Hv. by intros ?%elem_of_nil.
      + intros D base cval rho xs ys _ _ Hm. apply mapM_Some_1 in Hm. inversion Hm; subst. constructor.
    - cbn in Hi.
      destruct (inline_base h ins ty a) as [[hx vx]|] eqn:Hxb; [|done]. cbn in Hi.
      destruct (inline_shuffle hx vx ty (sarg_order a)) as [[ha v]|] eqn:Ha; [|done]. cbn in Hi.
      destruct (inline_args ha ins ty args) as [[hb vs']|] eqn:Hb; [|done].
      cbn in Hi. simplify_eq.
      destruct (inline_base_spec _ _ _ _ _ Hxb Hwf Hac Hins) as (Xex & Xwf & Xac & Xns & Xv & Xr & Xz & Xe).
      destruct (inline_shuffle_spec _ _ _ _ _ Ha Xwf Xac Xv) as (Yex & Ywf & Yac & Yns & Yv & Yr & Yz & Ye).
      (* the first argument *)
      assert (extends h ha /\ wf_heap ha /\ acyclic ha /\ no_new_subsume h ha /\
        is_Some (hv ha v) /\
        (forall u, reachable ha [v] u -> hv h u = None \/ reachable h ins u) /\
        (forall z u, hv h z = None -> input_of ha z u -> hv h u = None \/ reachable h ins u) /\
        (forall D (base : op -> list D -> option (list D)) cval rho xs y,
           env_on h rho -> evals_list base cval h rho ins xs ->
           sarg_val base cval xs a = Some y -> evals base cval ha rho v y))
        as (Hex & Hwfa & Haca & Hnsa & Hva & Hra & Hza & Hea).
      { assert (Hnone : forall u, hv hx u = None -> hv h u = None).
        { intros u Hu. destruct (hv h u) as [q|] eqn:Hq; [|done]. apply Xex in Hq. congruence. }
        split_and!; try done.
        - by eapply extends_trans.
        - by eapply no_new_subsume_trans.
        - intros u Hu. destruct (Yr u Hu) as [?|?]; [left; by apply Hnone|by apply Xr].
        - intros z u Hz Hzu. destruct (hv hx z) as [xz|] eqn:Hxz.
          + apply (Xz z u Hz). apply (extends_input_of hx ha); [done|done|by eauto|done].
          + destruct (Yz z u Hxz Hzu) as [?|?]; [left; by apply Hnone|by apply Xr].
        - intros D base cval rho xs y Hrho Hxs Hy. unfold sarg_val in Hy.
          destruct (match a with SIn k _ => xs !! k | SConst c _ => Some (cval c) end) as [x0|] eqn:Hx0; [|done].
          cbn in Hy. apply (Ye D base cval rho x0 y); [by eapply env_on_extends|by eapply Xe|done]. }
      destruct (IH _ _ _ _ Hb Hwfa Haca) as (Hex2 & Hwf2 & Hac2 & Hns2 & Hv2 & Hr2 & Hz2 & He2).
      { intros u Hu. eapply extends_some; [done|]. by apply Hins. }
      split_and!.
      + by eapply extends_trans.
      + done.
      + done.
      + by eapply no_new_subsume_trans.
      + intros w Hw. apply elem_of_cons in Hw as [->|Hw]; [|by apply Hv2].
        by eapply extends_some.
      + intros w u Hw Hu. apply elem_of_cons in Hw as [->|Hw].
        * apply Hra. by apply (extends_reachable ha h1).
        * destruct (Hr2 w u Hw Hu) as [Hn|Hr].
          -- left. destruct (hv h u) as [x|] eqn:Hx; [|done]. apply Hex in Hx. congruence.
          -- right. by apply (extends_reachable_list h ha) in Hr.
      + intros z u Hz Hzu. destruct (hv ha z) as [xz|] eqn:Hxz.
        * apply (Hza z u Hz). apply (extends_input_of ha h1); [done|done|by eauto|done].
        * destruct (Hz2 z u Hxz Hzu) as [Hn|Hr].
          -- left. destruct (hv h u) as [x|] eqn:Hx; [|done]. apply Hex in Hx. congruence.
          -- right. by apply (extends_reachable_list h ha) in Hr.
      + intros D base cval rho xs ys Hrho Hxs Hm.
        cbn in Hm. destruct (sarg_val base cval xs a) as [y|] eqn:Hy; [|done]. cbn in Hm.
        destruct (mapM (sarg_val base cval xs) args) as [ys'|] eqn:Hys; [|done]. injection Hm as <-.
        constructor.
        * eapply extends_evals; [exact Hwfa|exact Hex2|exact Hva|]. by eapply Hea.
        * eapply He2; [by eapply env_on_extends| |done].
          rewrite evals_list_Forall2 in Hxs. rewrite evals_list_Forall2.
          rewrite Forall2_lookup in Hxs. apply Forall2_lookup. intros i. specialize (Hxs i).
          destruct (ins !! i) as [w|] eqn:Hw; inversion Hxs; subst; constructor.
          eapply (extends_evals _ _ h ha); [exact Hwf|exact Hex| |done]. apply Hins. by eapply elem_of_list_lookup_2.
  Qed.

  Lemma inline_args_total args : forall h ins,
    (forall k ord, SIn k ord ∈ args -> k < length ins) -> is_Some (inline_args h ins ty args).
  Proof.
    induction args as [|a args IH]; intros h ins Hk; [done|].
    assert (Hk' : forall k ord, SIn k ord ∈ args -> k < length ins) by (intros; eapply Hk; by right).
    assert (Hsh : forall h1 v, is_Some (inline_shuffle h1 v ty (sarg_order a))).
    { intros h1 v. destruct (sarg_order a) as [ord|]; [|done]. cbn.
      pose proof (alloc_node_spec h1 (ODimShuffle ord) [v] [(None, ty)]) as (Hlen & _).
      destruct (alloc_node h1 (ODimShuffle ord) [v] [(None, ty)]) as [h2 ws]. cbn in *.
      by destruct ws as [|w ws]. }
    assert (is_Some (inline_base h ins ty a)) as [[h1 v] Hb].
    { destruct a as [k ord|c ord]; [|done]. cbn.
      destruct (lookup_lt_is_Some_2 ins k) as [w ->]; [eapply Hk; by left|]. done. }
    cbn [inline_args]. rewrite Hb. cbn. destruct (Hsh h1 v) as [[h2 w] ->]. cbn.
    by destruct (IH h2 ins Hk') as [[h3 vs] ->].
  Qed.
End inline_args.

Section inline_node.
  Context (h : heap) (n : nid) (h1 : heap) (old new : vid).
  Hypothesis Hwf : wf_heap h.
  Hypothesis Hac : acyclic h.
  Hypothesis Hin : inline_node h n = Some (h1, old, new).

  Lemma inline_node_spec :
    extends h h1 /\ wf_heap h1 /\ acyclic h1 /\ no_new_subsume h h1 /\
    is_subsume h n /\ owner h old = Some (n, 0) /\
    hv h new = None /\ ty_of h1 new = ty_of h1 old /\ is_Some (hv h1 new) /\
    (forall u, reachable h1 [new] u -> hv h u = None \/ (reachable h [old] u /\ u <> old)) /\
    (forall z u, hv h z = None -> input_of h1 z u -> hv h u = None \/ reachable h [old] u) /\
    (forall D (base : op -> list D -> option (list D)) cval rho x,
       env_on h rho -> rho old = None -> evals base cval h rho old x -> evals base cval h1 rho new x).
  Proof.
    unfold inline_node in Hin. destruct (hn h n) as [nd|] eqn:Hn; [|done]. cbn in Hin.
    destruct (n_op nd) as [ | | |s args| | ] eqn:Hop; try done.
    destruct (n_outs nd !! 0) as [o|] eqn:Ho; [|done]. cbn in Hin.
    destruct (ty_of h o) as [ty|] eqn:Hty; [|done]. cbn in Hin.
    destruct (inline_args h (n_ins nd) ty args) as [[ha vs]|] eqn:Hargs; [|done]. cbn in Hin.
    destruct (alloc_node ha (OElem s) vs [(name_of h o, ty)]) as [hb ws] eqn:Hal.
    destruct (ws !! 0) as [w|] eqn:Hw; [|done]. cbn in Hin. simplify_eq.
    assert (Hinsh : forall u, u ∈ n_ins nd -> is_Some (hv h u)) by (intros; by eapply (wf_ins h Hwf)).
    destruct (inline_args_spec _ _ _ _ _ _ Hargs Hwf Hac Hinsh) as
      (Hex & Hwfa & Haca & Hns & Hvs & Hr & Hz & He).
    pose proof (alloc_node_extends ha (OElem s) vs [(name_of h old, ty)]) as Hex1.
    pose proof (alloc_node_wf ha (OElem s) vs [(name_of h old, ty)] Hvs Hwfa) as Hwf1.
    pose proof (alloc_node_acyclic ha (OElem s) vs [(name_of h old, ty)] Hvs Hwfa Haca) as Hac1.
    pose proof (alloc_node_no_subsume ha (OElem s) vs [(name_of h old, ty)] I) as Hns1.
    pose proof (alloc_node_reachable ha (OElem s) vs [(name_of h old, ty)] Hvs Hwfa new) as Hre1.
    pose proof (alloc_node_spec ha (OElem s) vs [(name_of h old, ty)]) as Hsp.
    rewrite Hal in Hex1, Hwf1, Hac1, Hns1, Hre1, Hsp. cbn [fst snd] in *.
    destruct Hsp as (_ & _ & Hfr & Hval & Holdv & _ & Hn1 & _).
    assert (Hwin : new ∈ ws) by (by eapply elem_of_list_lookup_2).
    pose proof (wf_outs h Hwf _ _ _ _ Hn Ho) as Hown.
    pose proof (Hval 0 new _ _ Hw eq_refl) as Hnew.
    assert (Hofr : hv h new = None).
    { destruct (hv h new) as [x|] eqn:Hx; [|done]. apply Hex in Hx. rewrite Hfr in Hx; done. }
    assert (Hold_step : forall u, reachable h (n_ins nd) u -> reachable h [old] u /\ u <> old).
    { intros u (r & Hr0 & Hru).
      assert (input_of h old r) by (unfold input_of, parents; by rewrite Hown, Hn). split.
      - apply reachable_single. by eapply rtc_l.
      - intros ->. apply (Hac old). eapply tc_rtc_r; [by apply tc_once|done]. }
    split_and!.
    - by eapply extends_trans.
    - done.
    - done.
    - by eapply no_new_subsume_trans.
    - by exists nd, s, args.
    - done.
    - done.
    - unfold ty_of at 1. rewrite Hnew. cbn. rewrite (extends_ty h h1 old); [done| |].
      + by eapply extends_trans.
      + unfold ty_of in Hty. destruct (hv h old); [done|by cbn in Hty].
    - rewrite Hnew. done.
    - intros u Hu. destruct (Hre1 u Hwin Hu) as [->|Hu']; [by left|].
      destruct Hu' as (v & Hv & Hvu).
      destruct (Hr v u Hv) as [Hnone|Hru]; [by apply reachable_single|by left|].
      right. by apply Hold_step.
    - intros z u Hzn Hzu. destruct (decide (z ∈ ws)) as [Hzw|Hzw].
      + unfold input_of in Hzu.
        pose proof (alloc_node_parents ha (OElem s) vs [(name_of h old, ty)] z) as Hpz.
        rewrite Hal in Hpz. cbn [fst snd] in Hpz. rewrite Hpz in Hzu by done.
        destruct (Hr u u Hzu) as [Hnone|Hru]; [|by left|right; by apply Hold_step].
        apply reachable_root. by left.
      + assert (Hzu' : input_of ha z u).
        { unfold input_of, parents, owner in *. rewrite Holdv in Hzu by done.
          destruct (hv ha z) as [xz|] eqn:Hxz; [|by apply elem_of_nil in Hzu]. cbn in *.
          destruct (v_owner xz) as [[m i]|] eqn:Hvo; [|done].
          destruct (wf_owner ha Hwfa z m i) as (ndm & Hm & _); [by unfold owner; rewrite Hxz|].
          rewrite Hm. by rewrite (proj2 Hex1 _ _ Hm) in Hzu. }
        destruct (Hz z u Hzn Hzu') as [?|Hru]; [by left|right; by apply Hold_step].
    - intros D base cval rho x Hrho Hro Hev. inversion Hev; subst; try congruence.
      + unfold owner in Hown; rewrite H0 in Hown; cbn in Hown. congruence.
      + simplify_eq. rewrite Hop in *. unfold sem in H3. destruct (mapM (sarg_val base cval xs) args) as [zs|] eqn:Hzs; [|done].
        cbn in H3. eapply (ev_app _ _ _ _ _ (fresh (dom (h_nodes ha))) 0); [|by (unfold owner; rewrite Hnew)|exact Hn1| |exact H3|done].
        * by apply Hrho.
        * pose proof (He D base cval rho xs zs Hrho H2 Hzs) as Hl.
          rewrite evals_list_Forall2 in Hl. rewrite evals_list_Forall2.
          apply Forall2_lookup. intros j. apply (proj1 (Forall2_lookup _ _ _)) with (i := j) in Hl.
          cbn [n_ins]. destruct (vs !! j) as [v|] eqn:Hv; inversion Hl; subst; constructor.
          eapply extends_evals; [exact Hwfa|exact Hex1| |done]. apply Hvs. by eapply elem_of_list_lookup_2.
  Qed.
End inline_node.

Lemma inline_node_total h n nd s args :
  wf_heap h -> subsume_ok h -> hn h n = Some nd -> n_op nd = OSubsume s args ->
  exists h1 old new, inline_node h n = Some (h1, old, new) /\ n_outs nd = [old].
Proof.
  intros Hwf Hok Hn Hop. destruct (Hok _ _ _ _ Hn Hop) as [[o Ho] Hk].
  unfold inline_node. rewrite Hn. cbn. rewrite Hop, Ho. cbn.
  assert (owner h o = Some (n, 0)) as Hown by (eapply (wf_outs h Hwf); [done|by rewrite Ho]).
  assert (is_Some (hv h o)) as [x Hx].
  { unfold owner in Hown. destruct (hv h o); [done|by cbn in Hown]. }
  unfold ty_of. rewrite Hx. cbn.
  destruct (inline_args_total (v_ty x) args h (n_ins nd) Hk) as [[ha vs] ->]. cbn.
  pose proof (alloc_node_spec ha (OElem s) vs [(name_of h o, v_ty x)]) as (Hlen & _).
  destruct (alloc_node ha (OElem s) vs [(name_of h o, v_ty x)]) as [hb ws]. cbn in *.
  destruct ws as [|w ws]; [done|]. cbn. eauto.
Qed.
