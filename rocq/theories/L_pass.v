(** The subsumption pass on function graphs whose outputs are random variables. *)
From Verif Require Export L_subsume L_loop S_copy.

(** values for leaves that are not constants and for random variables *)
Definition value_env {D} (h : heap) (rho : vid -> option D) : Prop :=
  forall v, is_Some (rho v) -> is_Some (hv h v) /\ is_constant h v = false /\ (owner h v = None \/ is_draw h v).

Lemma is_draw_evolves h h' r : evolves h h' -> is_draw h r -> is_draw h' r.
Proof.
  intros [Hv Hn] (n & nd & d & Ho & Hnd & Hop). destruct (Hn _ _ Hnd) as (nd' & Hn' & Hop' & _).
  exists n, nd', d. split_and!; [|done|congruence].
  unfold owner in *. destruct (hv h r) as [x|] eqn:Hx; [|done]. by rewrite (Hv _ _ Hx).
Qed.

Lemma is_draw_some h r : is_draw h r -> is_Some (hv h r).
Proof. intros (n & nd & d & Ho & _). unfold owner in Ho. destruct (hv h r); [done|by cbn in Ho]. Qed.

Lemma value_env_evolves {D} h h' (rho : vid -> option D) : evolves h h' -> value_env h rho -> value_env h' rho.
Proof.
  intros Hev He v Hv. destruct (He v Hv) as (Hs & Hc & Ho). split; [by eapply evolves_some|]. split.
  - unfold is_constant in *. destruct Hs as [x Hx]. by rewrite Hx, (proj1 Hev _ _ Hx) in *.
  - destruct Ho as [Ho|Ho]; [left|right; by eapply is_draw_evolves]. by rewrite (evolves_owner h h').
Qed.

Lemma value_env_over {D} h (rho sigma : vid -> option D) :
  data_env h rho -> draws_env h sigma -> good_heap h -> shuffles_ok h -> value_env h (over sigma rho).
Proof.
  intros Hr Hs Hg Hsh v Hv. unfold over in Hv. destruct (sigma v) as [x|] eqn:Hx.
  - pose proof (Hs v ltac:(by eauto)) as Hd. split; [by apply is_draw_some|]. split; [|by right].
    destruct Hd as (n & nd & d & Ho & _). unfold owner in Ho. unfold is_constant.
    destruct (hv h v) as [[nm ty k o]|] eqn:Hv'; [|done]. destruct k; try done.
    pose proof (proj2 Hsh _ _ _ Hv' eq_refl). cbn in *. congruence.
  - destruct (Hr v Hv) as (A & B & C). split_and!; [done|done|by left].
Qed.

Section backward.
  Context {D : Type} (base : op -> list D -> option (list D)) (cval : nat -> D).
  Context (h : heap) (roots : list vid) (old new : vid) (rho : vid -> option D).
  Hypothesis Hnew : forall x, evals base cval (replace h roots old new).1 rho new x -> evals base cval h rho old x.

  (** the other direction of [replace_evals_same] *)
  Lemma replace_evals_back :
    (forall w x, evals base cval (replace h roots old new).1 rho w x -> forall u, reachable h roots u -> w = subst1 old new u ->
       evals base cval h rho u x) /\
    (forall ws xs, evals_list base cval (replace h roots old new).1 rho ws xs -> forall us, (forall u, u ∈ us -> reachable h roots u) ->
       ws = subst1 old new <$> us -> evals_list base cval h rho us xs).
  Proof.
    apply evals_mutind.
    - intros w x Hw u Hu ->. destruct (decide (u = old)) as [->|Hd].
      + apply Hnew. apply ev_given. by rewrite subst1_eq in Hw.
      + rewrite subst1_ne in Hw by done. by apply ev_given.
    - intros w y c Hw Hy Ho Hk u Hu ->. destruct (decide (u = old)) as [->|Hd].
      + apply Hnew. rewrite subst1_eq in *. by eapply ev_const.
      + rewrite subst1_ne in * by done. by eapply ev_const.
    - intros w n i nd xs ys x Hw Ho Hn Hl IH Hs Hi u Hu ->.
      destruct (decide (u = old)) as [->|Hd].
      + apply Hnew. rewrite subst1_eq in *. by eapply ev_app.
      + rewrite subst1_ne in * by done. rewrite replace_owner in Ho.
        assert (node_reachable h roots n) as Hnr by (by exists u, i).
        unfold replace in Hn. cbn [fst] in Hn. rewrite hn_map_nodes in Hn.
        destruct (hn h n) as [nd0|] eqn:Hn0; [|done]. cbn in Hn.
        rewrite decide_True in Hn by by apply elem_of_fg_nodes. simplify_eq.
        eapply (ev_app _ _ _ _ _ n i nd0); eauto.
        apply IH; [|done]. intros v Hv. eapply reachable_step; [exact Hu|].
        unfold input_of, parents. by rewrite Ho, Hn0.
    - intros us Hus Heq. destruct us; [|done]. constructor.
    - intros w ws x xs _ IH1 _ IH2 us Hus Heq. destruct us as [|u us]; [done|].
      cbn in Heq. injection Heq as -> ->. constructor.
      + apply IH1; [|done]. apply Hus. by left.
      + apply IH2; [|done]. intros. apply Hus. by right.
  Qed.
End backward.

Section visit.
  Context (T : tyops) (h : heap) (n : nid) (h2 : heap) (old new : vid).
  Hypothesis Hgood : good_heap h.
  Hypothesis Hsh : shuffles_ok h.
  Hypothesis Hsub : subsume_node T h n = Ok (Some (h2, old, new)).

  (** what the replacement reads: itself, a new DimShuffle, or what the original read *)
  Lemma subsume_node_reach u :
    reachable h2 [new] u -> hv h u = None \/ tc (input_of h2) old u.
  Proof.
    destruct (subsume_node_parts T h n h2 old new Hsub)
      as (s & ins & ty & h1 & items & used & args & ws & Hn & Hty & Ha & Hu & Hm & Hsv & Hal).
    destruct (subsume_node_extends T h n h2 old new Hgood Hsh Hsub) as (X1 & X2 & X3 & X4 & X5 & X6 & X7).
    destruct Hgood as (Hwf & Hac & Hok).
    assert (Hins : forall i, i ∈ ins -> is_Some (hv h i)) by (intros i Hi; by eapply (wf_ins h Hwf)).
    destruct (subsume_args_spec T _ _ _ _ _ _ Ha Hwf Hac Hsh Hins) as (A1 & A2 & A3 & A4 & A5 & A6 & A7).
    pose proof (alloc_node_parents h1 (OSubsume s args) used [(None, ty)]) as Hpar.
    pose proof (alloc_node_extends h1 (OSubsume s args) used [(None, ty)]) as Hex.
    rewrite Hal in Hpar, Hex. cbn [fst snd] in Hpar, Hex.
    assert (Hown2 : owner h2 old = Some (n, 0)).
    { exact (extends_owner h h2 old n 0 X1 X4). }
    assert (Hinp : forall i, i ∈ ins -> input_of h2 old i).
    { intros i Hi. unfold input_of, parents. by rewrite Hown2, (proj2 X1 _ _ Hn). }
    assert (Hshin : forall v o x, shuffle_of h1 v o x -> input_of h2 v x).
    { intros v o x (m & Ho & Hmn). unfold input_of, parents.
      rewrite (extends_owner h1 h2 v m 0 Hex Ho), (proj2 Hex _ _ Hmn). cbn. by left. }
    intros (r & ->%elem_of_list_singleton & Hru).
    apply rtc_inv in Hru as [<-|(w & Hw & Hwu)]; [by left|].
    unfold input_of in Hw. rewrite Hpar in Hw by (by left).
    rewrite Hu in Hw. apply elem_of_remove_constants in Hw as [Hin _].
    apply elem_of_list_fmap in Hin as (it & -> & Hit).
    apply elem_of_list_lookup in Hit as [k Hk].
    destruct (Forall2_lookup_r _ _ _ _ _ A6 Hk) as (i & Hi & Hrel). apply elem_of_list_lookup_2 in Hi.
    inversion Hrel as [|x o Hso|x y k' o Hs1 Hs2 Hfy]; subst; cbn in Hwu.
    - right. eapply tc_rtc_r; [|exact Hwu]. apply tc_once. by apply Hinp.
    - right. eapply tc_rtc_r; [|exact Hwu]. eapply tc_l; [by apply Hinp|]. apply tc_once. by eapply Hshin.
    - apply rtc_inv in Hwu as [<-|(z & Hz & Hzu)]; [by left|]. right.
      assert (z = x) as ->.
      { destruct Hs2 as (m & Ho & Hmn). unfold input_of, parents in Hz.
        rewrite (extends_owner h1 h2 y m 0 Hex Ho), (proj2 Hex _ _ Hmn) in Hz. cbn in Hz.
        by apply elem_of_list_singleton in Hz. }
      eapply tc_rtc_r; [|exact Hzu]. eapply tc_l; [by apply Hinp|]. apply tc_once. by eapply Hshin.
  Qed.

  Lemma subsume_node_avoids : ~ reachable h2 [new] old.
  Proof.
    intros Hr. destruct (subsume_node_extends T h n h2 old new Hgood Hsh Hsub) as (X1 & (_ & X2 & _) & _ & X4 & _).
    destruct (subsume_node_reach old Hr) as [Hn|Hc]; [|by apply (X2 old)].
    unfold owner in X4. by rewrite Hn in X4.
  Qed.
End visit.

(** what the pass keeps of a function graph [(h, roots)] *)
Record kept (h : heap) (roots : list vid) (h' : heap) : Prop := Kept {
  kp_good : good_heap h';
  kp_sh : shuffles_ok h';
  kp_ev : evolves h h';
  kp_out : forall n nd, hn h n = Some nd -> ~ node_reachable h roots n -> hn h' n = Some nd;
  kp_reach : forall u, reachable h' roots u -> reachable h roots u \/ hv h u = None;
  kp_val : forall D (base : op -> list D -> option (list D)) cval ld (rho sigma : vid -> option D),
    shuffle_law base -> value_env h (over sigma rho) ->
    forall r l, r ∈ roots -> factor base cval ld h rho sigma r l <-> factor base cval ld h' rho sigma r l;
}.

Lemma kept_refl h roots : good_heap h -> shuffles_ok h -> kept h roots h.
Proof. intros Hg Hs. constructor; try done; [apply evolves_refl|by left]. Qed.

Lemma kept_trans h1 h2 h3 roots : wf_heap h1 -> kept h1 roots h2 -> kept h2 roots h3 -> kept h1 roots h3.
Proof.
  intros Hwf [A1 A2 A3 A4 A5 A6] [B1 B2 B3 B4 B5 B6]. constructor; try done.
  - by eapply evolves_trans.
  - intros n nd Hn Hnr. apply B4; [by apply A4|]. intros (v & i & Hv & Ho). apply Hnr.
    destruct (wf_owner _ (proj1 A1) _ _ _ Ho) as (nd2 & Hn2 & Hi).
    destruct (proj2 A3 _ _ Hn) as (nd' & Hn' & _ & Hou & _). rewrite Hn2 in Hn'. injection Hn' as <-.
    rewrite Hou in Hi. pose proof (wf_outs _ Hwf _ _ _ _ Hn Hi) as Ho1.
    destruct (A5 v Hv) as [Hv1|Hv1]; [by exists v, i|]. unfold owner in Ho1. by rewrite Hv1 in Ho1.
  - intros u Hu. destruct (B5 u Hu) as [Hu2|Hu2]; [by apply A5|right].
    destruct (hv h1 u) as [x|] eqn:Hx; [|done]. apply A3 in Hx. congruence.
  - intros D base cval ld rho sigma Hl He r l Hr. rewrite (A6 D base cval ld rho sigma Hl He r l Hr).
    apply B6; try done. by eapply value_env_evolves.
Qed.

Lemma extends_reach_roots h h' roots u :
  extends h h' -> wf_heap h -> (forall r, r ∈ roots -> is_Some (hv h r)) ->
  reachable h' roots u <-> reachable h roots u.
Proof. intros He Hw Hr. by apply extends_reachable_list. Qed.

Lemma visit_kept T h roots n :
  good_heap h -> shuffles_ok h -> (forall r, r ∈ roots -> is_draw h r) ->
  (subsume_visit T (h, roots) n).2 = roots /\ kept h roots (subsume_visit T (h, roots) n).1.
Proof.
  intros Hg Hs Hr. unfold subsume_visit. cbn [fst snd].
  destruct (subsume_node T h n) as [[[[h2 old] new]|]|e] eqn:Hsub;
    [|split; [done|by apply kept_refl]..].
  pose proof (subsume_node_reach T h n h2 old new Hg Hs Hsub) as Hreach.
  pose proof (subsume_node_avoids T h n h2 old new Hg Hs Hsub) as Hav.
  destruct (subsume_node_parts T h n h2 old new Hsub)
    as (s & ins & ty & h1 & items & used & args & ws & Hn & _).
  destruct (subsume_node_extends T h n h2 old new Hg Hs Hsub) as (X1 & X2 & X3 & X4 & X5 & X6 & X7).
  assert (Hro : forall r, r ∈ roots -> r <> old).
  { intros r Hin ->. destruct (Hr _ Hin) as (m & nd & d & Ho & Hm & Hop). rewrite X4 in Ho. done. }
  assert (Hrs : forall r, r ∈ roots -> is_Some (hv h r)) by (intros r Hin; by apply is_draw_some, Hr).
  assert (Hroots : (replace h2 roots old new).2 = roots).
  { unfold replace. cbn [snd]. rewrite <- (list_fmap_id roots) at 2. apply list_fmap_ext.
    intros i r Hi. apply subst1_ne. apply Hro. by eapply elem_of_list_lookup_2. }
  split; [done|].
  destruct X2 as (W2 & C2 & O2).
  constructor.
  - split_and!; [by apply replace_wf|by apply replace_acyclic|by apply replace_subsume_ok].
  - destruct X3 as [S1 S2]. split; [|done]. intros m nd o Hm Hop.
    destruct (replace_n_op _ _ _ _ _ _ Hm) as (nd0 & Hm0 & E1 & E2 & E3). rewrite E1 in Hop.
    destruct (S1 _ _ _ Hm0 Hop) as [[x Hx] Hv]. rewrite E2. split; [|done].
    rewrite Hx in E3. destruct (n_ins nd) as [|y [|]]; try done. by exists y.
  - eapply evolves_trans; [by apply extends_evolves|apply replace_evolves].
  - intros m nd Hm Hnr. rewrite replace_hn_out; [by apply X1|]. intros (v & i & Hv & Ho). apply Hnr.
    apply (extends_reach_roots h h2) in Hv; [|done|apply Hg|done]. exists v, i. split; [done|].
    rewrite <- Ho. symmetry. apply extends_owner_old; [done|]. eapply wf_reachable; [apply Hg|exact Hrs|done].
  - intros u Hu.
    destruct (decide (n ∈ fg_nodes h2 roots)) as [Hin|Hin].
    + assert (Hu' : reachable (replace h2 roots old new).1 (replace h2 roots old new).2 u) by (by rewrite Hroots).
      clear Hu. rename Hu' into Hu. apply replace_reachable in Hu as [[Hu _]|Hu]; [| |done].
      * left. by apply (extends_reach_roots h h2) in Hu; [|done|apply Hg|done].
      * destruct (Hreach u Hu) as [Hf|Hf]; [by right|left].
        apply elem_of_fg_nodes in Hin as (v & i & Hv & Ho).
        assert (v = old) as ->.
        { destruct (wf_owner _ W2 _ _ _ Ho) as (nd & Hnd & Hi). pose proof (proj2 X1 _ _ Hn) as Hn2.
          rewrite Hn2 in Hnd. injection Hnd as <-. cbn in Hi. destruct i; [by injection Hi|done]. }
        apply (extends_reach_roots h h2); [done|apply Hg|done|].
        destruct Hv as (r & Hrr & Hrv). exists r. split; [done|]. etrans; [exact Hrv|]. by apply tc_rtc.
    + left. destruct Hu as (r & Hrr & Hru).
      assert (Hrn : ~ reachable h2 [r] old).
      { intros Hro'. apply Hin. apply elem_of_fg_nodes. exists old, 0. split.
        - destruct Hro' as (r' & ->%elem_of_list_singleton & Hp). by exists r.
        - exact (extends_owner h h2 old n 0 X1 X4). }
      apply (extends_reach_roots h h2); [done|apply Hg|done|].
      assert (Hu2 : reachable h2 [r] u).
      { apply (replace_reachable_avoid h2 roots old new r Hrn). exists r. split; [by left|done]. }
      destruct Hu2 as (r' & ->%elem_of_list_singleton & Hp). by exists r.
  - intros D base cval ld rho sigma Hlaw He r l Hin.
    set (env := over sigma rho) in *.
    assert (Hnode : forall v, is_Some (env v) -> forall m j nd, owner h v = Some (m, j) -> hn h m = Some nd -> exists d, n_op nd = ORV d).
    { intros v Hv m j nd Ho Hm. destruct (He v Hv) as (_ & _ & [Ho'|(m' & nd' & d & Ho' & Hm' & Hop)]); [congruence|].
      rewrite Ho in Ho'. injection Ho' as <- ->. rewrite Hm in Hm'. injection Hm' as <-. by exists d. }
    assert (Henv : env_on h env).
    { intros v Hv. destruct (env v) as [x|] eqn:Hx; [|done]. destruct (He v) as ([? ?] & _); [by eauto|congruence]. }
    assert (Hro1 : env old = None).
    { destruct (env old) as [x|] eqn:Hx; [|done]. destruct (Hnode old ltac:(by eauto) _ _ _ X4 Hn) as [d Hd]. done. }
    assert (Hrc : forall v, is_constant h v = true -> env v = None).
    { intros v Hv. destruct (env v) as [x|] eqn:Hx; [|done]. destruct (He v) as (_ & Hc & _); [by eauto|congruence]. }
    assert (Hrsh : forall i o x, input_of h old i -> shuffle_of h i o x -> env i = None).
    { intros i o x _ (m & Ho & Hm). destruct (env i) as [y|] eqn:Hx; [|done].
      destruct (Hnode i ltac:(by eauto) _ _ _ Ho Hm) as [d Hd]. done. }
    pose proof (subsume_node_value T h n h2 old new Hg Hs Hsub base cval env Hlaw Henv Hrc Hro1 Hrsh) as Hval.
    assert (Hold : is_Some (hv h old)) by (unfold owner in X4; destruct (hv h old); [done|by cbn in X4]).
    assert (H2 : forall u x, is_Some (hv h u) -> evals base cval h2 env u x <-> evals base cval h env u x).
    { intros u x Hu. symmetry. apply extends_evals_iff; try done. apply Hg. }
    assert (Hfw : forall x, evals base cval h2 env old x -> evals base cval (replace h2 roots old new).1 env new x).
    { intros x Hx. apply replace_evals_avoid; [done|]. apply Hval. by apply H2. }
    assert (Hbw : forall x, evals base cval (replace h2 roots old new).1 env new x -> evals base cval h2 env old x).
    { intros x Hx. apply replace_evals_avoid in Hx; [|done]. apply H2; [done|]. by apply Hval. }
    (* the node of [r] reads the replaced inputs *)
    destruct (Hr _ Hin) as (m & nd & d & Ho & Hm & Hop).
    assert (Hm2 : hn h2 m = Some nd) by (by apply X1).
    assert (Ho2 : owner h2 r = Some (m, 1)) by (exact (extends_owner h h2 r m 1 X1 Ho)).
    assert (Hnr : node_reachable h2 roots m). { exists r, 1. split; [by apply reachable_root|done]. }
    assert (Hm3 : hn (replace h2 roots old new).1 m = Some (set_ins nd (subst1 old new))).
    { unfold replace. cbn [fst]. rewrite hn_map_nodes, Hm2. cbn. by rewrite decide_True by by apply elem_of_fg_nodes. }
    assert (Hri : forall u, u ∈ tail (n_ins nd) -> reachable h2 roots u /\ is_Some (hv h u)).
    { intros u Hu. assert (Hu' : u ∈ n_ins nd) by (destruct (n_ins nd); [done|by right]).
      split; [by eapply node_reachable_ins|]. by eapply (wf_ins h (proj1 Hg)). }
    assert (Hlist : forall us xs, (forall u, u ∈ us -> reachable h2 roots u /\ is_Some (hv h u)) ->
      evals_list base cval h env us xs <-> evals_list base cval (replace h2 roots old new).1 env (subst1 old new <$> us) xs).
    { induction us as [|u us IH]; intros xs Hus; cbn.
      - split; intros Hx; inversion Hx; constructor.
      - destruct (Hus u) as [Hu1 Hu2]; [by left|].
        assert (IH' := fun ys => IH ys (fun w Hw => Hus w (elem_of_list_further _ _ _ Hw))).
        split; intros Hx; inversion Hx as [|? ? a as' Hax Has]; subst; constructor.
        + apply replace_evals_same; [done|by apply H2|by left].
        + by apply IH'.
        + apply H2; [done|]. by eapply (proj1 (replace_evals_back base cval h2 roots old new env Hbw)).
        + by apply IH'. }
    unfold factor. fold env. split.
    + intros (m' & nd' & d' & xs & x & F1 & F2 & F3 & F4 & F5 & F6).
      rewrite Ho in F1. injection F1 as <-. rewrite Hm in F2. injection F2 as <-.
      exists m, (set_ins nd (subst1 old new)), d', xs, x. split_and!; try done.
      cbn. rewrite <- fmap_tail. by apply Hlist.
    + intros (m' & nd' & d' & xs & x & F1 & F2 & F3 & F4 & F5 & F6).
      rewrite replace_owner, Ho2 in F1. injection F1 as <-. rewrite Hm3 in F2. injection F2 as <-.
      exists m, nd, d', xs, x. split_and!; try done.
      cbn in F5. rewrite <- fmap_tail in F5. by apply Hlist.
Qed.

Lemma pass_kept T ns : forall h roots,
  good_heap h -> shuffles_ok h -> (forall r, r ∈ roots -> is_draw h r) ->
  (subsume_pass T (h, roots) ns).2 = roots /\ kept h roots (subsume_pass T (h, roots) ns).1.
Proof.
  induction ns as [|n ns IH]; intros h roots Hg Hs Hr; cbn [subsume_pass].
  { split; [done|by apply kept_refl]. }
  destruct (visit_kept T h roots n Hg Hs Hr) as [H1 H2].
  destruct (subsume_visit T (h, roots) n) as [h' roots']. cbn [fst snd] in *. subst roots'.
  destruct (IH h' roots) as [I1 I2]; [apply H2|apply H2| |].
  { intros r Hin. eapply is_draw_evolves; [apply H2|by apply Hr]. }
  split; [done|]. eapply kept_trans; [apply Hg|done|done].
Qed.

(** sampler_ir_db meets the contract when Aesara's canonicalisation does *)
Lemma ir_canon_ok T visits after : canon_ok after -> canon_ok (ir_canon T visits after).
Proof.
  intros Hc h outs Hg Hs Hr. unfold ir_canon.
  destruct (pass_kept T (visits h outs) h outs Hg Hs Hr) as [H1 H2].
  destruct (subsume_pass T (h, outs) (visits h outs)) as [h1 outs1]. cbn [fst snd] in *. subst outs1.
  destruct H2 as [A1 A2 A3 A4 A5 A6].
  destruct (Hc h1 outs A1 A2) as (B1 & B2 & B3 & B4 & B5 & B6).
  { intros r Hin. eapply is_draw_evolves; [done|by apply Hr]. }
  split_and!; try done.
  - intros n nd Hn. destruct (proj2 A3 _ _ Hn) as (nd1 & Hn1 & Ho1 & _).
    destruct (B3 _ _ Hn1) as (nd2 & Hn2 & Ho2). exists nd2. split; [done|congruence].
  - intros v x Hx. apply B4. by apply A3.
  - intros n nd Hn Hnr. apply B5; [by apply A4|]. intros (v & i & Hv & Ho). apply Hnr.
    destruct (wf_owner _ (proj1 A1) _ _ _ Ho) as (nd2 & Hn2 & Hi).
    destruct (proj2 A3 _ _ Hn) as (nd' & Hn' & _ & Hou & _). rewrite Hn2 in Hn'. injection Hn' as <-.
    rewrite Hou in Hi. pose proof (wf_outs _ (proj1 Hg) _ _ _ _ Hn Hi) as Ho1.
    destruct (A5 v Hv) as [Hv1|Hv1]; [by exists v, i|]. unfold owner in Ho1. by rewrite Hv1 in Ho1.
  - intros u Hu. destruct (B6 u Hu) as [Hu2|Hu2]; [by apply A5|right].
    destruct (hv h u) as [x|] eqn:Hx; [|done]. apply A3 in Hx. congruence.
Qed.

(** and it keeps densities when Aesara's canonicalisation does *)
Lemma ir_canon_keeps {D} (base : op -> list D -> option (list D)) cval ld T visits after :
  shuffle_law base -> keeps_densities base cval ld after -> keeps_densities base cval ld (ir_canon T visits after).
Proof.
  intros Hlaw Hc h outs Hg Hs Hr rho sigma He1 He2 r l Hin. unfold ir_canon.
  destruct (pass_kept T (visits h outs) h outs Hg Hs Hr) as [H1 H2].
  destruct (subsume_pass T (h, outs) (visits h outs)) as [h1 outs1]. cbn [fst snd] in *. subst outs1.
  destruct H2 as [A1 A2 A3 A4 A5 A6].
  rewrite (A6 D base cval ld rho sigma Hlaw (value_env_over h rho sigma He1 He2 Hg Hs) r l Hin).
  apply Hc; try done.
  - intros r' Hin'. eapply is_draw_evolves; [done|by apply Hr].
  - intros v Hv. destruct (He1 v Hv) as (B1 & B2 & B3). split_and!.
    + by eapply evolves_some.
    + by rewrite (evolves_owner h h1).
    + unfold is_constant in *. destruct B1 as [x Hx]. by rewrite Hx, (proj1 A3 _ _ Hx) in *.
  - intros v Hv. eapply is_draw_evolves; [done|by apply He2].
Qed.
