(** What the posteriors of conjugates.py are made of: new nodes on top of the variables matched by
    the pattern. *)
From Verif Require Export L_elem_value L_conjugates.

Section made.
  Context (h0 : heap) (L : list vid).

  (** [x] is one of [L], or new since [h0] and computed from such variables *)
  Inductive made (h : heap) : vid -> Prop :=
    | made_leaf x : x ∈ L -> made h x
    | made_new x : hv h0 x = None -> is_Some (hv h x) -> (forall u, input_of h x u -> made h u) -> made h x.

  Lemma made_extends h h' x : wf_heap h -> extends h h' -> made h x -> made h' x.
  Proof.
    intros Hwf He. induction 1 as [x Hx|x Hn Hs Hi IH]; [by apply made_leaf|]. apply made_new; [done|by eapply extends_some|].
    intros u Hu. apply IH. unfold input_of, parents in *. rewrite (extends_owner_old h h' x He Hs) in Hu.
    destruct (owner h x) as [[n i]|] eqn:Ho; [|done]. destruct (wf_owner h Hwf x n i Ho) as (nd & Hnd & _).
    rewrite (proj2 He _ _ Hnd) in Hu. by rewrite Hnd.
  Qed.
  Lemma made_default h r u x : made h x -> made (set_default h r u) x.
  Proof.
    induction 1 as [x Hx|x Hn Hs Hi IH]; [by apply made_leaf|]. apply made_new; [done|by apply set_default_some|].
    intros w Hw. apply IH. unfold input_of in *. by rewrite set_default_parents in Hw.
  Qed.
  Lemma made_var h x : extends h0 h -> v_owner x = None -> made (alloc_var h x).1 (alloc_var h x).2.
  Proof.
    intros He Hx. pose proof (alloc_var_new h x) as Hn. apply made_new.
    - apply (fresh_old h0 h); [done|]. apply alloc_var_fresh.
    - by eauto.
    - intros u. unfold input_of, parents, owner. rewrite Hn. cbn. rewrite Hx. by intros ?%elem_of_nil.
  Qed.
  Lemma made_node h o ins tys : good_heap h -> extends h0 h -> (forall u, u ∈ ins -> made h u) ->
    forall v, v ∈ (alloc_node h o ins tys).2 -> made (alloc_node h o ins tys).1 v.
  Proof.
    intros Hg He Hi v Hv. pose proof (alloc_node_extends h o ins tys) as Hex.
    destruct (alloc_node_spec h o ins tys) as (Hlen & _ & Hfr & Hval & _ & _ & Hn & _).
    apply elem_of_list_lookup in Hv as [k Hk].
    destruct (lookup_lt_is_Some_2 tys k) as [[nm ty] Hty]; [rewrite <- Hlen; by eapply lookup_lt_Some|].
    pose proof (Hval k v nm ty Hk Hty) as Hv. apply made_new.
    - apply (fresh_old h0 h); [done|]. apply Hfr. by eapply elem_of_list_lookup_2.
    - by eauto.
    - assert (Ho : owner (alloc_node h o ins tys).1 v = Some (fresh (dom (h_nodes h)), k)) by (unfold owner; by rewrite Hv).
      intros u. unfold input_of, parents. rewrite Ho, Hn. cbn [n_ins]. intros Hu.
      eapply made_extends; [apply Hg|exact Hex|by apply Hi].
  Qed.
  Lemma made_apply1 h o ins ty : good_heap h -> extends h0 h -> (forall u, u ∈ ins -> made h u) ->
    made (apply1 h o ins ty).1 (apply1 h o ins ty).2.
  Proof.
    intros Hg He Hi. pose proof (made_node h o ins [(None, ty)] Hg He Hi) as H. rewrite apply1_alloc in H. cbn [fst snd] in H.
    apply H. by left.
  Qed.

  Section build.
    Context (B : builder).
    Notation some h v := (is_Some (hv h v)).
    Lemma made_pads n vs : forall h, good_heap h -> extends h0 h -> (forall v, v ∈ vs -> some h v) -> (forall v, v ∈ vs -> made h v) ->
      let r := pad_vars B n h vs in good_heap r.1 /\ extends h r.1 /\ (forall v, v ∈ r.2 -> some r.1 v) /\ forall v, v ∈ r.2 -> made r.1 v.
    Proof.
      induction vs as [|v vs IH]; intros h Hg He Hs Hm; cbn.
      - split; [done|]. split; [apply extends_refl|]. split; by intros ? ?%elem_of_nil.
      - pose proof (pad_var_ok h (fun _ => True) B n h v ltac:(split; [apply extends_refl|done]) ltac:(split; [apply Hs; by left|by left])) as Hp.
        assert (Mp : made (pad_var B n h v).1 (pad_var B n h v).2).
        { unfold pad_var. case_decide; [apply Hm; by left|]. apply (made_apply1 h _ [v]); [done|done|].
          intros u ->%elem_of_list_singleton. apply Hm. by left. }
        cbv zeta in Hp. destruct (pad_var B n h v) as [h1 w]. cbn in Hp, Mp. destruct Hp as (E1 & [_ G1] & [Sw _]).
        specialize (IH h1 G1 (extends_trans _ _ _ He E1)). destruct (pad_vars B n h1 vs) as [h2 ws]. cbn in IH.
        destruct IH as (G2 & E2 & S2 & M2).
        { intros u Hu. eapply extends_some; [done|]. apply Hs. by right. }
        { intros u Hu. eapply made_extends; [apply Hg|done|]. apply Hm. by right. }
        cbn. split; [done|]. split; [by eapply extends_trans|]. split.
        + intros u [->|Hu]%elem_of_cons; [by eapply extends_some|by apply S2].
        + intros u [->|Hu]%elem_of_cons; [eapply made_extends; [apply G1|done|done]|by apply M2].
    Qed.
    Lemma made_elem h s vs : good_heap h -> extends h0 h -> (forall v, v ∈ vs -> some h v) -> (forall v, v ∈ vs -> made h v) ->
      let r := mk_elem B h s vs in good_heap r.1 /\ extends h r.1 /\ some r.1 r.2 /\ made r.1 r.2.
    Proof.
      intros Hg He Hs Hm. destruct (mk_elem_struct B h s vs Hg Hs) as (A1 & A2 & A3). cbv zeta. split; [done|]. split; [done|]. split; [done|].
      unfold mk_elem. pose proof (made_pads (foldr Nat.max 0 ((fun v => a_ndim B (ty_def h v)) <$> vs)) vs h Hg He Hs Hm) as Hp. cbv zeta in Hp.
      destruct (pad_vars B _ h vs) as [h1 ws]. cbn [fst snd] in Hp. destruct Hp as (G1 & E1 & S1 & M1).
      apply made_apply1; [done|by eapply extends_trans|done].
    Qed.
    Lemma made_const h c : good_heap h -> extends h0 h ->
      let r := mk_const h c in good_heap r.1 /\ extends h r.1 /\ some r.1 r.2 /\ made r.1 r.2.
    Proof.
      intros Hg He. destruct (mk_const_struct h c Hg) as (A1 & A2 & A3). cbv zeta. split; [done|]. split; [done|]. split; [done|].
      apply made_var; done.
    Qed.
    (** a draw: its generator is new *)
    Lemma made_gen h d ins : good_heap h -> extends h0 h -> (forall v, v ∈ ins -> some h v) -> (forall v, v ∈ ins -> made h v) ->
      let r := gen B h (ORV d) ins in good_heap r.1 /\ extends h r.1 /\ made r.1 r.2.2 /\
        exists n, owner r.1 r.2.2 = Some (n, 1) /\ hn r.1 n = Some (Node (ORV d) (r.2.1.1 :: ins) [r.2.1.2; r.2.2]) /\
          hv h0 r.2.2 = None /\ hv h0 r.2.1.1 = None /\ some r.1 r.2.1.1 /\ owner r.1 r.2.1.1 = None /\ is_shared r.1 r.2.1.1 = true.
    Proof.
      intros Hg He Hs Hm. cbv zeta.
      pose proof (gen_ok h (fun _ => True) B h (ORV d) ins ltac:(done) ltac:(split; [apply extends_refl|done])
        ltac:(intros u Hu; split; [by apply Hs|by left])) as H0.
      unfold gen in *. set (w := Var None (b_rng B) (KShared None) None) in *.
      pose proof (alloc_var_new h w) as Hw. pose proof (alloc_var_fresh h w) as Hfw. pose proof (alloc_var_extends h w) as Ew.
      pose proof (alloc_var_good h w eq_refl Hg) as Gw. pose proof (made_var h w He eq_refl) as Mw.
      destruct (alloc_var h w) as [h1 r]. cbn [fst snd] in Hw, Hfw, Ew, Gw, Mw.
      assert (Hi : forall u, u ∈ r :: ins -> made h1 u).
      { intros u [->|Hu]%elem_of_cons; [done|]. eapply made_extends; [apply Hg|done|by apply Hm]. }
      pose proof (made_node h1 (ORV d) (r :: ins) [(None, b_rng B); (None, b_draw B h (ORV d) ins)] Gw (extends_trans _ _ _ He Ew) Hi) as Hv2.
      destruct (alloc_node_spec h1 (ORV d) (r :: ins) [(None, b_rng B); (None, b_draw B h (ORV d) ins)]) as (_ & _ & Hfr & Hval & _ & _ & Hn & _).
      rewrite apply_rng_alloc in Hv2, Hfr, Hval, Hn. destruct (apply_rng h1 (ORV d) (r :: ins) _ _) as [[h2 r'] x].
      cbn [fst snd] in *. destruct H0 as (E & [_ G] & [Sr _] & _ & _ & Hro & _ & Hrs).
      split; [done|]. split; [done|]. split; [apply made_default, Hv2; right; by left|].
      exists (fresh (dom (h_nodes h1))). rewrite set_default_owner, set_default_hn. split; [|split; [done|]].
      - unfold owner. by rewrite (Hval 1 x _ _ eq_refl eq_refl).
      - split; [|split; [by apply (fresh_old h0 h)|done]]. apply (fresh_old h0 h1); [by eapply extends_trans|]. apply Hfr. right. by left.
    Qed.
  End build.
End made.

(** the step returned by one of the conjugate finders *)
Record conj_step (L : list vid) (hj h' : heap) (post : vid) (d : nat) : Prop := ConjStep {
  cs_ext : extends hj h';
  cs_good : good_heap h';
  cs_made : made hj L h' post;
  cs_new : hv hj post = None;
  cs_draw : exists n r r' size dtype a b, owner h' post = Some (n, 1) /\ hn h' n = Some (Node (ORV d) [r; size; dtype; a; b] [r'; post]) /\
    hv hj r = None /\ is_Some (hv h' r) /\ owner h' r = None /\ is_shared h' r = true;
}.

Section conj.
  Context (B : builder).
  Lemma bb_step h n nd y nn p size dtype a b :
    good_heap h -> hn h n = Some nd -> n_outs nd !! 1 = Some y ->
    rv_node h y RV_binomial [nn; p] -> rv_full h p RV_beta size dtype [a; b] ->
    exists h' post, local_beta_binomial_posterior B h n = (h', Ok [(p, post, [])]) /\
      conj_step [size; dtype; a; b; nn; y] h h' post RV_beta.
  Proof.
    intros Hg Hn Hy Hrv Hfull. unfold local_beta_binomial_posterior, with_rv. rewrite Hn, Hy.
    destruct (umatch_beta_binomial h y p nn size dtype a b Hrv Hfull) as [r ->].
    change (dget _ size_lv) with (Some size). change (dget _ dtype_lv) with (Some dtype). change (dget _ alpha_lv) with (Some a).
    change (dget _ prior_beta_lv) with (Some b). change (dget _ n_lv) with (Some nn).
    rewrite (rv_node_last h n nd y RV_binomial [nn] p Hg Hn Hy Hrv). cbv beta iota.
    pose proof (out_some _ _ _ _ _ Hg Hn Hy) as Sy. pose proof (rv_full_params _ _ _ _ _ _ Hg Hfull) as Sp.
    pose proof (Sp a ltac:(do 2 right; by left)) as Sa. pose proof (Sp b ltac:(do 3 right; by left)) as Sb.
    pose proof (Sp size ltac:(by left)) as Ss. pose proof (Sp dtype ltac:(right; by left)) as Sd.
    pose proof (rv_node_params _ _ _ _ Hg Hrv nn ltac:(by left)) as Sn.
    set (L := [size; dtype; a; b; nn; y]).
    assert (ML : forall k u, u ∈ L -> made h L k u) by (intros; by apply made_leaf).
    unfold beta_binomial_posterior.
    pose proof (made_elem h L B h E_add [a; y] Hg (extends_refl h) (two_some _ _ _ Sa Sy)) as T1. cbv zeta in T1.
    destruct (mk_elem B h E_add [a; y]) as [h1 na]. cbn [fst snd] in T1. destruct T1 as (G1 & E1 & Sna & M1).
    { intros v Hv. apply ML. unfold L. set_solver. }
    pose proof (made_elem h L B h1 E_add [b; nn] G1 E1 (two_some _ _ _ (extends_some _ _ _ E1 Sb) (extends_some _ _ _ E1 Sn))) as T2. cbv zeta in T2.
    destruct (mk_elem B h1 E_add [b; nn]) as [h2 sm]. cbn [fst snd] in T2. destruct T2 as (G2 & E2 & Ssm & M2).
    { intros v Hv. apply ML. unfold L. set_solver. }
    pose proof (extends_trans _ _ _ E1 E2) as E12.
    pose proof (made_elem h L B h2 E_sub [sm; y] G2 E12 (two_some _ _ _ Ssm (extends_some _ _ _ E12 Sy))) as T3. cbv zeta in T3.
    destruct (mk_elem B h2 E_sub [sm; y]) as [h3 nb]. cbn [fst snd] in T3. destruct T3 as (G3 & E3 & Snb & M3).
    { intros v [->|[->|?%elem_of_nil]%elem_of_cons]%elem_of_cons; [done| |done]. apply ML. unfold L. set_solver. }
    pose proof (extends_trans _ _ _ E12 E3) as E13. pose proof (extends_trans _ _ _ E2 E3) as E23.
    unfold gen_beta.
    pose proof (made_gen h L B h3 RV_beta [size; dtype; na; nb] G3 E13) as T4. cbv zeta in T4.
    destruct (gen B h3 _ _) as [h4 [[r1 r2] post]]. cbn [fst snd] in T4. destruct T4 as (G4 & E4 & M4 & m & O4 & N4 & F4 & R4 & R5 & R6 & R7).
    { intros u [->|[->|[->|[->|?%elem_of_nil]%elem_of_cons]%elem_of_cons]%elem_of_cons]%elem_of_cons; try done;
        [exact (extends_some _ _ _ E13 Ss)|exact (extends_some _ _ _ E13 Sd)|exact (extends_some _ _ _ E23 Sna)]. }
    { intros u [->|[->|[->|[->|?%elem_of_nil]%elem_of_cons]%elem_of_cons]%elem_of_cons]%elem_of_cons; try done.
      - apply ML. unfold L. set_solver.
      - apply ML. unfold L. set_solver.
      - eapply made_extends; [apply G1|exact E23|done]. }
    exists h4, post. split; [done|]. split; [by eapply extends_trans|done|done|done|]. by exists m, r1, r2, size, dtype, na, nb.
  Qed.
End conj.
