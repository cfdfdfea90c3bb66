(** The values of the expressions that the finders build. *)
From Verif Require Export S_conjugates L_build.
Global Open Scope nat_scope.

Section value.
  Context (B : builder) (HB : builder_ok B).
  Context (scalar : nat -> list R -> option R) (other : op -> list (tensor R) -> option (list (tensor R))) (cval : nat -> tensor R).
  Context (rho : vid -> option (tensor R)).
  Notation ev := (evals (tensor_base scalar other) cval).
  Notation evl := (evals_list (tensor_base scalar other) cval).
  Notation hasv h := (has_value B scalar other cval h rho).

  Lemma gives_old_extends h h' : extends h h' -> gives_old h rho -> gives_old h' rho.
  Proof. intros He Ho v Hv. eapply extends_some; [done|]. by apply Ho. Qed.

  Lemma gives_old_None h v : gives_old h rho -> hv h v = None -> rho v = None.
  Proof. intros Ho Hv. destruct (rho v) eqn:E; [|done]. destruct (Ho v) as [x Hx]; [eauto|]. congruence. Qed.

  Lemma ev_exists h v x : gives_old h rho -> ev h rho v x -> is_Some (hv h v).
  Proof.
    intros Ho He. inversion He as [? ? Hr|? w c _ Hw|? n i nd xs ys ? _ Hown]; subst; [by eapply Ho|by eauto|].
    unfold owner in Hown. destruct (hv h v); [by eauto|by cbn in Hown].
  Qed.

  Lemma has_extends h h' v x : wf_heap h -> extends h h' -> gives_old h rho -> hasv h v x -> hasv h' v x.
  Proof.
    intros Hwf He Ho [H1 H2]. pose proof (ev_exists h v x Ho H1) as Hs. split.
    - by apply (extends_evals_iff _ _ h h').
    - by rewrite (ty_def_extends h h').
  Qed.

  Lemma has_list_extends h h' vs xs : wf_heap h -> extends h h' -> gives_old h rho -> Forall2 (hasv h) vs xs -> Forall2 (hasv h') vs xs.
  Proof. intros Hwf He Ho H. eapply Forall2_impl; [exact H|]. intros. by eapply has_extends. Qed.

  Lemma apply1_struct h o ins ty :
    let r := apply1 h o ins ty in
    hv h r.2 = None /\ hv r.1 r.2 = Some (Var None ty KPlain (Some (fresh (dom (h_nodes h)), 0))) /\
    hn r.1 (fresh (dom (h_nodes h))) = Some (Node o ins [r.2]).
  Proof.
    pose proof (apply1_alloc h o ins ty) as Ha. destruct (alloc_node_spec h o ins [(None, ty)]) as (_ & _ & Hf & Hv & _ & _ & Hn & _).
    rewrite Ha in *. cbn in *. split; [apply Hf; by left|]. split; [|done]. by apply (Hv 0).
  Qed.

  Lemma apply1_value h o ins ty xs ys z : (forall s a, o <> OSubsume s a) -> good_heap h -> gives_old h rho ->
    evl h rho ins xs -> tensor_base scalar other o xs = Some ys -> ys !! 0 = Some z ->
    let r := apply1 h o ins ty in ev r.1 rho r.2 z /\ ty_def r.1 r.2 = ty.
  Proof.
    intros Hop Hg Hold Hl Hb Hz. destruct (apply1_struct h o ins ty) as (Hf & Hv & Hn). cbv zeta.
    assert (He : extends h (apply1 h o ins ty).1).
    { pose proof (alloc_node_extends h o ins [(None, ty)]) as H. by rewrite apply1_alloc in H. }
    split; [|unfold ty_def, ty_of; by rewrite Hv]. eapply ev_app.
    - by eapply gives_old_None.
    - unfold owner. rewrite Hv. reflexivity.
    - exact Hn.
    - cbn. assert (Hin : forall v, v ∈ ins -> is_Some (hv h v)).
      { intros v Hvin. apply elem_of_list_lookup in Hvin as [i Hi].
        destruct (evals_list_lookup _ _ _ _ _ _ _ _ Hl Hi) as (x & _ & Hx). by eapply ev_exists. }
      rewrite evals_list_Forall2 in *. eapply Forall2_impl; [exact Hl|]. cbn. intros v x Hx. apply (extends_evals_iff _ _ h); [apply Hg|done| |done].
      by eapply ev_exists.
    - destruct o; try exact Hb. by destruct (Hop s args).
    - done.
  Qed.

  Lemma pad_var_value n h v x y : good_heap h -> gives_old h rho -> hasv h v x -> pad n x = Some y ->
    let r := pad_var B n h v in extends h r.1 /\ good_heap r.1 /\ ev r.1 rho r.2 y.
  Proof.
    intros Hg Ho [Hx Hr] Hp. unfold pad_var. unfold pad in Hp. rewrite <- Hr. case_decide as Hd; cbv zeta.
    - injection Hp as <-. split; [apply extends_refl|done].
    - destruct (apply1_ok h (fun _ => True) h (ODimShuffle (replicate (n - rank x) None ++ (Some <$> seq 0 (rank x)))) [v]
        (b_shuffle B (replicate (n - rank x) None ++ (Some <$> seq 0 (rank x))) (ty_def h v))) as (A & C & _); [done| | |].
      + split; [apply extends_refl|done].
      + intros u ->%elem_of_list_singleton. split; [by eapply ev_exists|]. by left.
      + split; [exact A|]. split; [apply C|]. eapply apply1_value; [done|done|done| | |].
        * apply evl_cons; [exact Hx|apply evl_nil].
        * cbn. rewrite Hp. reflexivity.
        * done.
  Qed.

  Lemma pad_vars_value n vs : forall h xs ys, good_heap h -> gives_old h rho -> Forall2 (hasv h) vs xs -> mapM (pad n) xs = Some ys ->
    let r := pad_vars B n h vs in extends h r.1 /\ good_heap r.1 /\ evl r.1 rho r.2 ys.
  Proof.
    induction vs as [|v vs IH]; intros h xs ys Hg Ho Hxs Hm; cbn [pad_vars].
    - apply Forall2_nil_inv_l in Hxs as ->. injection Hm as <-. cbv zeta. split; [apply extends_refl|]. split; [done|]. apply evl_nil.
    - apply Forall2_cons_inv_l in Hxs as (x & xs' & Hx & Hxs & ->).
      change (mapM (pad n) (x :: xs')) with (z ← pad n x; k ← mapM (pad n) xs'; Some (z :: k)) in Hm.
      destruct (pad n x) as [y|] eqn:Hy; [|done]. destruct (mapM (pad n) xs') as [ys'|] eqn:Hys; [|done]. cbn in Hm. injection Hm as <-.
      destruct (pad_var_value n h v x y Hg Ho Hx Hy) as (A & C & D). destruct (pad_var B n h v) as [h1 w]. cbn in A, C, D.
      pose proof (gives_old_extends _ _ A Ho) as Ho1.
      pose proof (IH h1 xs' ys' C Ho1 (has_list_extends _ _ _ _ (proj1 Hg) A Ho Hxs) Hys) as IH1.
      destruct (pad_vars B n h1 vs) as [h2 ws]. cbv zeta in IH1. cbn in IH1. destruct IH1 as (A' & C' & D'). cbn.
      split; [by eapply extends_trans|]. split; [done|]. apply evl_cons; [|done].
      apply (extends_evals_iff _ _ h1); [apply C|done| |done]. by eapply ev_exists.
  Qed.

  Lemma ranks_declared h vs xs : Forall2 (hasv h) vs xs -> (fun v => a_ndim B (ty_def h v)) <$> vs = rank <$> xs.
  Proof. induction 1 as [|v x vs xs [_ Hr] _ IH]; [done|]. cbn. by rewrite Hr, IH. Qed.

  (** at.add, at.sub, ... compute the broadcast operation *)
  Lemma mk_elem_value h s vs xs z : good_heap h -> gives_old h rho -> Forall2 (hasv h) vs xs ->
    numpy_elemwise (scalar s) xs = Some z -> rank z = foldr Nat.max 0 (rank <$> xs) ->
    let r := mk_elem B h s vs in extends h r.1 /\ good_heap r.1 /\ gives_old r.1 rho /\ hasv r.1 r.2 z.
  Proof.
    intros Hg Ho Hxs Hz Hrk. unfold mk_elem. rewrite (ranks_declared h vs xs Hxs).
    unfold numpy_elemwise in Hz. set (n := foldr Nat.max 0 (rank <$> xs)) in *.
    destruct (mapM (pad n) xs) as [ys|] eqn:Hys; [|done]. cbn in Hz.
    pose proof (pad_vars_value n vs h xs ys Hg Ho Hxs Hys) as H. destruct (pad_vars B n h vs) as [h1 ws]. cbv zeta in H. cbn in H.
    destruct H as (A & C & D). cbv zeta. pose proof (gives_old_extends _ _ A Ho) as Ho1.
    destruct (apply1_ok h (fun _ => True) h1 (OElem s) ws (b_elem B s (ty_def h <$> vs))) as (A1 & C1 & _); [done|by split| |].
    { intros u Hu. apply elem_of_list_lookup in Hu as [i Hi]. destruct (evals_list_lookup _ _ _ _ _ _ _ _ D Hi) as (x & _ & Hx).
      split; [by eapply ev_exists|]. by left. }
    destruct (apply1_value h1 (OElem s) ws (b_elem B s (ty_def h <$> vs)) ys [z] z) as [Hv Ht]; try done.
    { cbn. by rewrite Hz. }
    split; [by eapply extends_trans|]. split; [apply C1|]. split; [by eapply gives_old_extends|]. split; [done|].
    rewrite Ht, (bo_elem B HB), Hrk. f_equal. unfold n. rewrite <- (ranks_declared h vs xs Hxs). by rewrite <- list_fmap_compose.
  Qed.

  Lemma mk_const_value h c x : good_heap h -> gives_old h rho -> cval c.1 = x -> rank x = a_ndim B c.2 ->
    let r := mk_const h c in extends h r.1 /\ good_heap r.1 /\ gives_old r.1 rho /\ hasv r.1 r.2 x.
  Proof.
    intros Hg Ho Hc Hr. unfold mk_const. set (w := Var None c.2 (KConst c.1) None). cbv zeta.
    pose proof (alloc_var_extends h w) as He. pose proof (alloc_var_new h w) as Hn.
    split; [done|]. split; [by apply alloc_var_good|]. split; [by eapply gives_old_extends|]. split.
    - rewrite <- Hc. eapply ev_const; [|exact Hn|done|done]. eapply gives_old_None; [done|]. apply alloc_var_fresh.
    - unfold ty_def, ty_of. by rewrite Hn.
  Qed.

  (** the binary operations on arrays that broadcast to shape [s] *)
  Lemma mk_binary_value h e f u v x y s : (forall a b, scalar e [a; b] = Some (f a b)) ->
    good_heap h -> gives_old h rho -> hasv h u x -> hasv h v y -> fits s x -> fits s y ->
    exists z, let r := mk_elem B h e [u; v] in
      extends h r.1 /\ good_heap r.1 /\ gives_old r.1 rho /\ hasv r.1 r.2 z /\ fits s z /\
      (t_shape x = s \/ t_shape y = s -> t_shape z = s) /\
      forall idx, in_range s idx -> exists a b, bget x idx = Some a /\ bget y idx = Some b /\ bget z idx = Some (f a b).
  Proof.
    intros Hf Hg Ho Hu Hv Hx Hy.
    destruct (numpy_elemwise_spec (scalar e) s [x; y]) as (z & Hz & Hzf & Hzr & Hzb & Hzs); [done|apply Forall_cons_2; [done|]; apply Forall_cons_2; [done|]; apply Forall_nil_2| |].
    { intros [|a [|b [|]]]; try done. intros _. rewrite Hf. eauto. }
    exists z. destruct (mk_elem_value h e [u; v] [x; y] z) as (A & C & D & E); try done; [apply Forall2_cons_2; [done|]; apply Forall2_cons_2; [done|]; apply Forall2_nil_2|].
    cbv zeta. split; [done|]. split; [done|]. split; [done|]. split; [done|]. split; [done|]. split.
    - intros [H|H]; apply Hzs; [exists x|exists y]; (split; [|done]); [by left|right; by left].
    - intros idx Hi. destruct (bget_some s x idx Hx Hi) as [a Ha]. destruct (bget_some s y idx Hy Hi) as [b Hb].
      exists a, b. split; [done|]. split; [done|]. rewrite (Hzb idx Hi).
      change (mapM (fun x0 => bget x0 idx) [x; y]) with (p ← bget x idx; k ← (q ← bget y idx; k ← Some []; Some (q :: k)); Some (p :: k)).
      rewrite Ha, Hb. cbn. by rewrite Hf.
  Qed.

  (** a draw keeps its parameters *)
  Lemma gen_value h d size dtype params v x : good_heap h -> gives_old h rho -> hasv h v x ->
    (forall u, u ∈ size :: dtype :: params -> is_Some (hv h u)) ->
    hasv (gen B h (ORV d) (size :: dtype :: params)).1 v x.
  Proof.
    intros Hg Ho Hv Hin. eapply has_extends; [apply Hg| |done|done].
    pose proof (gen_ok h (fun _ => True) B h (ORV d) (size :: dtype :: params) ltac:(done)) as H.
    destruct (gen B h _ _) as [h' [[r r'] y]]. apply H.
    - split; [apply extends_refl|done].
    - intros u Hu. split; [by apply Hin|]. by left.
  Qed.
End value.

Lemma gen_full B h d size dtype params : good_heap h -> (forall u, u ∈ size :: dtype :: params -> is_Some (hv h u)) ->
  let r := gen B h (ORV d) (size :: dtype :: params) in
  extends h r.1 /\ good_heap r.1 /\ rv_full r.1 r.2.2 d size dtype params.
Proof.
  intros Hg Hin.
  pose proof (gen_ok h (fun _ => True) B h (ORV d) (size :: dtype :: params) ltac:(done)) as H. unfold gen in *.
  set (w := Var None (b_rng B) (KShared None) None) in *. destruct (alloc_var h w) as [h1 r] eqn:Hal.
  destruct (alloc_node_spec h1 (ORV d) (r :: size :: dtype :: params) [(None, b_rng B); (None, b_draw B h (ORV d) (size :: dtype :: params))])
    as (_ & _ & _ & Hv & _ & _ & Hn & _).
  rewrite apply_rng_alloc in Hv, Hn. destruct (apply_rng h1 _ _ _ _) as [[h2 r'] x]. cbn in Hv, Hn.
  destruct H as (A & C & _); [split; [apply extends_refl|done]|intros u Hu; split; [by apply Hin|by left]|].
  cbv zeta. split; [exact A|]. split; [apply C|]. cbn.
  exists (fresh (dom (h_nodes h1))), (Node (ORV d) (r :: size :: dtype :: params) [r'; x]), r.
  rewrite set_default_owner. rewrite set_default_hn. split; [|done].
  unfold owner. rewrite (Hv 1 x None _ eq_refl eq_refl). done.
Qed.
