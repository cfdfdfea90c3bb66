(** The full conditional of a variable with one child. *)
From Coq Require Import Lra.
From Verif Require Import L_target L_conjugates L_sampler.
From Verif Require Export S_conditional.
Global Open Scope nat_scope.

Section factors.
  Context {D : Type} (base : op -> list D -> option (list D)) (cval : nat -> D) (ld : nat -> list D -> D -> R).
  Context (h : heap) (Hg : good_heap h) (rho sigma : vid -> option D) (V : list vid).
  Context (Hgiven : forall v, v ∈ V -> is_Some (sigma v)).

  (** what does not read [p] does not change with its value *)
  Lemma evals_upd p x us v z : ~ cut_reachable h V us p -> cut_reachable h V us v ->
    evals base cval h (over sigma rho) v z <-> evals base cval h (over (upd sigma p x) rho) v z.
  Proof.
    intros Hnp Hv. assert (Hsame : forall u, cut_reachable h V us u -> over (upd sigma p x) rho u = over sigma rho u).
    { intros u Hu. unfold over, upd. case_decide as E; [|done]. subst. by apply Hnp in Hu. }
    assert (Hstep : forall s, (forall v, v ∈ V -> is_Some (s v)) -> forall u w, cut_reachable h V us u -> over s rho u = None -> input_of h u w -> cut_reachable h V us w).
    { intros s Hs u w Hu Hr Hw. eapply cut_step; [exact Hu| |exact Hw]. intros HV. destruct (Hs u HV) as [y Hy]. unfold over in Hr. by rewrite Hy in Hr. }
    assert (Hgiven' : forall v, v ∈ V -> is_Some (upd sigma p x v)) by (intros u Hu; unfold upd; case_decide; [eauto|by apply Hgiven]).
    split; intros He.
    - apply (evals_cut base cval (cut_reachable h V us) h h (over sigma rho)); try done. by apply Hstep.
    - apply (evals_cut base cval (cut_reachable h V us) h h (over (upd sigma p x) rho)); try done; [by apply Hstep|intros u Hu; by rewrite Hsame].
  Qed.
  Lemma evals_list_upd p x us vs zs : ~ cut_reachable h V us p -> (forall v, v ∈ vs -> v ∈ us) ->
    evals_list base cval h (over sigma rho) vs zs <-> evals_list base cval h (over (upd sigma p x) rho) vs zs.
  Proof.
    intros Hnp Hvs. rewrite !evals_list_Forall2. revert zs. induction vs as [|v vs IH]; intros zs.
    - split; intros H; inversion H; constructor.
    - assert (Hv : forall z, evals base cval h (over sigma rho) v z <-> evals base cval h (over (upd sigma p x) rho) v z).
      { intros z. apply (evals_upd p x us); [done|]. apply cut_root, Hvs. by left. }
      assert (Hvs' : forall w, w ∈ vs -> w ∈ us) by (intros w Hw; apply Hvs; by right).
      specialize (IH Hvs'). split; intros H; inversion H as [|? z ? zs' H1 H2]; subst; (constructor; [by apply Hv|by apply IH]).
  Qed.

  Lemma factor_given d rv size dtype params xs x l : rv_full h rv d size dtype params -> forall s : vid -> option D,
    s rv = Some x -> evals_list base cval h (over s rho) (size :: dtype :: params) xs ->
    factor base cval ld h rho s rv l <-> l = ld d xs x.
  Proof.
    intros (n & nd & r & Ho & Hn & Hop & Hi & _) s Hs Hxs. split.
    - intros Hf. apply (factor_det base cval ld h rho s rv l); [done|]. exists n, nd, d, xs, x. rewrite Hi. done.
    - intros ->. exists n, nd, d, xs, x. rewrite Hi. done.
  Qed.

  Context (p y : vid) (dp dy : nat) (size dtype sz dt : vid) (pp ps : list vid).
  Context (Hp : rv_full h p dp size dtype pp) (Hy : rv_full h y dy sz dt (ps ++ [p])) (Hnp : ~ cut_reachable h V (sz :: dt :: ps) p).
  Context (P Q : list D) (Yv : D) (HyV : sigma y = Some Yv).
  Context (HP : evals_list base cval h (over sigma rho) (size :: dtype :: pp) P).
  Context (HQ : evals_list base cval h (over sigma rho) (sz :: dt :: ps) Q).

  Lemma cut_sub us v : cut_reachable h V us v -> reachable h us v.
  Proof. induction 1; [by apply reachable_root|]. by eapply reachable_step. Qed.
  Lemma own_params : ~ cut_reachable h V (size :: dtype :: pp) p.
  Proof.
    intros Hc%cut_sub. destruct Hp as (n & nd & r & Ho & Hn & _ & Hi & _). destruct Hc as (u & Hu & Hr).
    assert (Hin : input_of h p u) by (unfold input_of, parents; rewrite Ho, Hn, Hi; by right).
    apply (proj1 (proj2 Hg) p). eapply tc_rtc_r; [by apply tc_once|exact Hr].
  Qed.
  Lemma y_ne_p : y <> p.
  Proof.
    intros ->. destruct Hy as (n & nd & r & Ho & Hn & _ & Hi & _).
    apply (proj1 (proj2 Hg) p). apply tc_once. unfold input_of, parents. rewrite Ho, Hn, Hi. set_solver.
  Qed.

  Lemma factor_p x l : factor base cval ld h rho (upd sigma p x) p l <-> l = ld dp P x.
  Proof.
    eapply factor_given; [exact Hp|unfold upd; by rewrite decide_True|].
    eapply evals_list_upd; [apply own_params|done|exact HP].
  Qed.
  Lemma factor_y x l : factor base cval ld h rho (upd sigma p x) y l <-> l = ld dy (Q ++ [x]) Yv.
  Proof.
    eapply factor_given; [exact Hy|unfold upd; by rewrite decide_False by apply y_ne_p|].
    apply evals_list_Forall2. change (sz :: dt :: ps ++ [p]) with ((sz :: dt :: ps) ++ [p]). apply Forall2_app.
    - apply evals_list_Forall2. eapply evals_list_upd; [exact Hnp|done|exact HQ].
    - constructor; [|constructor]. apply ev_given. unfold over, upd. by rewrite decide_True.
  Qed.

  Lemma joint_split others x l : V ≡ₚ p :: y :: others ->
    joint base cval ld h rho (upd sigma p x) V l <->
    exists m, joint base cval ld h rho (upd sigma p x) others m /\ (l = ld dp P x + (ld dy (Q ++ [x]) Yv + m))%R.
  Proof.
    intros Hperm. split.
    - intros Hj. apply (joint_perm _ _ _ _ _ _ _ _ _ Hperm) in Hj as (ls & Hl & ->).
      inversion Hl as [|? a ? ls1 Ha Hl1]; subst. inversion Hl1 as [|? b ? ls2 Hb Hl2]; subst.
      apply factor_p in Ha as ->. apply factor_y in Hb as ->. exists (foldr Rplus 0%R ls2). split; [by exists ls2|done].
    - intros (m & (ls & Hl & ->) & ->). apply (joint_perm _ _ _ _ _ _ (p :: y :: others)); [by symmetry|].
      exists (ld dp P x :: ld dy (Q ++ [x]) Yv :: ls). split; [|done]. constructor; [by apply factor_p|]. constructor; [by apply factor_y|done].
  Qed.

  (** the other terms do not change when they do not read [p] *)
  Lemma others_constant others x m : V ≡ₚ p :: y :: others -> NoDup V -> only_used_by h V p y ->
    joint base cval ld h rho (upd sigma p x) others m <-> joint base cval ld h rho sigma others m.
  Proof.
    intros Hperm Hnd [Hu _]. assert (Hno : forall rv, rv ∈ others -> rv <> p /\ ~ cut_reachable h V (parents h rv) p).
    { intros rv Hrv. rewrite Hperm in Hnd. apply NoDup_cons in Hnd as [H1 H2]. apply NoDup_cons in H2 as [H2 _].
      split; [intros ->; apply H1; by right|]. apply Hu; [rewrite Hperm; by do 2 right|]. by intros ->. }
    assert (Hf : forall rv l, rv ∈ others -> factor base cval ld h rho (upd sigma p x) rv l <-> factor base cval ld h rho sigma rv l).
    { intros rv l Hrv. destruct (Hno rv Hrv) as [Hne Hcut]. unfold factor.
      assert (Hval : upd sigma p x rv = sigma rv) by (unfold upd; by rewrite decide_False).
      split; intros (n & nd & d & xs & z & H1 & H2 & H3 & H4 & H5 & ->); exists n, nd, d, xs, z; (split_and!; [done|done|done|congruence| |done]);
        (eapply evals_list_upd; [exact Hcut| |exact H5]); intros v Hv; unfold parents; rewrite H1, H2; destruct (n_ins nd); try done; by right. }
    unfold joint. clear -Hf. split; intros (ls & Hl & ->); exists ls; (split; [|done]); revert ls Hl; induction others as [|rv others IH]; intros ls Hl;
      inversion Hl as [|? l ? ls' H1 H2]; subst; constructor; try (apply Hf; [by left|done]); try (apply IH; [intros; apply Hf; by right|done]).
  Qed.
End factors.

(** ** Arrays *)
Lemma product_over_ext s f g : (forall i, in_range s i -> f i = g i) -> product_over s f = product_over s g.
Proof. intros H. unfold product_over. f_equal. apply map_ext_in. intros i Hi. apply H. apply elem_of_indices. by apply elem_of_list_In. Qed.
Lemma product_over_pos s f : (forall i, in_range s i -> 0 < f i)%R -> (0 < product_over s f)%R.
Proof. intros H. unfold product_over. apply lp_pos. intros i Hi. apply H. by apply elem_of_indices. Qed.
Lemma array_of (S : R -> Prop) s f : (forall i, in_range s i -> S (f i)) -> exists x, array_in S s x /\ forall i, in_range s i -> bval x i = f i.
Proof.
  intros Hf. destruct (build_defined s (fun i => Some (f i))) as [x Hx]; [by eauto|].
  assert (Hb : forall i, in_range s i -> bval x i = f i).
  { intros i Hi. unfold bval. rewrite bget_full; [|by rewrite (build_shape _ _ _ Hx)]. by rewrite (build_at _ _ _ _ Hx Hi). }
  exists x. split; [|done]. split; [by eapply build_ok|]. split; [by eapply build_shape|]. intros i Hi. rewrite Hb by done. by apply Hf.
Qed.
Lemma array_fits S s x : array_in S s x -> fits s x.
Proof. intros (H1 & <- & _). by apply fits_full. Qed.

Section bridge.
  Context (scalar : nat -> list R -> option R) (other : op -> list (tensor R) -> option (list (tensor R))) (cval : nat -> tensor R).
  Context (ld : nat -> list (tensor R) -> tensor R -> R) (h : heap) (rho sigma : vid -> option (tensor R)) (V others : list vid) (p : vid).
  Context (S : R -> Prop) (s : list nat) (post prior lik : (list nat -> R) -> R) (z : R).
  Context (Hpost : forall f, (forall i, in_range s i -> S (f i)) -> (0 < post f)%R).
  Context (Hprior : forall f, (forall i, in_range s i -> S (f i)) -> (0 < prior f)%R).
  Context (Hlik : forall f, (forall i, in_range s i -> S (f i)) -> (0 < lik f)%R).
  Notation J := (joint_at scalar other cval ld h rho sigma p).
  Notation FC := (full_conditional scalar other cval ld h rho V sigma p (array_in S s) (fun x => post (bval x))).
  Context (Hsplit : forall x l, array_in S s x -> J V x l <-> exists m, J others x m /\ (l = ln (prior (bval x)) + z + (ln (lik (bval x)) + m))%R).

  Lemma bridge_exp x m : array_in S s x ->
    exp (ln (prior (bval x)) + z + (ln (lik (bval x)) + m)) = (prior (bval x) * lik (bval x) * (exp z * exp m))%R.
  Proof.
    intros (_ & _ & Hx). rewrite !exp_plus, !exp_ln by auto. ring.
  Qed.
  Lemma conditional_iff : is_posterior S s post prior lik ->
    FC <-> forall x x' m m', array_in S s x -> array_in S s x' -> J others x m -> J others x' m' -> m = m'.
  Proof.
    intros (c & Hc & Hpo). split.
    - intros Hfc x x' m m' Hx Hx' Hm Hm'.
      assert (H1 := proj2 (Hsplit x _ Hx) (ex_intro _ m (conj Hm eq_refl))). assert (H2 := proj2 (Hsplit x' _ Hx') (ex_intro _ m' (conj Hm' eq_refl))).
      specialize (Hfc x x' _ _ Hx Hx' H1 H2). cbv beta in Hfc. rewrite !bridge_exp in Hfc by done.
      destruct Hx as (_ & _ & Hx), Hx' as (_ & _ & Hx'). rewrite !Hpo in Hfc by done.
      pose proof (Hprior _ Hx). pose proof (Hprior _ Hx'). pose proof (Hlik _ Hx). pose proof (Hlik _ Hx'). pose proof (exp_pos z).
      apply exp_inv. set (A := (prior (bval x) * lik (bval x))%R) in *. set (A' := (prior (bval x') * lik (bval x'))%R) in *.
      assert (0 < A)%R by (by apply Rmult_lt_0_compat). assert (0 < A')%R by (by apply Rmult_lt_0_compat).
      assert (0 < c * A * A' * exp z)%R by (repeat apply Rmult_lt_0_compat; done).
      apply (Rmult_eq_reg_l (c * A * A' * exp z)); [|lra]. symmetry. lra.
    - intros Hc' x x' l l' Hx Hx' Hl Hl'. apply (Hsplit x l Hx) in Hl as (m & Hm & ->). apply (Hsplit x' l' Hx') in Hl' as (m' & Hm' & ->).
      rewrite !bridge_exp by done. rewrite (Hc' x x' m m' Hx Hx' Hm Hm'). destruct Hx as (_ & _ & Hx), Hx' as (_ & _ & Hx').
      rewrite !Hpo by done. ring.
  Qed.

  Context (post_ext : forall f g, (forall i, in_range s i -> f i = g i) -> post f = post g).
  Context (prior_ext : forall f g, (forall i, in_range s i -> f i = g i) -> prior f = prior g).
  Context (lik_ext : forall f g, (forall i, in_range s i -> f i = g i) -> lik f = lik g).
  Lemma conditional_posterior t0 m0 : S t0 -> (forall x m, array_in S s x -> J others x m <-> m = m0) ->
    FC <-> is_posterior S s post prior lik.
  Proof.
    intros Ht0 Hm. split.
    - intros Hfc. destruct (array_of S s (fun _ => t0)) as (x0 & Hx0 & _); [done|].
      pose proof (Hx0) as (_ & _ & H0). pose proof (Hprior _ H0) as P1. pose proof (Hlik _ H0) as L1. pose proof (Hpost _ H0) as Q1.
      exists (post (bval x0) / (prior (bval x0) * lik (bval x0)))%R. split; [apply Rdiv_lt_0_compat; [done|by apply Rmult_lt_0_compat]|].
      intros f Hf. destruct (array_of S s f Hf) as (x & Hx & Hxf).
      assert (H1 := proj2 (Hsplit x _ Hx) (ex_intro _ m0 (conj (proj2 (Hm x m0 Hx) eq_refl) eq_refl))).
      assert (H2 := proj2 (Hsplit x0 _ Hx0) (ex_intro _ m0 (conj (proj2 (Hm x0 m0 Hx0) eq_refl) eq_refl))).
      specialize (Hfc x x0 _ _ Hx Hx0 H1 H2). cbv beta in Hfc. rewrite !bridge_exp in Hfc by done.
      rewrite (post_ext (bval x) f Hxf), (prior_ext (bval x) f Hxf), (lik_ext (bval x) f Hxf) in Hfc.
      pose proof (exp_pos z). pose proof (exp_pos m0). assert (0 < exp z * exp m0)%R by (by apply Rmult_lt_0_compat).
      apply (Rmult_eq_reg_r (prior (bval x0) * lik (bval x0) * (exp z * exp m0))); [|apply Rgt_not_eq; repeat apply Rmult_lt_0_compat; done].
      rewrite Hfc. field. lra.
    - intros Hpo. apply conditional_iff; [done|]. intros x x' m m' Hx Hx' H1%Hm H2%Hm; [congruence|done|done].
  Qed.
End bridge.

Lemma Rpower_pos x y : (0 < Rpower x y)%R.
Proof. unfold Rpower. apply exp_pos. Qed.
Lemma beta_array_pos s A B f : (0 < beta_array s A B f)%R.
Proof. apply product_over_pos. intros i _. apply Rmult_lt_0_compat; apply Rpower_pos. Qed.
Lemma gamma_array_pos s A B f : (0 < gamma_array s A B f)%R.
Proof. apply product_over_pos. intros i _. apply Rmult_lt_0_compat; [apply Rpower_pos|apply exp_pos]. Qed.
Lemma binomial_likelihood_pos s cn cy f : (forall i, in_range s i -> cy i <= cn i) -> (forall i, in_range s i -> unit_interval (f i)) ->
  (0 < binomial_likelihood s cn cy f)%R.
Proof.
  intros Hle Hf. apply product_over_pos. intros i Hi. specialize (Hf i Hi). specialize (Hle i Hi). unfold unit_interval in Hf. unfold binomial_pmf.
  apply Rmult_lt_0_compat; [apply Rmult_lt_0_compat; [|apply pow_lt; lra]|apply pow_lt; lra].
  apply Rdiv_lt_0_compat; [apply INR_fact_lt_0|apply Rmult_lt_0_compat; apply INR_fact_lt_0].
Qed.
Lemma poisson_likelihood_pos s cy f : (forall i, in_range s i -> pos_reals (f i)) -> (0 < poisson_likelihood s cy f)%R.
Proof. intros Hf. apply product_over_pos. intros i Hi. apply poisson_pmf_pos. by apply Hf. Qed.
Lemma nb_likelihood_pos s N cy f : (forall i, in_range s i -> 0 < N i)%R -> (forall i, in_range s i -> unit_interval (f i)) ->
  (0 < nb_likelihood s N cy f)%R.
Proof. intros HN Hf. apply product_over_pos. intros i Hi. apply nb_pmf_pos; [by apply HN|by apply Hf]. Qed.

(** ** The conjugate pairs *)
Lemma joint_factor {D} (base : op -> list D -> option (list D)) cval ld h rho sigma (V : list vid) l rv :
  joint base cval ld h rho sigma V l -> rv ∈ V -> exists l', factor base cval ld h rho sigma rv l'.
Proof.
  intros (ls & Hl & _) Hrv. apply elem_of_list_lookup in Hrv as [i Hi]. destruct (Forall2_lookup_l _ _ _ _ _ Hl Hi) as (l' & _ & Hf). eauto.
Qed.
Lemma factor_params {D} (base : op -> list D -> option (list D)) cval ld h rho sigma rv l d size dtype params :
  factor base cval ld h rho sigma rv l -> rv_full h rv d size dtype params ->
  exists xs, evals_list base cval h (over sigma rho) (size :: dtype :: params) xs.
Proof.
  intros (n & nd & d' & xs & x & H1 & H2 & H3 & H4 & H5 & _) (n' & nd' & r & H1' & H2' & H3' & H4' & _). simplify_eq. rewrite H4' in H5. eauto.
Qed.
Lemma joint_old {D} (base : op -> list D -> option (list D)) cval ld h rho sigma (V : list vid) l v :
  joint base cval ld h rho sigma V l -> v ∈ V -> is_Some (hv h v).
Proof.
  intros Hj Hv. destruct (joint_factor _ _ _ _ _ _ _ _ _ Hj Hv) as (l' & n & nd & d & xs & x & Ho & _). unfold owner in Ho. destruct (hv h v); [eauto|done].
Qed.
Lemma joint_others {D} (base : op -> list D -> option (list D)) cval ld h rho sigma (V others : list vid) p y l :
  joint base cval ld h rho sigma V l -> V ≡ₚ p :: y :: others -> exists m, joint base cval ld h rho sigma others m.
Proof.
  intros Hj Hp. apply (joint_perm _ _ _ _ _ _ _ _ _ Hp) in Hj as (ls & Hl & ->). inversion Hl as [|? ? ? ls1 _ Hl1]; subst.
  inversion Hl1 as [|? ? ? ls2 _ Hl2]; subst. by exists (foldr Rplus 0%R ls2), ls2.
Qed.
Lemma joint_det {D} (base : op -> list D -> option (list D)) cval ld h rho sigma (V : list vid) l l' :
  joint base cval ld h rho sigma V l -> joint base cval ld h rho sigma V l' -> l = l'.
Proof.
  intros (ls & Hl & ->) (ls' & Hl' & ->). f_equal. revert ls ls' Hl Hl'. induction V as [|v V IH]; intros ls ls' Hl Hl'; inversion Hl; inversion Hl'; subst; [done|].
  f_equal; [by eapply factor_det|by eapply IH].
Qed.
Lemma rv_full_node h v d size dtype params : rv_full h v d size dtype params -> rv_node h v d params.
Proof. intros (n & nd & r & H1 & H2 & H3 & H4 & _). by exists n, 1, nd, r, size, dtype. Qed.

Section pair.
  Context (B : builder) (h : heap) (Hg : good_heap h) (p y : vid) (dp dy : nat) (size dtype sz dt : vid) (pp ps : list vid).
  Context (Hp : rv_full h p dp size dtype pp) (Hy : rv_full h y dy sz dt (ps ++ [p])).
  Context (scalar : nat -> list R -> option R) (other : op -> list (tensor R) -> option (list (tensor R))) (cval : nat -> tensor R).
  Context (ld : nat -> list (tensor R) -> tensor R -> R) (rho sigma : vid -> option (tensor R)) (V others : list vid).
  Context (Hold : gives_old h rho) (HV : forall v, is_Some (sigma v) <-> v ∈ V) (Hperm : V ≡ₚ p :: y :: others) (Hnd : NoDup V).
  Context (l0 : R) (Hj : joint (tensor_base scalar other) cval ld h rho sigma V l0).
  Context (Hnp : ~ cut_reachable h V (sz :: dt :: ps) p).
  Notation ev := (evals (tensor_base scalar other) cval h (over sigma rho)).

  Lemma pair_old : gives_old h (over sigma rho).
  Proof.
    intros v Hv. unfold over in Hv. destruct (sigma v) as [x|] eqn:E; [|by apply Hold]. eapply joint_old; [exact Hj|]. apply HV. by rewrite E.
  Qed.
  (** the terms of [p] and [y], at any value of [p] *)
  Lemma pair_values PP QQ Yv : Forall2 ev pp PP -> Forall2 ev ps QQ -> ev y Yv ->
    exists s1 d1 s2 d2, forall x l, joint_at scalar other cval ld h rho sigma p V x l <->
      exists m, joint_at scalar other cval ld h rho sigma p others x m /\
        (l = ld dp (s1 :: d1 :: PP) x + (ld dy (s2 :: d2 :: QQ ++ [x]) Yv + m))%R.
  Proof.
    intros HPP HQQ HY. assert (HpV : p ∈ V) by (rewrite Hperm; by left). assert (HyV : y ∈ V) by (rewrite Hperm; right; by left).
    destruct (joint_factor _ _ _ _ _ _ _ _ _ Hj HpV) as (lp & Fp). destruct (joint_factor _ _ _ _ _ _ _ _ _ Hj HyV) as (ly & Fy).
    destruct (factor_params _ _ _ _ _ _ _ _ _ _ _ _ Fp Hp) as [xs Hxs]. destruct (factor_params _ _ _ _ _ _ _ _ _ _ _ _ Fy Hy) as [ys Hys].
    rewrite evals_list_Forall2 in Hxs, Hys. inversion Hxs as [|? s1 ? xs1 A1 Hxs1]; subst. inversion Hxs1 as [|? d1 ? xs2 A2 Hxs2]; subst.
    inversion Hys as [|? s2 ? ys1 A3 Hys1]; subst. inversion Hys1 as [|? d2 ? ys2 A4 Hys2]; subst.
    exists s1, d1, s2, d2. intros x l. destruct (sigma y) as [Yv'|] eqn:EY; [|by destruct (proj2 (HV y) HyV); congruence].
    pose proof (ev_given (tensor_base scalar other) cval h (over sigma rho) y Yv' ltac:(unfold over; by rewrite EY)) as HY'.
    pose proof (evals_det _ _ _ _ _ _ _ HY' HY). subst Yv'.
    apply (joint_split (tensor_base scalar other) cval ld h Hg rho sigma V (fun v H => proj2 (HV v) H) p y dp dy size dtype sz dt pp ps Hp Hy Hnp
      (s1 :: d1 :: PP) (s2 :: d2 :: QQ) Yv EY).
    - apply evals_list_Forall2. constructor; [exact A1|]. constructor; [exact A2|exact HPP].
    - apply evals_list_Forall2. constructor; [exact A3|]. constructor; [exact A4|exact HQQ].
    - done.
  Qed.
  Lemma pair_only : only_used_by h V p y -> exists m0, forall x m, joint_at scalar other cval ld h rho sigma p others x m <-> m = m0.
  Proof.
    intros Hu. destruct (joint_others _ _ _ _ _ _ _ _ _ _ _ Hj Hperm) as [m0 Hm0]. exists m0. intros x m. unfold joint_at.
    rewrite (others_constant (tensor_base scalar other) cval ld h rho sigma V (fun v H => proj2 (HV v) H) p y others x m Hperm Hnd Hu).
    split; [intros H; by eapply joint_det|by intros ->].
  Qed.
End pair.

Lemma cut_mono h V us ws v : (forall u, u ∈ us -> u ∈ ws) -> cut_reachable h V us v -> cut_reachable h V ws v.
Proof. intros Hs H. induction H as [u Hu|w u Hw IH Hv Hi]; [apply cut_root; by apply Hs|by eapply cut_step]. Qed.
Lemma only_params h V p y dy sz dt ps : rv_full h y dy sz dt (ps ++ [p]) -> only_used_by h V p y -> ~ cut_reachable h V (sz :: dt :: ps) p.
Proof.
  intros (n & nd & r & H1 & H2 & H3 & H4 & _) [_ Hu] Hc. apply (Hu n _ nd (r :: sz :: dt :: ps) H1 H2 H4).
  eapply cut_mono; [|exact Hc]. intros u. rewrite !elem_of_cons. tauto.
Qed.
