(** Proofs for the link between C53 and C57. *)
From Coq Require Import Reals Lra FunctionalExtensionality.
From Verif Require Import L_conditional L_sweep.
From Verif Require Export S_exact.

Lemma put_self {D} b (x : vid -> D) : put b x x = x.
Proof. apply functional_extensionality. intros u. unfold put. by case_decide. Qed.

Section exact.
  Context (scalar : nat -> list R -> option R) (other : op -> list (tensor R) -> option (list (tensor R))) (cval : nat -> tensor R).
  Context (ld : nat -> list (tensor R) -> tensor R -> R) (h : heap) (rho : vid -> option (tensor R)) (V : list vid).
  Context (p : vid) (S : tensor R -> Prop).
  Hypothesis HpV : p ∈ V.

  Lemma upd_on (x y : vid -> tensor R) : upd (on V x) p (y p) = on V (put [p] y x).
  Proof using HpV.
    apply functional_extensionality. intros u. unfold upd, on, put.
    destruct (decide (u = p)) as [->|Hu].
    - rewrite !decide_True; [done|by left|done].
    - case_decide; [|done]. rewrite decide_False; [done|]. by intros ?%elem_of_list_singleton.
  Qed.

  Context (test : ((vid -> tensor R) -> R) -> Prop) (w : (vid -> tensor R) -> R) (B : step_block (tensor R)).
  Hypothesis HB : b_vars B = [p].
  Hypothesis Hm : measure_on p S (b_own B).

  Lemma exact_draw x density :
    (exists t, S t) -> (forall t, S t -> density t <> 0%R) ->
    (forall y, S (y p) -> density_at scalar other cval ld h rho V w (put [p] y x)) ->
    full_conditional scalar other cval ld h rho V (on V x) p S density ->
    draws_from p test B x density ->
    b_own B (fun y => w (put [p] y x)) <> 0%R /\
    forall g, test g -> kernel B x g =
      (b_own B (fun y => w (put [p] y x) * g (put [p] y x)) / b_own B (fun y => w (put [p] y x)))%R.
  Proof using All.
    intros [t0 Ht0] Hpos Hd Hf [Hn Hk]. destruct (Hd (fun _ => t0) Ht0) as (l0 & Hj0 & Hw0).
    pose (c := (exp l0 / density t0)%R).
    assert (Hc : c <> 0%R).
    { unfold c, Rdiv. apply Rmult_integral_contrapositive. split; [pose proof (exp_pos l0); lra|]. by apply Rinv_neq_0_compat, Hpos. }
    assert (Hw : forall y, S (y p) -> w (put [p] y x) = (density (y p) * c)%R).
    { intros y Hy. destruct (Hd y Hy) as (l & Hj & ->).
      assert (He : (density (y p) * exp l0 = density t0 * exp l)%R).
      { apply (Hf (y p) t0 l l0 Hy Ht0); unfold joint_at; [by rewrite upd_on|]. by rewrite (upd_on x (fun _ => t0)). }
      unfold c, Rdiv. rewrite <- Rmult_assoc, He. field. by apply Hpos. }
    assert (H1 : b_own B (fun y => w (put [p] y x)) = (b_own B (fun y => density (y p)) * c)%R).
    { rewrite <- (mo_scale _ _ _ Hm). apply (mo_in _ _ _ Hm). exact Hw. }
    rewrite H1. split; [by apply Rmult_integral_contrapositive|].
    intros g Hg. rewrite (Hk g Hg).
    rewrite (mo_in _ _ _ Hm (fun y => w (put [p] y x) * g (put [p] y x))%R (fun y => (density (y p) * g (put [p] y x)) * c)%R).
    - rewrite (mo_scale _ _ _ Hm). field. done.
    - intros y Hy. rewrite (Hw y Hy). ring.
  Qed.

  Lemma exact_keeps :
    (exists t, S t) ->
    (forall x, (forall y, S (y p) -> w (put [p] y x) = 0%R) \/
      ((forall y, S (y p) -> density_at scalar other cval ld h rho V w (put [p] y x)) /\
       forall y, S (y p) -> exists density, (forall t, S t -> density t <> 0%R) /\
         full_conditional scalar other cval ld h rho V (on V (put [p] y x)) p S density /\
         draws_from p test B (put [p] y x) density)) ->
    keeps_conditional test w B.
  Proof using All.
    intros Hi Hx x g Hg. rewrite HB. destruct (Hx x) as [H0|[Hd He]].
    - apply (mo_in _ _ _ Hm). intros y Hy. rewrite (H0 y Hy). ring.
    - pose (W := b_own B (fun y => w (put [p] y x))). pose (G := b_own B (fun y => w (put [p] y x) * g (put [p] y x))%R).
      assert (Hk : forall y, S (y p) -> W <> 0%R /\ kernel B (put [p] y x) g = (G / W)%R).
      { intros y Hy. destruct (He y Hy) as (density & Hpos & Hf & Hdr).
        assert (Hd' : forall y', S (y' p) -> density_at scalar other cval ld h rho V w (put [p] y' (put [p] y x))).
        { intros y' Hy'. rewrite put_put. by apply Hd. }
        destruct (exact_draw _ _ Hi Hpos Hd' Hf Hdr) as [Hn Hke].
        assert (E1 : (fun y' => w (put [p] y' (put [p] y x))) = (fun y' => w (put [p] y' x))).
        { apply functional_extensionality. intros y'. by rewrite put_put. }
        assert (E2 : (fun y' => w (put [p] y' (put [p] y x)) * g (put [p] y' (put [p] y x)))%R = (fun y' => w (put [p] y' x) * g (put [p] y' x))%R).
        { apply functional_extensionality. intros y'. by rewrite put_put. }
        specialize (Hke g Hg). rewrite E1 in Hn. rewrite E1, E2 in Hke. by split. }
      destruct Hi as [t0 Ht0]. destruct (Hk (fun _ => t0) Ht0) as [Hn _].
      rewrite (mo_in _ _ _ Hm _ (fun y => w (put [p] y x) * (G / W))%R).
      + rewrite (mo_scale _ _ _ Hm). fold W. change (W * (G / W) = G)%R. field. done.
      + intros y Hy. by destruct (Hk y Hy) as [_ ->].
  Qed.

  (** The converse, at [x]: if the density drawn from does not depend on the current value. *)
  Hypothesis Hadd : additive (b_own B).
  Lemma own_sub f f' a b : b_own B (fun y => f y * a - f' y * b)%R = (b_own B f * a - b_own B f' * b)%R.
  Proof using Hadd Hm.
    rewrite <- (mo_scale _ _ _ Hm f a). replace (b_own B f' * b)%R with (- (b_own B f' * - b))%R by ring. rewrite <- (mo_scale _ _ _ Hm f' (- b)).
    unfold Rminus. rewrite Ropp_involutive, <- Hadd. f_equal. apply functional_extensionality. intros y. ring.
  Qed.
  Lemma full_conditional_put x y density :
    full_conditional scalar other cval ld h rho V (on V (put [p] y x)) p S density <->
    full_conditional scalar other cval ld h rho V (on V x) p S density.
  Proof using HpV.
    unfold full_conditional, joint_at.
    assert (E : forall t, upd (on V (put [p] y x)) p t = upd (on V x) p t).
    { intros t. rewrite <- (upd_on x y). apply functional_extensionality. intros u. unfold upd. by case_decide. }
    split; intros H t t' l l' Ht Ht' H1 H2; apply (H t t' l l' Ht Ht'); [by rewrite E|by rewrite E|by rewrite <- E|by rewrite <- E].
  Qed.
  Lemma exact_at x density :
    (exists t, S t) -> (forall t, S t -> density t <> 0%R) ->
    (forall y, S (y p) -> density_at scalar other cval ld h rho V w (put [p] y x)) ->
    (forall y, S (y p) -> draws_from p test B (put [p] y x) density) ->
    tells_apart p S test w B x density ->
    (forall g, test g -> b_own B (fun y => w (put (b_vars B) y x) * kernel B (put (b_vars B) y x) g)%R =
       b_own B (fun y => w (put (b_vars B) y x) * g (put (b_vars B) y x))%R) ->
    full_conditional scalar other cval ld h rho V (on V x) p S density.
  Proof using All.
    intros [t0 Ht0] Hpos Hd Hdr Hta Hk. rewrite HB in Hk.
    pose (W := b_own B (fun y => w (put [p] y x))). pose (N := b_own B (fun y => density (y p))).
    assert (HN : N <> 0%R) by exact (proj1 (Hdr (fun _ => t0) Ht0)).
    assert (Hg : forall g, test g -> b_own B (fun y => (density (y p) * W - w (put [p] y x) * N) * g (put [p] y x))%R = 0%R).
    { intros g Hg. specialize (Hk g Hg).
      pose (G := b_own B (fun y => density (y p) * g (put [p] y x))%R).
      rewrite (mo_in _ _ _ Hm _ (fun y => w (put [p] y x) * (G / N))%R) in Hk.
      - rewrite (mo_scale _ _ _ Hm) in Hk. fold W in Hk.
        transitivity (G * W - b_own B (fun y => w (put [p] y x) * g (put [p] y x))%R * N)%R.
        + unfold G. rewrite <- own_sub. f_equal. apply functional_extensionality. intros y. ring.
        + rewrite <- Hk. field. done.
      - intros y Hy. rewrite (proj2 (Hdr y Hy) g Hg). unfold G, N. do 3 f_equal.
        apply functional_extensionality. intros y'. by rewrite put_put. }
    pose proof (Hta W N Hg) as He. intros t t' l l' Ht Ht' Hj Hj'.
    pose proof (He (fun _ => t) Ht) as E1. pose proof (He (fun _ => t') Ht') as E2. cbn in E1, E2.
    assert (Hw : forall u lu, S u -> joint_at scalar other cval ld h rho (on V x) p V u lu -> w (put [p] (fun _ => u) x) = exp lu).
    { intros u lu Hu Hju. unfold joint_at in Hju. rewrite (upd_on x (fun _ => u)) in Hju.
      destruct (Hd (fun _ => u) Hu) as (l1 & Hj1 & ->). f_equal. eapply joint_det; [exact Hj1|exact Hju]. }
    rewrite (Hw t l Ht Hj) in E1. rewrite (Hw t' l' Ht' Hj') in E2.
    assert (HW : W <> 0%R).
    { intros H0. rewrite H0, Rmult_0_r in E1. symmetry in E1. apply Rmult_integral in E1 as [E1|E1]; [pose proof (exp_pos l); lra|done]. }
    apply (Rmult_eq_reg_r (W * N)); [|by apply Rmult_integral_contrapositive].
    transitivity ((density t * W) * (exp l' * N))%R; [ring|]. rewrite E1, <- E2. ring.
  Qed.

  (** [draw x d]: in the state [x] the step draws [p] from the density [d]; [right x] says when
      that is the full conditional *)
  Lemma draws_iff (draw : (vid -> tensor R) -> (tensor R -> R) -> Prop) (right : (vid -> tensor R) -> Prop) :
    (exists t, S t) ->
    (forall x, (forall y, S (y p) -> w (put [p] y x) = 0%R) \/ exists d, draw x d) ->
    (forall x d, draw x d -> (forall t, S t -> d t <> 0%R) /\
      (forall y, S (y p) -> density_at scalar other cval ld h rho V w (put [p] y x)) /\
      (forall y, S (y p) -> draws_from p test B (put [p] y x) d) /\ tells_apart p S test w B x d /\
      (full_conditional scalar other cval ld h rho V (on V x) p S d <-> right x)) ->
    (keeps_conditional test w B <-> forall x d, draw x d -> right x).
  Proof using All.
    intros Hi Hx Hd. split.
    - intros Hk x d Hxd. destruct (Hd x d Hxd) as (Hpos & Hden & Hdr & Hta & Hr). apply Hr.
      apply (exact_at x d Hi Hpos Hden Hdr Hta). intros g. apply Hk.
    - intros Hr. apply exact_keeps; [done|]. intros x. destruct (Hx x) as [H0|[d Hxd]]; [by left|right].
      destruct (Hd x d Hxd) as (Hpos & Hden & Hdr & Hta & Hf). split; [done|].
      intros y Hy. exists d. split; [done|]. split; [|by apply Hdr]. apply full_conditional_put, Hf. by apply (Hr x d).
  Qed.

  (** ... for a family of densities with two parameters, which are values of the graph *)
  Lemma family_iff (St : (vid -> tensor R) -> Prop) (val : (vid -> tensor R) -> (vid -> tensor R) -> tensor R -> tensor R -> Prop)
      (dens : tensor R -> tensor R -> tensor R -> R) (right : (vid -> tensor R) -> Prop) :
    (exists t, S t) ->
    (forall x, (forall y, S (y p) -> w (put [p] y x) = 0%R) \/ St x) ->
    (forall x t, St x -> S (t p) -> density_at scalar other cval ld h rho V w (put [p] t x) /\
      exists A C, val x t A C /\ (full_conditional scalar other cval ld h rho V (on V (put [p] t x)) p S (dens A C) <-> right x)) ->
    (forall x t A C, St x -> S (t p) -> val x t A C -> draws_from p test B (put [p] t x) (dens A C) /\ tells_apart p S test w B x (dens A C)) ->
    (forall A C v, dens A C v <> 0%R) ->
    (forall x t t' A C A' C', St x -> S (t p) -> S (t' p) -> val x t A C -> val x t' A' C' -> dens A C = dens A' C') ->
    (keeps_conditional test w B <-> forall x, St x -> right x).
  Proof using All.
    intros Hi Hx Hval Hdr Hpos Hsame.
    rewrite (draws_iff (fun x d => St x /\ exists t A C, S (t p) /\ val x t A C /\ d = dens A C) right Hi).
    - split.
      + intros H x Hs. destruct Hi as [t0 Ht0]. destruct (Hval x (fun _ => t0) Hs Ht0) as (_ & A & C & Hv & _).
        apply (H x (dens A C)). split; [done|]. by exists (fun _ => t0), A, C.
      + intros H x d [Hs _]. by apply H.
    - intros x. destruct (Hx x) as [H0|Hs]; [by left|right]. destruct Hi as [t0 Ht0].
      destruct (Hval x (fun _ => t0) Hs Ht0) as (_ & A & C & Hv & _). exists (dens A C). split; [done|]. by exists (fun _ => t0), A, C.
    - intros x d (Hs & t & A & C & Ht & Hv & ->). split; [intros; apply Hpos|].
      split; [intros y Hy; by apply Hval|]. split.
      + intros y Hy. destruct (Hval x y Hs Hy) as (_ & A' & C' & Hv' & _). rewrite (Hsame x t y A C A' C' Hs Ht Hy Hv Hv').
        by apply (Hdr x y A' C').
      + split; [by apply (Hdr x t A C)|]. destruct (Hval x t Hs Ht) as (_ & A' & C' & Hv' & Hf).
        rewrite (Hsame x t t A C A' C' Hs Ht Ht Hv Hv'). by rewrite <- (full_conditional_put x t).
  Qed.
End exact.
