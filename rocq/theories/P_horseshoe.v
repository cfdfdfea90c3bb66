(** Properties C36 and C37. *)
From Coquelicot Require Import Coquelicot.
From Verif Require Import S_horseshoe L_horseshoe L_halfcauchy.

(** C36, when the argument of [exponential] is a rate (the reading of the docstring of
    horseshoe_posterior): for every dimension and all values, the step is a Gibbs sweep.
    Missing for the full property: the reading of numpy and Aesara (see below). *)
Theorem C36_horseshoe_sweep_partial p beta sigma2 lambda2 tau2 :
  0 < sigma2 -> orthant p lambda2 -> 0 < tau2 ->
  gibbs_sweep Rate p beta sigma2 lambda2 tau2 (horseshoe_posterior p beta sigma2 lambda2 tau2).
Proof. apply hs_sweep. Qed.
Print Assumptions C36_horseshoe_sweep_partial.

(** C36, when the argument of [exponential] is a scale, as in numpy: the step is a Gibbs
    sweep for no input at all. *)
Theorem C36_horseshoe_sweep_refuted p beta sigma2 lambda2 tau2 :
  0 < sigma2 -> orthant p lambda2 -> 0 < tau2 ->
  ~ gibbs_sweep Scale p beta sigma2 lambda2 tau2 (horseshoe_posterior p beta sigma2 lambda2 tau2).
Proof. apply hs_sweep_scale. Qed.
Print Assumptions C36_horseshoe_sweep_refuted.

(** C37: with nu ~ IG(1/2, 1) and lambda^2 | nu ~ IG(1/2, 1/nu), the density of lambda is
    that of the half-Cauchy(0, 1).  [ig_half s x / sqrt PI] is the density of IG(1/2, s);
    2 lambda is the Jacobian of the square. *)
Theorem C37_half_cauchy_mixture lam : 0 < lam ->
  is_RInt_gen (fun nu => 2 * lam * (ig_half (/ nu) (lam ^ 2) / sqrt PI) * (ig_half 1 nu / sqrt PI))
    (at_right 0) (Rbar_locally p_infty) (2 / (PI * (1 + lam ^ 2))).
Proof. apply half_cauchy_mixture. Qed.
Print Assumptions C37_half_cauchy_mixture.

(** The hypotheses are satisfiable: two coefficients. *)
Example ex_sweep :
  gibbs_sweep Rate 2 (fun j => INR j - 1) 1 (fun j => INR j + 1) 4
    (horseshoe_posterior 2 (fun j => INR j - 1) 1 (fun j => INR j + 1) 4).
Proof.
  apply C36_horseshoe_sweep_partial; try lra. intros j _. pose proof (pos_INR j). lra.
Qed.

(** A sweep with a different model does not pass: doubling the coefficients changes the
    full conditional of the local scales. *)
Example ex_sweep_not :
  ~ vproportional 1 (reciprocal_density 1 (node_density Rate (NExponential 1 (fun _ => 1))))
      (reciprocal_density 1 (node_density Rate (NExponential 1 (fun _ => 2)))).
Proof.
  intros (c & Hc & H).
  assert (E : forall x, 0 < x -> - / x = ln c - 2 * / x).
  { intros x Hx. assert (Ho : orthant 1 (fun _ => x)) by (intros j _; auto).
    specialize (H _ Ho). rewrite !recip_exp_density in H by auto.
    apply (f_equal ln) in H. rewrite ln_mult in H by (auto; apply exp_pos).
    rewrite !ln_exp, !nsum1 in H. simpl in H. lra. }
  pose proof (E 1 ltac:(lra)). pose proof (E (/ 2) ltac:(lra)) as E2. rewrite Rinv_inv in E2. lra.
Qed.
