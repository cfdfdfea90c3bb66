(** Likelihood times Polya-Gamma density is a Gaussian kernel in the linear predictor. *)
From Verif Require Export S_link.

Lemma exp_pos_ne x : exp x <> 0.
Proof. pose proof (exp_pos x). lra. Qed.

Lemma sigmoid_range x : 0 < sigmoid x < 1.
Proof.
  unfold sigmoid. pose proof (exp_pos (- x)). split.
  - apply Rinv_0_lt_compat; lra.
  - rewrite <- Rinv_1. apply Rinv_lt_contravar; lra.
Qed.

Lemma cosh_half_pos c : 0 < cosh (c / 2).
Proof. unfold cosh. pose proof (exp_pos (c / 2)). pose proof (exp_pos (- (c / 2))). lra. Qed.

(** cosh(psi/2) in terms of 1 + e^psi *)
Lemma ln_cosh_half psi : ln (cosh (psi / 2)) = ln (1 + exp psi) - psi / 2 - ln 2.
Proof.
  assert (E : cosh (psi / 2) = (1 + exp psi) * exp (- (psi / 2)) * / 2).
  { unfold cosh. replace (exp psi) with (exp (psi / 2) * exp (psi / 2)) by (rewrite <- exp_plus; f_equal; lra).
    pose proof (exp_pos (psi / 2)). rewrite exp_Ropp. field. lra. }
  rewrite E. pose proof (exp_pos psi). pose proof (exp_pos (- (psi / 2))).
  rewrite ln_mult, ln_mult, ln_Rinv, ln_exp; try lra.
  apply Rmult_lt_0_compat; lra.
Qed.

Lemma sigmoid_neg psi : sigmoid (- psi) = / (1 + exp psi).
Proof. unfold sigmoid. rewrite Ropp_involutive. reflexivity. Qed.

Lemma one_minus_sigmoid_neg psi : 1 - sigmoid (- psi) = exp psi * / (1 + exp psi).
Proof. rewrite sigmoid_neg. pose proof (exp_pos psi). field. lra. Qed.

Lemma sigmoid_exp psi : sigmoid psi = exp psi * / (1 + exp psi).
Proof.
  unfold sigmoid. rewrite exp_Ropp. pose proof (exp_pos psi). field. lra.
Qed.

Lemma one_minus_sigmoid psi : 1 - sigmoid psi = / (1 + exp psi).
Proof. rewrite sigmoid_exp. pose proof (exp_pos psi). field. lra. Qed.

Lemma pow_exp x n : exp x ^ n = exp (INR n * x).
Proof.
  induction n as [|n IH].
  - simpl. rewrite Rmult_0_l, exp_0. reflexivity.
  - rewrite <- tech_pow_Rmult, IH, <- exp_plus, S_INR. f_equal. lra.
Qed.

Lemma nb_kernel h y psi w g :
  0 < w ->
  nb_pmf h (sigmoid (- psi)) y * pg_density g (INR y + h) psi w =
  (rising_fact h y / INR (fact y) * Rpower 2 (- (INR y + h)) * g (INR y + h) w
     * exp (w * (/ 2 * (INR y - h) / w) ^ 2 / 2))
  * exp (- (w * (/ 2 * (INR y - h) / w - psi) ^ 2 / 2)).
Proof.
  intros Hw. unfold nb_pmf, pg_density.
  rewrite one_minus_sigmoid_neg, sigmoid_neg.
  pose proof (exp_pos psi) as He.
  rewrite Rpow_mult_distr, pow_exp.
  assert (Hi : (/ (1 + exp psi)) ^ y = exp (- (INR y * ln (1 + exp psi)))).
  { replace (/ (1 + exp psi)) with (exp (- ln (1 + exp psi))).
    - rewrite pow_exp. f_equal. lra.
    - rewrite exp_Ropp, exp_ln; [reflexivity|lra]. }
  rewrite Hi. unfold Rpower. rewrite ln_cosh_half, ln_Rinv by lra.
  set (A := rising_fact h y / INR (fact y)). set (G := g (INR y + h) w). set (l := ln (1 + exp psi)).
  transitivity (A * G * exp ((h * - l) + (INR y * psi) + - (INR y * l)
                             + ((INR y + h) * (l - psi / 2 - ln 2)) + - (psi ^ 2 * w / 2))).
  { rewrite !exp_plus. ring. }
  transitivity (A * G * exp ((- (INR y + h) * ln 2) + (w * (/ 2 * (INR y - h) / w) ^ 2 / 2)
                             + - (w * (/ 2 * (INR y - h) / w - psi) ^ 2 / 2))).
  2: { rewrite !exp_plus. ring. }
  f_equal. f_equal. field. lra.
Qed.

Lemma bern_kernel_neg y psi w g :
  0 < w ->
  bernoulli_pmf (sigmoid (- psi)) y * pg_density g 1 psi w =
  (/ 2 * g 1 w * exp (w * ((/ 2 - (if y then 1 else 0)) / w) ^ 2 / 2))
  * exp (- (w * ((/ 2 - (if y then 1 else 0)) / w - psi) ^ 2 / 2)).
Proof.
  intros Hw. unfold pg_density. rewrite Rpower_1 by apply cosh_half_pos.
  rewrite <- (exp_ln (cosh (psi / 2))) by apply cosh_half_pos. rewrite ln_cosh_half.
  pose proof (exp_pos psi) as He.
  assert (Hy : bernoulli_pmf (sigmoid (- psi)) y =
               exp ((if y then 0 else psi) - ln (1 + exp psi))).
  { unfold Rminus. rewrite exp_plus, exp_Ropp, exp_ln by lra.
    destruct y; unfold bernoulli_pmf.
    - rewrite sigmoid_neg, exp_0. lra.
    - apply one_minus_sigmoid_neg. }
  rewrite Hy. set (l := ln (1 + exp psi)). set (G := g 1 w).
  transitivity (G * exp (((if y then 0 else psi) - l) + (l - psi / 2 - ln 2) + - (psi ^ 2 * w / 2))).
  { rewrite !exp_plus. ring. }
  replace (/ 2) with (exp (- ln 2)) at 1 by (rewrite exp_Ropp, exp_ln; lra).
  transitivity (G * exp (- ln 2 + (w * ((/ 2 - (if y then 1 else 0)) / w) ^ 2 / 2)
                 + - (w * ((/ 2 - (if y then 1 else 0)) / w - psi) ^ 2 / 2))).
  2: { rewrite !exp_plus. ring. }
  f_equal. f_equal. destruct y; field; lra.
Qed.

Lemma bern_kernel_pos y psi w g :
  0 < w ->
  bernoulli_pmf (sigmoid psi) y * pg_density g 1 psi w =
  (/ 2 * g 1 w * exp (w * (((if y then 1 else 0) - / 2) / w) ^ 2 / 2))
  * exp (- (w * (((if y then 1 else 0) - / 2) / w - psi) ^ 2 / 2)).
Proof.
  intros Hw.
  assert (E : bernoulli_pmf (sigmoid psi) y = bernoulli_pmf (sigmoid (- psi)) (negb y)).
  { destruct y; simpl.
    - rewrite sigmoid_exp, <- one_minus_sigmoid_neg. reflexivity.
    - rewrite one_minus_sigmoid, <- sigmoid_neg. reflexivity. }
  rewrite E, bern_kernel_neg by exact Hw.
  destruct y; simpl negb; cbv iota.
  - replace (1 - / 2) with (/ 2 - 0) by lra. reflexivity.
  - replace (0 - / 2) with (/ 2 - 1) by lra. reflexivity.
Qed.

Lemma normal_kernel sd x :
  0 < sd -> normal_density sd x = / (sd * sqrt (2 * PI)) * exp (- (/ sd ^ 2 * x ^ 2 / 2)).
Proof. intros H. unfold normal_density. f_equal. f_equal. field. lra. Qed.

Lemma normal_const_pos sd : 0 < sd -> 0 < / (sd * sqrt (2 * PI)).
Proof.
  intros H. apply Rinv_0_lt_compat, Rmult_lt_0_compat; [exact H|].
  apply sqrt_lt_R0. pose proof PI_RGT_0. lra.
Qed.

Lemma rising_fact_pos h y : 0 < h -> 0 < rising_fact h y.
Proof.
  intros H. induction y as [|y IH]; simpl; [lra|].
  apply Rmult_lt_0_compat; [exact IH|]. pose proof (pos_INR y). lra.
Qed.
