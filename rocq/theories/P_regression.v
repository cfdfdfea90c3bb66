(** C26, C27: the regression Gibbs steps against the models they are built for. *)
From Coq Require Import Reals Lra.
From mathcomp Require Import all_ssreflect all_algebra.
From Verif Require Import L_regression.
Set Implicit Arguments. Unset Strict Implicit. Unset Printing Implicit Defensive.
Local Open Scope ring_scope.

(** C27.  [Y_i ~ NB(h, sigmoid(-X beta)_i)], [beta_j ~ N(0, sd_j^2)].  Given the
    Polya-Gamma variables, the step draws from the conditional of [beta] exactly when
    all prior standard deviations are one (it uses [1/sd] as the prior precision). *)
Theorem C27_nb_regression_iff_partial (cholesky : forall n, 'M[R]_n -> 'M[R]_n) :
  (forall n (Q : 'M[R]_n), spd Q -> cholesky_factor Q (cholesky n Q)) ->
  forall (g : R -> R -> R) n p (sd : 'cV[R]_p) (X : 'M[R]_(n, p)) (w : 'cV[R]_n) (h : R) (y : 'I_n -> nat),
  (forall j, Rlt 0 (sd j 0)) -> (forall i, Rlt 0 (w i 0)) -> Rlt 0 h ->
  (forall i, Rlt 0 (g (Rplus (INR (y i)) h) (w i 0))) ->
  draws_from_density
    (fun e => nbinom_normal_posterior cholesky sd X h y w (usubmx e) (dsubmx e))
    (nb_joint g sd X w h y)
  <-> forall j, sd j 0 = 1.
Proof. move=> Hc g n p sd X w h y Hsd Hw Hh Hg; exact: nb_step. Qed.
Print Assumptions C27_nb_regression_iff_partial.

(** C26.  [Y_i ~ Bernoulli(sigmoid(-X beta)_i)], the model that is matched: the step is
    right exactly when, in addition, [X' (y - 1/2)] vanishes. *)
Theorem C26_bernoulli_matched_iff_partial (cholesky : forall n, 'M[R]_n -> 'M[R]_n) :
  (forall n (Q : 'M[R]_n), spd Q -> cholesky_factor Q (cholesky n Q)) ->
  forall (g : R -> R -> R) n p (sd : 'cV[R]_p) (X : 'M[R]_(n, p)) (w : 'cV[R]_n) (y : 'I_n -> bool),
  (forall j, Rlt 0 (sd j 0)) -> (forall i, Rlt 0 (w i 0)) ->
  (forall i, Rlt 0 (g (IZR 1) (w i 0))) ->
  draws_from_density
    (fun e => bern_normal_posterior cholesky sd X y w (usubmx e) (dsubmx e))
    (bern_joint g sd X w (Ropp (IZR 1)) y)
  <-> (forall j, sd j 0 = 1) /\ X^T *m (\col_i ((y i)%:R - 2%:R^-1)) = 0.
Proof.
  move=> Hc g n p sd X w y Hsd Hw Hg.
  rewrite (@bern_step _ Hc g n p sd X w Hsd Hw _ (-1) y (or_intror (conj erefl erefl)) Hg).
  set v := X^T *m _; split => [[H1 H2]|[H1 H2]]; split => //; last by rewrite H2 scaler0.
  have : 2%:R *: v = 0 by rewrite scaler_nat mulr2n {2}H2 scaleN1r subrr.
  by move=> /eqP; rewrite scaler_eq0 pnatr_eq0 /= => /eqP.
Qed.
Print Assumptions C26_bernoulli_matched_iff_partial.

(** the same step for [Y_i ~ Bernoulli(sigmoid(+X beta)_i)], the documented model *)
Theorem C26_bernoulli_documented_iff_partial (cholesky : forall n, 'M[R]_n -> 'M[R]_n) :
  (forall n (Q : 'M[R]_n), spd Q -> cholesky_factor Q (cholesky n Q)) ->
  forall (g : R -> R -> R) n p (sd : 'cV[R]_p) (X : 'M[R]_(n, p)) (w : 'cV[R]_n) (y : 'I_n -> bool),
  (forall j, Rlt 0 (sd j 0)) -> (forall i, Rlt 0 (w i 0)) ->
  (forall i, Rlt 0 (g (IZR 1) (w i 0))) ->
  draws_from_density
    (fun e => bern_normal_posterior cholesky sd X y w (usubmx e) (dsubmx e))
    (bern_joint g sd X w (IZR 1) y)
  <-> forall j, sd j 0 = 1.
Proof.
  move=> Hc g n p sd X w y Hsd Hw Hg.
  rewrite (@bern_step _ Hc g n p sd X w Hsd Hw _ 1 y (or_introl (conj erefl erefl)) Hg).
  by rewrite scale1r; split=> [[]|].
Qed.
Print Assumptions C26_bernoulli_documented_iff_partial.

(** Concrete failures: prior standard deviation 2; and, for the Bernoulli step, already
    for standard deviation 1 with one observation. *)
Lemma chol_ok n (Q : 'M[R]_n) : spd Q -> cholesky_factor Q (@chol R_realFieldType sqrt n Q).
Proof. by apply: chol_spec; apply: sqrtR_spec. Qed.

Theorem C27_nb_regression_refuted :
  exists (sd : 'cV[R]_1) (X : 'M[R]_(1, 1)) (w : 'cV[R]_1) (h : R) (y : 'I_1 -> nat),
    (forall j, Rlt 0 (sd j 0)) /\ (forall i, Rlt 0 (w i 0)) /\ Rlt 0 h /\
    forall g, (forall b v, Rlt 0 v -> Rlt 0 (g b v)) ->
    ~ draws_from_density
        (fun e => nbinom_normal_posterior (@chol _ sqrt) sd X h y w (usubmx e) (dsubmx e))
        (nb_joint g sd X w h y).
Proof.
  exists (const_mx (IZR 2)), (const_mx 1), (const_mx 1), (IZR 1), (fun _ => 3%N).
  have H2 j : Rlt 0 ((const_mx (IZR 2) : 'cV[R]_1) j 0) by rewrite mxE; lra.
  have H1 j : Rlt 0 ((const_mx 1 : 'cV[R]_1) j 0) by rewrite mxE; apply: Rlt_0_1.
  split => //; split => //; split; first exact: Rlt_0_1.
  move=> g Hg; rewrite C27_nb_regression_iff_partial //.
  - move=> /(_ 0); rewrite mxE => E.
    have : (IZR 2 = IZR 1) by exact: E. lra.
  - exact: chol_ok.
  - exact: Rlt_0_1.
  - by move=> i; apply: Hg.
Qed.
Print Assumptions C27_nb_regression_refuted.

Theorem C26_bernoulli_refuted :
  exists (X : 'M[R]_(1, 1)) (w : 'cV[R]_1) (y : 'I_1 -> bool),
    (forall i, Rlt 0 (w i 0)) /\
    forall g, (forall b v, Rlt 0 v -> Rlt 0 (g b v)) ->
    ~ draws_from_density
        (fun e => bern_normal_posterior (@chol _ sqrt) (const_mx 1) X y w (usubmx e) (dsubmx e))
        (bern_joint g (const_mx 1) X w (Ropp (IZR 1)) y).
Proof.
  exists (const_mx 1), (const_mx 1), (fun _ => true).
  have H1 j : Rlt 0 ((const_mx 1 : 'cV[R]_1) j 0) by rewrite mxE; apply: Rlt_0_1.
  split => // g Hg; rewrite C26_bernoulli_matched_iff_partial //.
  - move=> [_ /matrixP /(_ 0 0)]; rewrite !mxE big_ord1 !mxE mul1r => /eqP.
    by rewrite subr_eq0 eq_sym invr_eq1 (eqr_nat _ 2 1).
  - exact: chol_ok.
  - by move=> i; apply: Hg.
Qed.
Print Assumptions C26_bernoulli_refuted.

(** a case meeting the hypotheses on the good side: unit standard deviations, three
    observations, two coefficients *)
Example ex_nb_step (g : R -> R -> R) :
  (forall b v, Rlt 0 v -> Rlt 0 (g b v)) ->
  draws_from_density
    (fun e => nbinom_normal_posterior (@chol _ sqrt) (const_mx 1) (\matrix_(i, j) (i + j)%:R : 'M[R]_(3, 2))
       (IZR 2) (fun i => i : nat) (const_mx 1) (usubmx e) (dsubmx e))
    (nb_joint g (const_mx 1) (\matrix_(i, j) (i + j)%:R : 'M[R]_(3, 2)) (const_mx 1) (IZR 2) (fun i => i : nat)).
Proof.
  move=> Hg; rewrite C27_nb_regression_iff_partial.
  - by move=> j; rewrite mxE.
  - exact: chol_ok.
  - by move=> j; rewrite mxE; apply: Rlt_0_1.
  - by move=> j; rewrite mxE; apply: Rlt_0_1.
  - lra.
  - by move=> i; apply: Hg; rewrite mxE; apply: Rlt_0_1.
Qed.
