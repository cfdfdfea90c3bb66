(** C22-C25: the Gaussian samplers and the normal regression posterior.  Everything is
    stated over an arbitrary ordered field with a square root function; the examples
    are over the real numbers. *)
From Coq Require Import Reals Lra.
From mathcomp Require Import all_ssreflect all_algebra.
From Verif Require Import L_gauss_reg LibRfield.
Set Implicit Arguments. Unset Strict Implicit. Unset Printing Implicit Defensive.
Local Open Scope ring_scope.

Definition is_sqrt (F : realFieldType) (s : F -> F) : Prop :=
  forall x, 0 <= x -> 0 <= s x /\ s x ^+ 2 = x.
Definition is_cholesky (F : realFieldType) (c : forall n, 'M[F]_n -> 'M[F]_n) : Prop :=
  forall n (Q : 'M[F]_n), spd Q -> cholesky_factor Q (c n Q).

(** C22.  [Q m = b], covariance [S = Q^-1]. *)
Theorem C22_rue2005_law (F : realFieldType) (cholesky : forall n, 'M[F]_n -> 'M[F]_n) :
  is_cholesky cholesky ->
  forall n (b : 'cV[F]_n) (Q : 'M[F]_n), spd Q ->
  exists m S, Q *m m = b /\ Q *m S = 1%:M /\ S *m Q = 1%:M /\
              gaussian (multivariate_normal_rue2005 cholesky b Q) m S.
Proof.
  move=> Hc n b Q HQ; have U := spd_unit HQ; exists (invmx Q *m b), (invmx Q).
  by rewrite mulKVmx // mulmxV // mulVmx //; split => //; split => //; split => //; apply: rue_law => //; apply: Hc.
Qed.
Print Assumptions C22_rue2005_law.

(** such a factorisation exists for every symmetric positive definite matrix *)
Theorem C22_cholesky_exists (F : realFieldType) (s : F -> F) :
  is_sqrt s -> is_cholesky (chol s).
Proof. by move=> Hs n Q; apply: chol_spec. Qed.
Print Assumptions C22_cholesky_exists.

(** C23.  [Lambda m = Phi' Omega t], covariance [S = Lambda^-1]. *)
Theorem C23_cong2017_law (F : realFieldType) (sqrtF : F -> F) :
  is_sqrt sqrtF ->
  forall n p (A : 'cV[F]_p) (omega : 'cV[F]_n) (phi : 'M[F]_(n, p)) (t : 'cV[F]_n),
  positive_vec A -> positive_vec omega ->
  let Lambda := diag A + phi^T *m diag omega *m phi in
  exists m S, Lambda *m m = phi^T *m diag omega *m t /\ Lambda *m S = 1%:M /\ S *m Lambda = 1%:M /\
              gaussian (multivariate_normal_cong2017 sqrtF A omega phi t) m S.
Proof.
  move=> Hs n p A omega phi t HA HO L.
  have U : L \in unitmx by apply: spd_unit; apply: spd_diag_plus.
  exists (invmx L *m (phi^T *m diag omega *m t)), (invmx L).
  by rewrite mulKVmx // mulmxV // mulVmx //; split => //; split => //; split => //; apply: cong_law.
Qed.
Print Assumptions C23_cong2017_law.

(** C24.  The posterior, whatever the dimensions; the two vectors of standard normals
    are the two halves of one. *)
Theorem C24_regression_posterior (F : realFieldType) (sqrtF : F -> F)
    (cholesky : forall n, 'M[F]_n -> 'M[F]_n) :
  is_sqrt sqrtF -> is_cholesky cholesky ->
  forall n p (omega : 'cV[F]_n) (prec : 'cV[F]_p) (X : 'M[F]_(n, p)) (z : 'cV[F]_n),
  positive_vec prec -> positive_vec omega ->
  draws_from_energy
    (fun e => normal_regression_posterior sqrtF cholesky omega prec X z (usubmx e) (dsubmx e))
    (regression_energy omega prec X z).
Proof. by move=> Hs Hc n p omega prec X z HA HO; apply: regression_draws. Qed.
Print Assumptions C24_regression_posterior.

Theorem C24_algorithms_agree (F : realFieldType) (sqrtF : F -> F)
    (cholesky : forall n, 'M[F]_n -> 'M[F]_n) :
  is_sqrt sqrtF -> is_cholesky cholesky ->
  forall n p (omega : 'cV[F]_n) (prec : 'cV[F]_p) (X : 'M[F]_(n, p)) (z : 'cV[F]_n),
  positive_vec prec -> positive_vec omega ->
  exists m S, gaussian (normal_regression_underdetermined_posterior sqrtF omega prec X z) m S /\
              gaussian (normal_regression_overdetermined_posterior cholesky omega prec X z) m S.
Proof.
  move=> Hs Hc n p omega prec X z HA HO; eexists; eexists; split.
  - by apply: under_law.
  - by apply: over_law.
Qed.
Print Assumptions C24_algorithms_agree.

(** what a law and an energy say is unambiguous *)
Theorem C24_spec_law_unique (F : realFieldType) n k (f : 'cV[F]_k -> 'cV[F]_n) m S m' S' :
  gaussian f m S -> gaussian f m' S' -> m = m' /\ S = S'.
Proof. exact: gaussian_inj. Qed.
Print Assumptions C24_spec_law_unique.

(** C25.  With [lmbdatau_inv] the inverse prior standard deviations, as documented, the
    law drawn from is the posterior exactly when all standard deviations are one. *)
Theorem C25_standard_deviations_iff_partial (F : realFieldType) (sqrtF : F -> F)
    (cholesky : forall n, 'M[F]_n -> 'M[F]_n) :
  is_sqrt sqrtF -> is_cholesky cholesky ->
  forall n p (omega : 'cV[F]_n) (sd : 'cV[F]_p) (X : 'M[F]_(n, p)) (z : 'cV[F]_n),
  positive_vec sd -> positive_vec omega ->
  draws_from_energy
    (fun e => normal_regression_posterior sqrtF cholesky omega (\col_j (sd j 0)^-1) X z (usubmx e) (dsubmx e))
    (regression_energy omega (\col_j (sd j 0 ^+ 2)^-1) X z)
  <-> forall j, sd j 0 = 1.
Proof.
  move=> Hs Hc n p omega sd X z HA HO.
  rewrite regression_draws_iff //.
  - split.
    + move=> /matrixP E j; have := E j 0; rewrite !mxE => /invr_inj E1.
      have nz : sd j 0 != 0 by rewrite gt_eqF.
      by apply: (mulfI nz); rewrite mulr1 {3}E1.
    + by move=> E; apply/matrixP => i j; rewrite !mxE E expr1n.
  - by move=> j; rewrite mxE invr_gt0.
  - by move=> j; rewrite mxE invr_gt0 exprn_gt0.
Qed.
Print Assumptions C25_standard_deviations_iff_partial.

Theorem C25_standard_deviations_refuted :
  exists n p (omega : 'cV[R]_n) (sd : 'cV[R]_p) (X : 'M[R]_(n, p)) (z : 'cV[R]_n),
    positive_vec sd /\ positive_vec omega /\
    ~ draws_from_energy
        (fun e => normal_regression_posterior sqrt (@chol _ sqrt) omega (\col_j (sd j 0)^-1) X z (usubmx e) (dsubmx e))
        (regression_energy omega (\col_j (sd j 0 ^+ 2)^-1) X z).
Proof.
  exists 1%N, 1%N, (const_mx 1), (const_mx 2%:R), (const_mx 1), (const_mx 1).
  have H1 : positive_vec (const_mx 1 : 'cV[R]_1) by move=> i; rewrite mxE ltr01.
  have H2 : positive_vec (const_mx 2%:R : 'cV[R]_1) by move=> i; rewrite mxE ltr0n.
  split => //; split => //.
  rewrite C25_standard_deviations_iff_partial //.
  - by move/(_ 0); rewrite mxE => /eqP; rewrite (eqr_nat _ 2 1).
  - exact: sqrtR_spec.
  - apply: C22_cholesky_exists; exact: sqrtR_spec.
Qed.
Print Assumptions C25_standard_deviations_refuted.

(** The hypotheses are met by the real square root and a Cholesky algorithm, and for a
    regression with three observations and two coefficients, and the other way round. *)
Example ex_gauss_hyps : is_sqrt (sqrt : R_realFieldType -> R_realFieldType) /\
  is_cholesky (@chol R_realFieldType sqrt).
Proof. split; [exact: sqrtR_spec|apply: C22_cholesky_exists; exact: sqrtR_spec]. Qed.

Definition ex_X n p : 'M[R]_(n, p) := \matrix_(i, j) (if (i == j :> nat) then 2%:R else - 1%:R).
Definition ex_vec n : 'cV[R]_n := \col_i (i.+1)%:R.

Example ex_regression n p :
  draws_from_energy
    (fun e => normal_regression_posterior sqrt (@chol _ sqrt) (ex_vec n) (ex_vec p) (ex_X n p) (ex_vec n) (usubmx e) (dsubmx e))
    (regression_energy (ex_vec n) (ex_vec p) (ex_X n p) (ex_vec n)).
Proof.
  apply: C24_regression_posterior; try by move=> i; rewrite mxE ltr0n.
  - exact: sqrtR_spec.
  - apply: C22_cholesky_exists; exact: sqrtR_spec.
Qed.

Example ex_spd : spd (diag (ex_vec 2) + (ex_X 3 2)^T *m diag (ex_vec 3) *m ex_X 3 2).
Proof. by apply: spd_diag_plus => i; rewrite mxE ltr0n. Qed.
