(** Proofs about the regression Gibbs steps. *)
From Coq Require Import Reals Lra.
From mathcomp Require Import all_ssreflect all_algebra.
From Verif Require Export S_regression L_gauss_reg L_link.
Set Implicit Arguments. Unset Strict Implicit. Unset Printing Implicit Defensive.
Local Open Scope ring_scope.

Lemma RmulE (a b : R) : Rmult a b = a * b. Proof. by []. Qed.

Lemma prod_exp n (f : 'I_n -> R) :
  \prod_(i < n) exp (- (f i / 2)) = exp (- ((\sum_(i < n) f i) / 2)).
Proof.
  symmetry; apply: (big_morph (fun x : R => exp (- (x / 2)))).
  - move=> x y; rewrite -[RHS]exp_plus; congr exp.
    change (Ropp (Rdiv (Rplus x y) 2) = Rplus (Ropp (Rdiv x 2)) (Ropp (Rdiv y 2))); lra.
  - change (exp (Ropp (Rdiv 0 2)) = (IZR 1)); rewrite -exp_0; congr exp; lra.
Qed.

Lemma prod_pos n (f : 'I_n -> R) : (forall i, Rlt 0 (f i)) -> Rlt 0 (\prod_(i < n) f i).
Proof.
  move=> H; apply: (big_ind (fun x : R => Rlt 0 x)).
  - exact: Rlt_0_1.
  - by move=> x y; apply: Rmult_lt_0_compat.
  - by move=> i _; apply: H.
Qed.

Lemma two_ne : (2%:R : R) <> 0%R.
Proof. by apply/eqP; rewrite pnatr_eq0. Qed.

Lemma half_Rdiv (x : R) : x / 2%:R = Rdiv x 2.
Proof. by rewrite RdivE //; apply: two_ne. Qed.

Lemma density_iff p k (f : 'cV[R]_k -> 'cV[R]_p) d energy (c : R) :
  Rlt 0 c -> (forall beta, d beta = c * exp (- (energy beta / 2))) ->
  draws_from_density f d <-> draws_from_energy f energy.
Proof.
  move=> Hc Hd; split; last by move=> H; exists energy, c.
  move=> [energy' [c' [Hc' [[m [Q [c1 [H1 [H2 H3]]]]] Hd']]]].
  exists m, Q, (c1 + 2%:R * (ln c - ln c')); split => //; split => // beta.
  have E : energy beta = energy' beta + 2%:R * (ln c - ln c').
  { have := Hd beta; rewrite Hd' => /(congr1 ln).
    rewrite -[c' * _]/(Rmult _ _) -[c * exp _]/(Rmult _ _).
    rewrite !ln_mult ?ln_exp //; try exact: exp_pos.
    change (Rplus (ln c') (Ropp (Rdiv (energy' beta) 2)) = Rplus (ln c) (Ropp (Rdiv (energy beta) 2)) ->
            energy beta = Rplus (energy' beta) (Rmult 2 (Rminus (ln c) (ln c')))).
    lra. }
  by rewrite E H2 addrA.
Qed.

Section kernel.
  Variables (g : R -> R -> R) (n p : nat) (sd : 'cV[R]_p) (X : 'M[R]_(n, p)) (w : 'cV[R]_n).
  Hypothesis sd_pos : forall j, Rlt 0 (sd j 0).
  Hypothesis w_pos : forall i, Rlt 0 (w i 0).

  Definition prec_of : 'cV[R]_p := \col_j (sd j 0 ^+ 2)^-1.

  Lemma prior_kernel beta :
    beta_prior sd beta = (\prod_(j < p) Rinv (Rmult (sd j 0) (sqrt (Rmult 2 PI))))
      * exp (- ((\sum_(j < p) prec_of j 0 * beta j 0 ^+ 2) / 2)).
  Proof.
    rewrite /beta_prior -prod_exp -big_split /=; apply: eq_bigr => j _.
    rewrite normal_kernel // !mxE RinvE.
    - by rewrite !RexpE.
    - rewrite RexpE; apply: pow_nonzero; have := sd_pos j; lra.
  Qed.

  (** any likelihood that is a Gaussian kernel in the linear predictor *)
  Lemma joint_kernel (lik : 'I_n -> R -> R) (K : 'I_n -> R) (z : 'cV[R]_n) beta :
    (forall i psi, lik i psi = Rmult (K i) (exp (Ropp (Rdiv (Rmult (w i 0) (pow (Rminus (z i 0) psi) 2)) 2)))) ->
    beta_prior sd beta * (\prod_(i < n) lik i ((X *m beta) i 0)) =
    (\prod_(j < p) Rinv (Rmult (sd j 0) (sqrt (Rmult 2 PI)))) * (\prod_(i < n) K i)
      * exp (- (regression_energy w prec_of X z beta / 2)).
  Proof.
    move=> H; rewrite prior_kernel /regression_energy.
    have -> : \prod_(i < n) lik i ((X *m beta) i 0) =
              (\prod_(i < n) K i) * exp (- ((\sum_(i < n) w i 0 * (z i 0 - (X *m beta) i 0) ^+ 2) / 2)).
    { rewrite -prod_exp -big_split /=; apply: eq_bigr => i _.
      by rewrite H RexpE. }
    rewrite mulrACA; congr (_ * _); rewrite -[LHS]exp_plus; congr exp.
    set a := \sum_(j < p) _; set b := \sum_(i < n) _.
    change (Rplus (Ropp (Rdiv a 2)) (Ropp (Rdiv b 2)) = Ropp (Rdiv (Rplus a b) 2)); lra.
  Qed.
End kernel.

Section steps.
  Variables (cholesky : forall n, 'M[R]_n -> 'M[R]_n).
  Hypothesis cholesky_spec : forall n (Q : 'M[R]_n), spd Q -> cholesky_factor Q (cholesky Q).
  Variables (g : R -> R -> R) (n p : nat) (sd : 'cV[R]_p) (X : 'M[R]_(n, p)) (w : 'cV[R]_n).
  Hypothesis sd_pos : forall j, Rlt 0 (sd j 0).
  Hypothesis w_pos : forall i, Rlt 0 (w i 0).

  Lemma positiveR k (a : 'cV[R]_k) : (forall j, Rlt 0 (a j 0)) -> positive_vec a.
  Proof. by move=> H j; apply/RltP; apply: H. Qed.

  Lemma step_iff (z z' : 'cV[R]_n) d c :
    Rlt 0 c ->
    (forall beta, d beta = c * exp (- (regression_energy w (prec_of sd) X z' beta / 2))) ->
    draws_from_density
      (fun e => normal_regression_posterior sqrt cholesky w (\col_j (sd j 0)^-1) X z (usubmx e) (dsubmx e)) d
    <-> (forall j, sd j 0 = 1) /\ X^T *m diag w *m z = X^T *m diag w *m z'.
  Proof.
    move=> Hc Hd; rewrite (density_iff _ Hc Hd).
    have Hsd := positiveR sd_pos.
    rewrite (regression_draws_iff2 sqrtR_spec cholesky_spec).
    - split => [[E ->]|[E ->]]; split => //.
      + move=> j; move: E => /matrixP /(_ j 0); rewrite !mxE => /invr_inj E1.
        have nz : sd j 0 != 0 by rewrite gt_eqF.
        by apply: (mulfI nz); rewrite mulr1 {3}E1.
      + by apply/matrixP => i j; rewrite !mxE E expr1n.
    - by move=> j; rewrite mxE invr_gt0.
    - by move=> j; rewrite mxE invr_gt0 exprn_gt0.
    - exact: positiveR.
  Qed.

  Lemma nb_step h (y : 'I_n -> nat) :
    Rlt 0 h -> (forall i, Rlt 0 (g (Rplus (INR (y i)) h) (w i 0))) ->
    draws_from_density
      (fun e => nbinom_normal_posterior cholesky sd X h y w (usubmx e) (dsubmx e))
      (nb_joint g sd X w h y)
    <-> forall j, sd j 0 = 1.
  Proof.
    move=> Hh Hg.
    set z := \col_i (2%:R^-1 * (INR (y i) - h) / w i 0) : 'cV[R]_n.
    have Ez i : z i 0 = Rdiv (Rmult (Rinv 2) (Rminus (INR (y i)) h)) (w i 0).
    { rewrite mxE RdivE; last by have := w_pos i; lra.
      by rewrite RinvE //; apply: two_ne. }
    set K := fun i : 'I_n => (Rmult (Rmult (Rmult (Rdiv (rising_fact h (y i)) (INR (fact (y i))))
       (Rpower 2 (Ropp (Rplus (INR (y i)) h)))) (g (Rplus (INR (y i)) h) (w i 0)))
       (exp (Rdiv (Rmult (w i 0) (pow (z i 0) 2)) 2))).
    have HK i : Rlt 0 (K i).
    { rewrite /K; apply: Rmult_lt_0_compat; last exact: exp_pos.
      apply: Rmult_lt_0_compat; last exact: Hg.
      apply: Rmult_lt_0_compat; last exact: exp_pos.
      apply: Rdiv_lt_0_compat; [exact: rising_fact_pos|exact: INR_fact_lt_0]. }
    set c := (\prod_(j < p) Rinv (Rmult (sd j 0) (sqrt (Rmult 2 PI)))) * (\prod_(i < n) K i).
    have Hc : Rlt 0 c.
    { apply: Rmult_lt_0_compat; apply: prod_pos => // j; exact: normal_const_pos. }
    rewrite (@step_iff z z (nb_joint g sd X w h y) c Hc).
    - by split=> [[]|].
    - move=> beta; rewrite /nb_joint !RmulE -mulrA -big_split /= /nbinom_polyagamma_args /=.
      rewrite -(@joint_kernel n p sd X w sd_pos
        (fun i psi => nb_pmf h (sigmoid (- psi)) (y i) * pg_density g (INR (y i) + h) psi (w i 0)) K) //.
      by move=> i psi; rewrite /K Ez; apply: nb_kernel.
  Qed.

  Lemma bern_step s sgn (y : 'I_n -> bool) :
    (s = IZR 1 /\ sgn = 1 \/ s = Ropp (IZR 1) /\ sgn = -1) ->
    (forall i, Rlt 0 (g (IZR 1) (w i 0))) ->
    draws_from_density
      (fun e => bern_normal_posterior cholesky sd X y w (usubmx e) (dsubmx e))
      (bern_joint g sd X w s y)
    <-> (forall j, sd j 0 = 1) /\
        X^T *m (\col_i ((y i)%:R - 2%:R^-1)) = sgn *: (X^T *m (\col_i ((y i)%:R - 2%:R^-1))).
  Proof.
    move=> Hs Hg.
    set z := \col_i (((y i)%:R - 2%:R^-1) / w i 0) : 'cV[R]_n.
    set v := \col_i ((y i)%:R - 2%:R^-1) : 'cV[R]_n.
    have Ev : diag w *m z = v.
    { apply/matrixP => i j; rewrite (ord1 j) /diag mul_diag_mx !mxE mulrC divfK //.
      by apply/eqP => E; move: (w_pos i); rewrite E; apply: Rlt_irrefl. }
    set K := fun i : 'I_n => (Rmult (Rmult (Rinv 2) (g (IZR 1) (w i 0)))
       (exp (Rdiv (Rmult (w i 0) (pow (z i 0) 2)) 2))).
    have HK i : Rlt 0 (K i).
    { rewrite /K; apply: Rmult_lt_0_compat; last exact: exp_pos.
      apply: Rmult_lt_0_compat; last exact: Hg. lra. }
    set c := (\prod_(j < p) Rinv (Rmult (sd j 0) (sqrt (Rmult 2 PI)))) * (\prod_(i < n) K i).
    have Hc : Rlt 0 c.
    { apply: Rmult_lt_0_compat; apply: prod_pos => // j; exact: normal_const_pos. }
    have Ez i : z i 0 = Rdiv (Rminus (if y i then IZR 1 else IZR 0) (Rinv 2)) (w i 0).
    { rewrite mxE RdivE; last by have := w_pos i; lra.
      rewrite RinvE; last exact: two_ne. by case: (y i). }
    rewrite (@step_iff z (sgn *: z) (bern_joint g sd X w s y) c Hc).
    - by rewrite -!mulmxA -scalemxAr Ev -scalemxAr.
    - move=> beta; rewrite /bern_joint !RmulE -mulrA -big_split /= /bern_polyagamma_args /=.
      case: Hs => [[-> ->]|[-> ->]].
      + rewrite scale1r -(@joint_kernel n p sd X w sd_pos
          (fun i psi => bernoulli_pmf (sigmoid psi) (y i) * pg_density g 1 psi (w i 0)) K).
        * congr (_ * _); apply: eq_bigr => i _; congr (bernoulli_pmf (sigmoid _) _ * _).
          exact: Rmult_1_l.
        * by move=> i psi; rewrite /K Ez; apply: bern_kernel_pos.
      + rewrite -(@joint_kernel n p sd X w sd_pos
          (fun i psi => bernoulli_pmf (sigmoid (- psi)) (y i) * pg_density g 1 psi (w i 0)) K).
        * congr (_ * _); apply: eq_bigr => i _; congr (bernoulli_pmf (sigmoid _) _ * _).
          by rewrite -Ropp_mult_distr_l Rmult_1_l.
        * move=> i psi; rewrite mxE mulN1r.
          have -> : K i = Rmult (Rmult (Rinv 2) (g (IZR 1) (w i 0)))
             (exp (Rdiv (Rmult (w i 0) (pow (- z i 0) 2)) 2)).
          { rewrite /K; congr (Rmult _ (exp (Rdiv (Rmult _ _) _))); rewrite /=. by ring. }
          rewrite -[- z i 0]/(Ropp (z i 0)).
          have -> : Ropp (z i 0) = Rdiv (Rminus (Rinv 2) (if y i then IZR 1 else IZR 0)) (w i 0).
          { rewrite Ez -[LHS]Ropp_div; congr Rdiv. exact: Ropp_minus_distr. }
          exact: bern_kernel_neg.
  Qed.
End steps.
