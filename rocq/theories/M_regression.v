(** Model of nbinom_normal_posterior and bern_normal_posterior
    (/repo/aemcmc/gibbs.py:481-548, 682-731).

    Simplifications: real numbers; the Polya-Gamma vector [w] and the standard normal
    vectors drawn by the functions are arguments; the parameters of the Polya-Gamma
    draw are given by separate functions. *)
From Coq Require Export Reals.
From mathcomp Require Import all_ssreflect all_algebra.
From Verif Require Export M_gauss LibRfield.
Set Implicit Arguments. Unset Strict Implicit. Unset Printing Implicit Defensive.
Local Open Scope ring_scope.

Section kernels.
  Variable cholesky : forall n, 'M[R]_n -> 'M[R]_n.

  (** [srng.gen(polyagamma, y + h, X @ beta)] (gibbs.py:541): the two parameters of
      component [i] *)
  Definition nbinom_polyagamma_args n p (X : 'M[R]_(n, p)) (h : R) (y : 'I_n -> nat)
      (beta : 'cV[R]_p) (i : 'I_n) : R * R :=
    (INR (y i) + h, (X *m beta) i 0).

  (** nbinom_normal_posterior (gibbs.py:481-548), after the draw of [w] *)
  Definition nbinom_normal_posterior n p (beta_std : 'cV[R]_p) (X : 'M[R]_(n, p)) (h : R)
      (y : 'I_n -> nat) (w : 'cV[R]_n) (e_under : 'cV[R]_(p + n)) (e_over : 'cV[R]_p) : 'cV[R]_p :=
    let z := \col_i (2%:R^-1 * (INR (y i) - h) / w i 0) in
    let tau_beta := \col_j (beta_std j 0)^-1 in
    normal_regression_posterior sqrt cholesky w tau_beta X z e_under e_over.

  (** [srng.gen(polyagamma, 1, X @ beta)] (gibbs.py:724) *)
  Definition bern_polyagamma_args n p (X : 'M[R]_(n, p)) (beta : 'cV[R]_p) (i : 'I_n) : R * R :=
    (1, (X *m beta) i 0).

  (** bern_normal_posterior (gibbs.py:682-731), after the draw of [w] *)
  Definition bern_normal_posterior n p (beta_std : 'cV[R]_p) (X : 'M[R]_(n, p))
      (y : 'I_n -> bool) (w : 'cV[R]_n) (e_under : 'cV[R]_(p + n)) (e_over : 'cV[R]_p) : 'cV[R]_p :=
    let z := \col_i (((y i)%:R - 2%:R^-1) / w i 0) in
    let tau_beta := \col_j (beta_std j 0)^-1 in
    normal_regression_posterior sqrt cholesky w tau_beta X z e_under e_over.
End kernels.
