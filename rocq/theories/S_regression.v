(** Specification of the regression Gibbs steps. *)
From Coq Require Import Reals.
From mathcomp Require Import all_ssreflect all_algebra.
From Verif Require Export S_link S_gauss M_regression.
Set Implicit Arguments. Unset Strict Implicit. Unset Printing Implicit Defensive.
Local Open Scope ring_scope.

(** [f], applied to independent standard normals, has density proportional to [d] *)
Definition draws_from_density p k (f : 'cV[R]_k -> 'cV[R]_p) (d : 'cV[R]_p -> R) : Prop :=
  exists energy (c : R), Rlt 0 c /\ draws_from_energy f energy /\
    forall beta, d beta = c * exp (- (energy beta / 2)).

Section joints.
  (** [g b] is the density of PG(b, 0); prior standard deviations, design, Polya-Gamma
      variables *)
  Variables (g : R -> R -> R) (n p : nat) (sd : 'cV[R]_p) (X : 'M[R]_(n, p)) (w : 'cV[R]_n).

  Definition beta_prior (beta : 'cV[R]_p) : R := \prod_(j < p) normal_density (sd j 0) (beta j 0).

  (** Joint density of [beta], the observations [y_i ~ NB(h, sigmoid(- X beta)_i)] and the
      Polya-Gamma variables drawn by the program, as a function of [beta] *)
  Definition nb_joint (h : R) (y : 'I_n -> nat) (beta : 'cV[R]_p) : R :=
    beta_prior beta
    * (\prod_(i < n) nb_pmf h (sigmoid (- (X *m beta) i 0)) (y i))
    * (\prod_(i < n) let bc := nbinom_polyagamma_args X h y beta i in pg_density g bc.1 bc.2 (w i 0)).

  (** The same for [y_i ~ Bernoulli(sigmoid(s * X beta)_i)], [s] being 1 or -1 *)
  Definition bern_joint (s : R) (y : 'I_n -> bool) (beta : 'cV[R]_p) : R :=
    beta_prior beta
    * (\prod_(i < n) bernoulli_pmf (sigmoid (s * (X *m beta) i 0)) (y i))
    * (\prod_(i < n) let bc := bern_polyagamma_args X beta i in pg_density g bc.1 bc.2 (w i 0)).
End joints.
