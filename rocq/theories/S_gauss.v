(** Specification of Gaussian laws and of the normal linear model. *)
From mathcomp Require Export all_ssreflect all_algebra.
Set Implicit Arguments. Unset Strict Implicit. Unset Printing Implicit Defensive.
Import GRing.Theory Num.Theory.
Local Open Scope ring_scope.

Section spec.
  Variable F : realFieldType.

  (** [f], applied to a vector of independent standard normals, is normal with mean [m]
      and covariance [S]: it is an affine map with the right mean and covariance. *)
  Definition gaussian n k (f : 'cV[F]_k -> 'cV[F]_n) (m : 'cV[F]_n) (S : 'M[F]_n) : Prop :=
    exists T : 'M[F]_(n, k), (forall z, f z = m + T *m z) /\ T *m T^T = S.

  (** normal with mean [m] and precision matrix [Q] *)
  Definition gaussian_precision n k (f : 'cV[F]_k -> 'cV[F]_n) (m : 'cV[F]_n) (Q : 'M[F]_n) : Prop :=
    exists S : 'M[F]_n, S *m Q = 1%:M /\ Q *m S = 1%:M /\ gaussian f m S.

  Definition quad n (Q : 'M[F]_n) (x : 'cV[F]_n) : F := (x^T *m Q *m x) 0 0.

  Definition spd n (Q : 'M[F]_n) : Prop :=
    Q^T = Q /\ forall x : 'cV[F]_n, x <> 0 -> 0 < quad Q x.

  Definition positive_vec n (a : 'cV[F]_n) : Prop := forall i, 0 < a i 0.

  (** lower triangular with positive diagonal, and a factor of [Q] *)
  Definition cholesky_factor n (Q L : 'M[F]_n) : Prop :=
    (forall i j : 'I_n, (i < j)%N -> L i j = 0) /\ (forall i, 0 < L i i) /\ L *m L^T = Q.

  Definition diag n (a : 'cV[F]_n) : 'M[F]_n := diag_mx a^T.

  (** Minus twice the log-density, up to a constant, of [beta ~ N(0, diag(prec)^-1)] and
      [z ~ N(X beta, diag(omega)^-1)], as a function of [beta]. *)
  Definition regression_energy n p (omega : 'cV[F]_n) (prec : 'cV[F]_p) (X : 'M[F]_(n, p))
      (z : 'cV[F]_n) (beta : 'cV[F]_p) : F :=
    \sum_(j < p) prec j 0 * beta j 0 ^+ 2 +
    \sum_(i < n) omega i 0 * (z i 0 - (X *m beta) i 0) ^+ 2.

  (** [f] draws from the density [exp (- energy / 2)] up to normalisation: the energy is,
      up to a constant, the quadratic form of a normal law and [f] has that law. *)
  Definition draws_from_energy p k (f : 'cV[F]_k -> 'cV[F]_p) (energy : 'cV[F]_p -> F) : Prop :=
    exists m Q c, spd Q /\ (forall beta, energy beta = quad Q (beta - m) + c) /\
                  gaussian_precision f m Q.
End spec.
