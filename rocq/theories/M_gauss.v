(** Model of multivariate_normal_rue2005 and multivariate_normal_cong2017
    (/repo/aemcmc/dists.py:32-58, 61-153) and of the normal regression functions of
    /repo/aemcmc/gibbs.py (lines 30-131).

    Simplifications: an ordered field with square roots instead of floats; vectors and
    matrices have static sizes (no broadcasting); the standard normal vector drawn by
    the function is its last argument. *)
From mathcomp Require Export all_ssreflect all_algebra.
Set Implicit Arguments. Unset Strict Implicit. Unset Printing Implicit Defensive.
Export Order.TTheory GRing.Theory Num.Theory.
Local Open Scope ring_scope.

Section gauss.
  Variable F : realFieldType.
  (** [at.sqrt] *)
  Variable sqrtF : F -> F.
  (** [at.linalg.cholesky] (dists.py:52) *)
  Variable cholesky : forall n, 'M[F]_n -> 'M[F]_n.

  (** entries below (above) the diagonal, which is all that [solve_triangular] reads *)
  (* dists.py:53, with lower=True *)
  Definition lower_part n (A : 'M[F]_n) : 'M[F]_n :=
    \matrix_(i, j) (if (j <= i)%N then A i j else 0).
  (* dists.py:54, 57, with lower=False *)
  Definition upper_part n (A : 'M[F]_n) : 'M[F]_n :=
    \matrix_(i, j) (if (i <= j)%N then A i j else 0).

  (** [at.slinalg.solve_triangular(A, b, lower=...)] (dists.py:53-57) *)
  Definition solve_triangular n (A : 'M[F]_n) (b : 'cV[F]_n) (lower : bool) : 'cV[F]_n :=
    invmx (if lower then lower_part A else upper_part A) *m b.

  (** [at.linalg.solve(A, b, assume_a="pos")] (dists.py:152) *)
  Definition solve n (A : 'M[F]_n) (b : 'cV[F]_n) : 'cV[F]_n := invmx A *m b.

  (** multivariate_normal_rue2005 (dists.py:32-58); a sparse [Q] is made dense first,
      which does not change its entries *)
  Definition multivariate_normal_rue2005 n (b : 'cV[F]_n) (Q : 'M[F]_n) (z : 'cV[F]_n) : 'cV[F]_n :=
    let L := cholesky Q in
    let w := solve_triangular L b true in
    let u := solve_triangular L^T w false in
    let v := solve_triangular L^T z false in
    u + v.

  (** elementwise operations on vectors *)
  Definition vmap n (f : F -> F) (a : 'cV[F]_n) : 'cV[F]_n := \col_i f (a i 0).
  Definition vmul n (a b : 'cV[F]_n) : 'cV[F]_n := \col_i (a i 0 * b i 0).
  (** [a[:, None] * X] (dists.py:142, gibbs.py:44) *)
  Definition scale_rows n p (a : 'cV[F]_n) (X : 'M[F]_(n, p)) : 'M[F]_(n, p) :=
    \matrix_(i, j) (a i 0 * X i j).
  (** [set_subtensor(B[indices, indices], at.diag(B) + d)] (dists.py:147-151,
      gibbs.py:45-49) *)
  Definition add_to_diag n (B : 'M[F]_n) (d : 'cV[F]_n) : 'M[F]_n :=
    \matrix_(i, j) (if i == j then B i j + d i 0 else B i j).

  (** multivariate_normal_cong2017 (dists.py:61-153); [z[:a_rows]] and [z[a_rows:]] are
      the upper and the lower block of the vector drawn *)
  Definition multivariate_normal_cong2017 n p (A : 'cV[F]_p) (omega : 'cV[F]_n)
      (phi : 'M[F]_(n, p)) (t : 'cV[F]_n) (z : 'cV[F]_(p + n)) : 'cV[F]_p :=
    let A_inv := vmap (fun a => 1 / a) A in
    let y1 := vmul (vmap sqrtF A_inv) (usubmx z) in
    let y2 := vmul (vmap (fun w => 1 / sqrtF w) omega) (dsubmx z) in
    let Ainv_phi := scale_rows A_inv phi^T in
    let B := add_to_diag (phi *m Ainv_phi) (vmap (fun w => 1 / w) omega) in
    let alpha := solve B (t - phi *m y1 - y2) in
    y1 + Ainv_phi *m alpha.

  (** normal_regression_overdetermined_posterior (gibbs.py:30-50) *)
  Definition normal_regression_overdetermined_posterior n p (omega : 'cV[F]_n)
      (lmbdatau_inv : 'cV[F]_p) (X : 'M[F]_(n, p)) (z : 'cV[F]_n) (e : 'cV[F]_p) : 'cV[F]_p :=
    let Q := X^T *m scale_rows omega X in
    let Q := add_to_diag Q lmbdatau_inv in
    multivariate_normal_rue2005 (X^T *m vmul omega z) Q e.

  (** normal_regression_underdetermined_posterior (gibbs.py:53-67) *)
  Definition normal_regression_underdetermined_posterior n p (omega : 'cV[F]_n)
      (lmbdatau_inv : 'cV[F]_p) (X : 'M[F]_(n, p)) (z : 'cV[F]_n) (e : 'cV[F]_(p + n)) : 'cV[F]_p :=
    multivariate_normal_cong2017 lmbdatau_inv omega X z e.

  (** normal_regression_posterior (gibbs.py:70-131).  Both branches draw their own
      normal vector, of sizes [p + n] and [p]; [ifelse] evaluates one branch. *)
  Definition normal_regression_posterior n p (omega : 'cV[F]_n)
      (lmbdatau_inv : 'cV[F]_p) (X : 'M[F]_(n, p)) (z : 'cV[F]_n)
      (e_under : 'cV[F]_(p + n)) (e_over : 'cV[F]_p) : 'cV[F]_p :=
    if (n < p)%N
    then normal_regression_underdetermined_posterior omega lmbdatau_inv X z e_under
    else normal_regression_overdetermined_posterior omega lmbdatau_inv X z e_over.
End gauss.
