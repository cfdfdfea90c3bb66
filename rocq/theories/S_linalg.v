(** Specification: vectors and matrices as arrays, and what the linear algebra functions that
    the regression kernels call compute. *)
From Coq Require Import Reals ssreflect ssrfun ssrbool.
From mathcomp Require Import eqtype choice fintype ssralg zmodp matrix.
From Verif Require M_gauss S_gauss.
From Verif Require Export LibRfield.
From Verif Require Export S_code.
Set Implicit Arguments. Unset Strict Implicit. Unset Printing Implicit Defensive.
Local Open Scope ring_scope.

(** component [i] of a family, 0 if there is none *)
Definition at_ord n (f : 'I_n -> R) (i : nat) : R :=
  match insub i with Some k => f k | None => 0 end.

(** column vectors and matrices as arrays, in row-major order *)
Definition varr n (v : 'cV[R]_n) : tensor R := mkt [n] (at_ord (fun i => v i 0)).
Definition marr n p (A : 'M[R]_(n, p)) : tensor R :=
  mkt [n; p] (fun k => at_ord (fun i => at_ord (fun j => A i j) (Nat.modulo k p)) (Nat.div k p)).
(** the components of an array as a column vector *)
Definition unvec n (x : tensor R) : 'cV[R]_n := \col_i entries x i.

(** [at.dot], [x.shape[1]], [at.arange], [at.diag], [set_subtensor(A[i, i], d)], the solvers,
    slices and [ifelse].  The solvers are only assumed to work where they are specified:
    [cholesky] and [solve(..., assume_a="pos")] on positive definite matrices, and
    [solve_triangular] if the triangle that it reads is invertible, and [ifelse] on branches of
    the same type. *)
Record linalg_ok (cholesky : forall n, 'M[R]_n -> 'M[R]_n)
    (other : op -> list (tensor R) -> option (list (tensor R))) : Prop := LinalgOk {
  la_dot_mm : forall n m p (A : 'M[R]_(n, m)) (B : 'M[R]_(m, p)),
    other (OOther K_dot) [marr A; marr B] = Some [marr (A *m B)];
  la_dot_mv : forall n m (A : 'M[R]_(n, m)) (x : 'cV[R]_m),
    other (OOther K_dot) [marr A; varr x] = Some [varr (A *m x)];
  la_cols : forall n p (A : 'M[R]_(n, p)), other (fun_op F_cols) [marr A] = Some [number (INR p)];
  la_arange : forall n, other (fun_op F_arange) [number (INR n)] = Some [mkt [n] INR];
  la_diag : forall n (A : 'M[R]_n), other (fun_op F_diag) [marr A] = Some [varr (\col_i A i i)];
  la_set_diag : forall n (A : 'M[R]_n) (d : 'cV[R]_n),
    other (fun_op F_set_diag) [marr A; mkt [n] INR; varr d] =
    Some [marr (\matrix_(i, j) if i == j then d i 0 else A i j)];
  la_cholesky : forall n (Q : 'M[R]_n), S_gauss.spd Q ->
    S_gauss.cholesky_factor Q (cholesky n Q) /\ other (fun_op F_cholesky) [marr Q] = Some [marr (cholesky n Q)];
  la_solve_lower : forall n (A : 'M[R]_n) (x : 'cV[R]_n), M_gauss.lower_part A \in unitmx ->
    other (fun_op F_solve_lower) [marr A; varr (M_gauss.lower_part A *m x)] = Some [varr x];
  la_solve_upper : forall n (A : 'M[R]_n) (x : 'cV[R]_n), M_gauss.upper_part A \in unitmx ->
    other (fun_op F_solve_upper) [marr A; varr (M_gauss.upper_part A *m x)] = Some [varr x];
  la_solve : forall n (A : 'M[R]_n) (x : 'cV[R]_n), S_gauss.spd A ->
    other (fun_op F_solve) [marr A; varr (A *m x)] = Some [varr x];
  la_take : forall p n (z : 'cV[R]_(p + n)), other (fun_op F_take) [varr z; number (INR p)] = Some [varr (usubmx z)];
  la_drop : forall p n (z : 'cV[R]_(p + n)), other (fun_op F_drop) [varr z; number (INR p)] = Some [varr (dsubmx z)];
  la_ifelse : forall (c : bool) x y, t_shape x = t_shape y ->
    other (fun_op F_ifelse) [number (if c then 1 else 0); x; y] = Some [if c then x else y];
}.
