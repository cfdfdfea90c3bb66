(** Model of /repo/aemcmc/transforms.py.

    A goal of kanren is a relation between expressions; [var()] is an existential
    quantifier and [lall] a conjunction. *)
From Coq Require Export Reals List Lra Lia Arith.
Export ListNotations.
Open Scope R_scope.

(** The distributions of [aesara.tensor.random] that matter here *)
(* transforms.py:7-13, 105-114 *)
Inductive rvdist := Cauchy | Gumbel | Laplace | Logistic | Normal | StudentT | Invgamma | Exponential.

(** Shapes and indices list the last axis first. *)
Notation shape := (list nat).
(* the arrays the parameters stand for: transforms.py:50-68 *)
Record tensor := mkTensor { tshape : shape; tdata : list nat -> R }.
(* the numbers 0, 1 in transforms.py:61-62, 106, 116 *)
Definition scalar (r : R) : tensor := mkTensor [] (fun _ => r).

(** Expressions: constants (values of the parameters), random variables with the inputs
    rng, size, dtype and the parameters of the distribution, and elementwise operations.
    [size=None] is stored as the empty vector. *)
(* the etuples of transforms.py:50-68, 105-116 *)
Inductive expr :=
  | EConst (t : tensor)
  | ERV (d : rvdist) (rng : nat) (size : shape) (dtype : nat) (params : list expr)
  | EAdd (a b : expr)
  | EMul (a b : expr)
  | EDiv (a b : expr).

(** location_scale_family (transforms.py:7-13) *)
Definition location_scale_family : list rvdist := [Cauchy; Gumbel; Laplace; Logistic; Normal; StudentT].

(** location_scale_transform (transforms.py:16-74) *)
Definition location_scale_transform (in_expr out_expr : expr) : Prop :=
  exists rng size type_idx mu sd distribution,
    in_expr = ERV distribution rng size type_idx [mu; sd] /\
    out_expr = EAdd mu (EMul sd (ERV distribution rng size type_idx [EConst (scalar 0); EConst (scalar 1)])) /\
    In distribution location_scale_family.

(** invgamma_exponential (transforms.py:77-120) *)
Definition invgamma_exponential (invgamma_expr invexponential_expr : expr) : Prop :=
  exists c rng size dtype,
    invgamma_expr = ERV Invgamma rng size dtype [EConst (scalar 1); c] /\
    invexponential_expr = EDiv (EConst (scalar 1)) (ERV Exponential rng size dtype [c]).
