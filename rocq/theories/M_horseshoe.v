(** Model of horseshoe_posterior (/repo/aemcmc/gibbs.py:187-257).

    The graph it builds is a program of random draws: each draw is a vector of
    independent variables (a scalar is a vector of length 1, given by its component 0),
    and the parameters of a draw may use earlier draws. *)
From Coq Require Export Reals List.
From Verif Require Export LibDist.
Open Scope R_scope.

(** [srng.exponential(arg)] and [srng.gamma(shape, rate)] *)
(* gibbs.py:244-252 *)
Inductive node :=
  | NExponential (n : nat) (arg : nat -> R)
  | NGamma (n : nat) (shape rate : nat -> R).

(* a sequence of draws and a result: gibbs.py:241-257 *)
Inductive prog (A : Type) :=
  | Ret (a : A)
  | Draw (d : node) (k : (nat -> R) -> prog A).
Arguments Ret {A}. Arguments Draw {A}.

(** horseshoe_posterior (gibbs.py:241-257): [beta] has [p] components; the results are
    the new local scales and the new global scale *)
Definition horseshoe_posterior (p : nat) (beta : nat -> R) (sigma2 : R) (lambda2 : nat -> R) (tau2 : R)
    : prog ((nat -> R) * R) :=
  let lmbda2_inv j := / lambda2 j in
  let tau2_inv := / tau2 in
  Draw (NExponential p (fun j => 1 + lmbda2_inv j)) (fun upsilon_inv =>
  Draw (NExponential 1 (fun _ => 1 + tau2_inv)) (fun zeta_inv =>
  let beta2 j := beta j ^ 2 in
  Draw (NExponential p (fun j => upsilon_inv j + / 2 * beta2 j * tau2_inv / sigma2)) (fun lambda2_inv_new =>
  Draw (NGamma 1 (fun _ => / 2 * (INR p + 1))
          (fun _ => zeta_inv 0%nat + / 2 * nsum p (fun j => beta2 j * lambda2_inv_new j) / sigma2))
    (fun tau2_inv_new =>
  let lambda2_update j := / sqrt (lambda2_inv_new j) in
  let tau2_update := / sqrt (tau2_inv_new 0%nat) in
  Ret (lambda2_update, tau2_update))))).
