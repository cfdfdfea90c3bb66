(** Specification: probability densities and mass functions, and when one
    unnormalised density is proportional to another. *)
From Coq Require Export Reals Lra Lia List.
Export ListNotations.
Open Scope R_scope.

(** [f] and [g] are the same distribution on [S] up to normalisation *)
Definition proportional (S : R -> Prop) (f g : R -> R) : Prop :=
  exists c, 0 < c /\ forall x, S x -> f x = c * g x.

Definition pos_reals (x : R) : Prop := 0 < x.
Definition unit_interval (x : R) : Prop := 0 < x < 1.

(** unnormalised densities *)
Definition gamma_density (shape rate x : R) : R := Rpower x (shape - 1) * exp (- (rate * x)).
Definition beta_density (a b x : R) : R := Rpower x (a - 1) * Rpower (1 - x) (b - 1).
Definition exponential_density (rate x : R) : R := exp (- (rate * x)).
Definition invgamma_density (shape scale x : R) : R := Rpower x (- shape - 1) * exp (- (scale / x)).

(** mass functions: [poisson_pmf lam y], [binomial_pmf n p y]; [nb_pmf n p y] is the
    probability of [y] failures before the [n]-th success of probability [p] *)
(** h (h+1) ... (h+n-1) *)
Fixpoint rising_fact (h : R) (n : nat) : R :=
  match n with O => 1 | S n' => rising_fact h n' * (h + INR n') end.
Definition poisson_pmf (lam : R) (y : nat) : R := exp (- lam) * lam ^ y / INR (fact y).
Definition binomial_pmf (n : nat) (p : R) (y : nat) : R := C n y * p ^ y * (1 - p) ^ (n - y).
Definition nb_pmf (n p : R) (y : nat) : R :=
  rising_fact n y / INR (fact y) * Rpower p n * (1 - p) ^ y.
