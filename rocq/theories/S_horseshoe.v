(** Specification of the horseshoe Gibbs sampler. *)
From Verif Require Export S_density M_horseshoe.

(** product of f 0, ..., f (n-1) *)
Fixpoint nprod (n : nat) (f : nat -> R) : R :=
  match n with O => 1 | S m => nprod m f * f m end.

(** vectors with [n] positive components *)
Definition orthant (n : nat) (x : nat -> R) : Prop := forall j, (j < n)%nat -> 0 < x j.

(** proportional densities of vectors with [n] positive components *)
Definition vproportional (n : nat) (f g : (nat -> R) -> R) : Prop :=
  exists c, 0 < c /\ forall x, orthant n x -> f x = c * g x.

(** what the argument of [exponential] means: its rate (as in the docstring of
    horseshoe_posterior) or its scale (as in numpy) *)
Inductive convention := Rate | Scale.
Definition exponential_rate (cv : convention) (arg : R) : R :=
  match cv with Rate => arg | Scale => / arg end.

(** unnormalised density of a draw *)
Definition node_density (cv : convention) (d : node) (x : nat -> R) : R :=
  match d with
  | NExponential n arg => nprod n (fun j => exponential_density (exponential_rate cv (arg j)) (x j))
  | NGamma n shape rate => nprod n (fun j => gamma_density (shape j) (rate j) (x j))
  end.
Definition node_size (d : node) : nat := match d with NExponential n _ => n | NGamma n _ _ => n end.

(** density of the componentwise reciprocal of a vector with density [f] *)
Definition reciprocal_density (n : nat) (f : (nat -> R) -> R) (x : nat -> R) : R :=
  f (fun j => / x j) * nprod n (fun j => / x j ^ 2).

(** [N(0, v)] at [b], and inverse gamma of shape 1/2 and scale [s] at [x], up to factors
    that do not depend on [v], [s], [b], [x] *)
Definition normal_var (v b : R) : R := Rpower v (- / 2) * exp (- (b ^ 2 / (2 * v))).
Definition ig_half (s x : R) : R := Rpower s (/ 2) * Rpower x (- (3 / 2)) * exp (- (s / x)).

(** Joint density of the horseshoe model in mixture form:
    beta_j ~ N(0, lambda2_j tau2 sigma2), lambda2_j ~ IG(1/2, 1/nu_j), nu_j ~ IG(1/2, 1),
    tau2 ~ IG(1/2, 1/xi), xi ~ IG(1/2, 1). *)
Definition hs_joint (p : nat) (beta : nat -> R) (sigma2 : R) (lambda2 : nat -> R) (tau2 : R)
    (nu : nat -> R) (xi : R) : R :=
  nprod p (fun j => normal_var (lambda2 j * tau2 * sigma2) (beta j)
                    * ig_half (/ nu j) (lambda2 j) * ig_half 1 (nu j))
  * ig_half (/ xi) tau2 * ig_half 1 xi.

(** The reciprocal of the draw [d], a vector, has the density [g] *)
Definition draws_reciprocal_of (cv : convention) (d : node) (g : (nat -> R) -> R) : Prop :=
  vproportional (node_size d) (reciprocal_density (node_size d) (node_density cv d)) g.

(** The program is a Gibbs sweep for the horseshoe model: it draws the reciprocals of
    nu, xi, lambda2, tau2 in this order, each from its full conditional given the newest
    values of the others, and returns the square roots of the new lambda2 and tau2. *)
Definition gibbs_sweep (cv : convention) (p : nat) (beta : nat -> R) (sigma2 : R)
    (lambda2 : nat -> R) (tau2 : R) (prg : prog ((nat -> R) * R)) : Prop :=
  exists d1 k1, prg = Draw d1 k1 /\ node_size d1 = p /\
    (forall xi, 0 < xi ->
       draws_reciprocal_of cv d1 (fun nu => hs_joint p beta sigma2 lambda2 tau2 nu xi)) /\
  forall u, orthant p u -> let nu := fun j => / u j in
  exists d2 k2, k1 u = Draw d2 k2 /\ node_size d2 = 1%nat /\
    draws_reciprocal_of cv d2 (fun xi => hs_joint p beta sigma2 lambda2 tau2 nu (xi 0%nat)) /\
  forall z, orthant 1 z -> let xi := / z 0%nat in
  exists d3 k3, k2 z = Draw d3 k3 /\ node_size d3 = p /\
    draws_reciprocal_of cv d3 (fun l => hs_joint p beta sigma2 l tau2 nu xi) /\
  forall l, orthant p l -> let lambda2' := fun j => / l j in
  exists d4 k4, k3 l = Draw d4 k4 /\ node_size d4 = 1%nat /\
    draws_reciprocal_of cv d4 (fun t => hs_joint p beta sigma2 lambda2' (t 0%nat) nu xi) /\
  forall t, orthant 1 t ->
  exists lam tau, k4 t = Ret (lam, tau) /\
    (forall j, (j < p)%nat -> 0 < lam j /\ lam j ^ 2 = lambda2' j) /\
    0 < tau /\ tau ^ 2 = / t 0%nat.
