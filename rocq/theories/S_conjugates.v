(** Specification of the conjugate posteriors: arrays of independent components, each with
    its own prior and its own observation. *)
From Verif Require Export S_build S_density M_gibbs.
Global Open Scope nat_scope.

(** ** Values of graphs over the reals *)

(** Elemwise operators and constants have their usual meaning *)
Record real_ops (B : builder) (scalar : nat -> list R -> option R) (cval : nat -> tensor R) : Prop := RealOps {
  ro_add : forall a b, scalar E_add [a; b] = Some (a + b)%R;
  ro_sub : forall a b, scalar E_sub [a; b] = Some (a - b)%R;
  ro_div : forall a b, scalar E_truediv [a; b] = Some (a / b)%R;
  ro_int : forall z, cval (b_int B z).1 = Tensor [] [IZR z];
  ro_float : forall z, cval (b_float B z).1 = Tensor [] [IZR z];
}.

(** given the values [rho], variable [v] has value [x], of the rank its type says *)
Definition has_value (B : builder) (scalar : nat -> list R -> option R)
    (other : op -> list (tensor R) -> option (list (tensor R))) (cval : nat -> tensor R)
    (h : heap) (rho : vid -> option (tensor R)) (v : vid) (x : tensor R) : Prop :=
  evals (tensor_base scalar other) cval h rho v x /\ rank x = a_ndim B (ty_def h v).

(** values are only given to existing variables *)
Definition gives_old (h : heap) (rho : vid -> option (tensor R)) : Prop :=
  forall v, is_Some (rho v) -> is_Some (hv h v).

(** ** Densities of arrays of shape [s], given as functions of the index *)
Definition bval (x : tensor R) (idx : list nat) : R := default 0%R (bget x idx).
Definition counts (s : list nat) (x : tensor R) (c : list nat -> nat) : Prop :=
  forall idx, in_range s idx -> bget x idx = Some (INR (c idx)).
Definition product_over (s : list nat) (f : list nat -> R) : R := fold_right Rmult 1%R (map f (indices s)).

Definition beta_array (s : list nat) (a b : tensor R) (x : list nat -> R) : R :=
  product_over s (fun i => beta_density (bval a i) (bval b i) (x i)).
(** numpy's parameterisation: shape and scale *)
Definition gamma_array (s : list nat) (a scale : tensor R) (x : list nat -> R) : R :=
  product_over s (fun i => gamma_density (bval a i) (/ bval scale i) (x i)).
Definition poisson_likelihood (s : list nat) (y : list nat -> nat) (x : list nat -> R) : R :=
  product_over s (fun i => poisson_pmf (x i) (y i)).
Definition binomial_likelihood (s : list nat) (n y : list nat -> nat) (x : list nat -> R) : R :=
  product_over s (fun i => binomial_pmf (n i) (x i) (y i)).
Definition nb_likelihood (s : list nat) (n : list nat -> R) (y : list nat -> nat) (x : list nat -> R) : R :=
  product_over s (fun i => nb_pmf (n i) (x i) (y i)).

(** Bayes: proportional to prior times likelihood, for arrays with components in [S] *)
Definition is_posterior (S : R -> Prop) (s : list nat) (post prior lik : (list nat -> R) -> R) : Prop :=
  exists c, (0 < c)%R /\ forall x, (forall i, in_range s i -> S (x i)) -> post x = (c * (prior x * lik x))%R.

(** ** The shape of a draw: the size if given, else what the parameters broadcast to *)
Definition fits_shape (s s' : list nat) : Prop :=
  length s' <= length s /\ Forall2 (fun d e => d = 1 \/ d = e) s' (drop (length s - length s') s).
Definition draw_shape (size : list nat) (params : list (list nat)) (s : list nat) : Prop :=
  if decide (size = []) then
    Forall (fits_shape s) params /\ forall t, Forall (fits_shape t) params -> fits_shape t s
  else s = size /\ Forall (fits_shape size) params.
