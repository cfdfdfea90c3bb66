(** Specification: the full conditional of one variable in a model, for real arrays. *)
From Verif Require Export S_target S_conjugates.

(** arrays of shape [s] with components in [S] *)
Definition array_in (S : R -> Prop) (s : list nat) (x : tensor R) : Prop :=
  tensor_ok x /\ t_shape x = s /\ forall i, in_range s i -> S (bval x i).

(** What [ld d params x], the log-density of distribution [d] with parameters [params] (size
    and dtype first) at [x], is for the families of the conjugate steps; [z] is minus the
    logarithm of the normalising constant. *)
Record log_densities (ld : nat -> list (tensor R) -> tensor R -> R) : Prop := LogDensities {
  ld_beta : exists z, forall s sz dt A B x, fits s A -> fits s B -> array_in unit_interval s x ->
    ld RV_beta [sz; dt; A; B] x = (ln (beta_array s A B (bval x)) + z s A B)%R;
  ld_gamma : exists z, forall s sz dt A C x, fits s A -> fits s C -> array_in pos_reals s x ->
    ld RV_gamma [sz; dt; A; C] x = (ln (gamma_array s A C (bval x)) + z s A C)%R;
  ld_binomial : forall s sz dt N P y cn cy, fits s N -> counts s N cn -> array_in unit_interval s P ->
    tensor_ok y -> t_shape y = s -> counts s y cy -> (forall i, in_range s i -> cy i <= cn i) ->
    ld RV_binomial [sz; dt; N; P] y = ln (binomial_likelihood s cn cy (bval P));
  ld_poisson : forall s sz dt P y cy, array_in pos_reals s P -> tensor_ok y -> t_shape y = s -> counts s y cy ->
    ld RV_poisson [sz; dt; P] y = ln (poisson_likelihood s cy (bval P));
  ld_nbinom : forall s sz dt N P y cy, fits s N -> (forall i, in_range s i -> (0 < bval N i)%R) -> array_in unit_interval s P ->
    tensor_ok y -> t_shape y = s -> counts s y cy ->
    ld RV_nbinom [sz; dt; N; P] y = ln (nb_likelihood s (bval N) cy (bval P));
}.

Section conditional.
  Context (scalar : nat -> list R -> option R) (other : op -> list (tensor R) -> option (list (tensor R))) (cval : nat -> tensor R).
  Context (ld : nat -> list (tensor R) -> tensor R -> R).
  Context (h : heap) (rho : vid -> option (tensor R)) (vars : list vid).

  (** [l] is the joint log-density of the variables [vs] when they have the values [sigma],
      except that [p] has the value [x] *)
  Definition joint_at (sigma : vid -> option (tensor R)) (p : vid) (vs : list vid) (x : tensor R) (l : R) : Prop :=
    joint (tensor_base scalar other) cval ld h rho (upd sigma p x) vs l.

  (** On [S], [density] is proportional to the joint density of the whole model as a function
      of the value of [p] *)
  Definition full_conditional (sigma : vid -> option (tensor R)) (p : vid) (S : tensor R -> Prop) (density : tensor R -> R) : Prop :=
    forall x x' l l', S x -> S x' -> joint_at sigma p vars x l -> joint_at sigma p vars x' l' ->
      (density x * exp l' = density x' * exp l)%R.
End conditional.

(** Among the model variables [V], [p] is used by [y] only, and there only as the last parameter *)
Definition only_used_by (h : heap) (V : list vid) (p y : vid) : Prop :=
  (forall rv, rv ∈ V -> rv <> y -> ~ cut_reachable h V (parents h rv) p) /\
  forall n i nd l, owner h y = Some (n, i) -> hn h n = Some nd -> n_ins nd = l ++ [p] -> ~ cut_reachable h V l p.
