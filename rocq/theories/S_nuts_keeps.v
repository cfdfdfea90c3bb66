(** Specification vocabulary for C61: one NUTS step as a transition kernel on the original
    values of its variables. *)
From Verif Require Export S_sweep.
From Verif Require Export M_nuts S_nuts.

(** Where the values of a random variable live: its distribution, the values of the
    parameters of the distribution, and some array in the support. *)
Record value_space := ValueSpace { vs_dist : nat; vs_params : list (tensor num); vs_point : tensor num }.
Record space_ok (s : value_space) : Prop := SpaceOk {
  so_number : nparams (vs_dist s) = Some (length (vs_params s));
  so_array : tensor_ok (vs_point s);
  so_fits : Forall (fits (t_shape (vs_point s))) (vs_params s);
  so_support : in_support (vs_dist s) (vs_params s) (vs_point s);
}.
(** the values of the bounds of the support *)
Definition bound_values (s : value_space) : list (tensor num) :=
  omap (fun i => vs_params s !! i) (bound_positions (vs_dist s)).

(** the values of the variable: arrays of that shape in the support *)
Definition is_value (s : value_space) (x : tensor num) : Prop :=
  tensor_ok x /\ t_shape x = t_shape (vs_point s) /\ in_support (vs_dist s) (vs_params s) x.
(** the values after the transformation: all arrays of numbers of the same shape, with one
    entry less in the last axis for probability vectors *)
Definition free_shape (s : value_space) (t : list nat) : Prop :=
  if decide (vs_dist s = RV_dirichlet) then exists l n, t_shape (vs_point s) = l ++ [S n] /\ t = l ++ [n]
  else t = t_shape (vs_point s).
Definition is_free (s : value_space) (z : tensor num) : Prop :=
  tensor_ok z /\ finite z /\ free_shape s (t_shape z).
(** [x] is the original value of [z]: the default backward transform of the distribution *)
Definition original (s : value_space) (z x : tensor num) : Prop :=
  match aeppl_default (vs_dist s) with
  | Some (k, _) => backward k (z :: bound_values s) = Some x
  | None => x = z
  end.

Section nuts.
  Context (K : list (tensor num) -> option (list (tensor num))) (other : op -> list (tensor num) -> option (list (tensor num))).
  Context (cval : nat -> tensor num) (h : heap) (ts : dict nat nat) (h' : heap) (s : nuts_step).
  Notation ev := (evals (nuts_base K other) cval).
  Notation V := (dkeys ts).
  Context (env : (vid -> tensor num) -> (vid -> tensor num) -> vid -> option (tensor num)).
  Context (space : (vid -> tensor num) -> vid -> value_space).

  (** What is computed in the graph [h'] of the step, when the variables have values [x] and
      the generators states [e].  [space x rv] is where the values of [rv] live; it depends on
      the variables that the step does not update only. *)
  Record nuts_inputs : Prop := NutsInputs {
    ni_new : forall x e u, hv h u = None -> is_Some (owner h' u) -> env x e u = None;
    ni_value : forall x e rv vv, (rv, vv) ∈ ts -> ev h (env x e) vv (x rv);
    ni_space : forall x rv, rv ∈ V -> space_ok (space x rv);
    ni_own : forall x y rv, rv ∈ V -> space (put V y x) rv = space x rv;
    ni_bounds : forall x e rv, rv ∈ V -> exists params,
      rv_of h rv (vs_dist (space x rv)) params /\ length params = length (vs_params (space x rv)) /\
      Forall2 (ev h (env x e)) (bounds (vs_dist (space x rv)) params) (bound_values (space x rv));
  }.

  (** all the transformed values, and the original ones *)
  Definition free (x z : vid -> tensor num) : Prop := forall rv, rv ∈ V -> is_free (space x rv) (z rv).
  Definition originals (x z y : vid -> tensor num) : Prop := forall rv, rv ∈ V -> original (space x rv) (z rv) (y rv).

  (** AeHMC's kernel moves the transformed values [z] to [move x e z] *)
  Record nuts_moves (move : (vid -> tensor num) -> (vid -> tensor num) -> (vid -> tensor num) -> vid -> tensor num) : Prop := NutsMoves {
    nm_free : forall x e z, free x z -> free x (move x e z);
    nm_own : forall x e z z' rv, (forall r, r ∈ V -> z r = z' r) -> rv ∈ V -> move x e z rv = move x e z' rv;
    nm_kernel : forall x y e z v n nd q ins rest, free x z ->
      hv h v = None -> owner h' v = Some (n, 0) -> hn h' n = Some nd -> n_op nd = nuts_op N_expand -> n_ins nd = q :: ins ->
      Forall2 (ev h' (env (put V y x) e)) ins rest ->
      exists out, K (ravel_params (z <$> V) :: rest) = Some (ravel_params (move x e z <$> V) :: out);
  }.

  (** [nu] is the target of the kernel, a measure on transformed values, as a law of the
      original values: the measure with density [w] ... *)
  Record nuts_target (test : ((vid -> tensor num) -> R) -> Prop) (w : (vid -> tensor num) -> R) (own : law (vid -> tensor num))
      (orig : (vid -> tensor num) -> (vid -> tensor num) -> vid -> tensor num)
      (nu : (vid -> tensor num) -> law (vid -> tensor num)) : Prop := NutsTarget {
    nt_free : forall x f f', (forall z, free x z -> f z = f' z) -> nu x f = nu x f';
    nt_orig : forall x z, free x z -> originals x z (orig x z);
    nt_change : forall x g, test g ->
      own (fun y => w (put V y x) * g (put V y x))%R = nu x (fun z => g (put V (orig x z) x));
  }.
  (** ... which the kernel leaves invariant *)
  Definition kernel_keeps (test : ((vid -> tensor num) -> R) -> Prop) (seed : law (vid -> tensor num))
      (orig : (vid -> tensor num) -> (vid -> tensor num) -> vid -> tensor num)
      (move : (vid -> tensor num) -> (vid -> tensor num) -> (vid -> tensor num) -> vid -> tensor num)
      (nu : (vid -> tensor num) -> law (vid -> tensor num)) : Prop :=
    forall x g, test g -> nu x (fun z => seed (fun e => g (put V (orig x (move x e z)) x))) = nu x (fun z => g (put V (orig x z) x)).

  (** The values that the step returns are those its graph computes. *)
  Definition step_computes (step : (vid -> tensor num) -> (vid -> tensor num) -> vid -> tensor num) : Prop :=
    forall x e i rv v, (forall r, r ∈ V -> is_value (space x r) (x r)) -> V !! i = Some rv -> ns_results s !! i = Some v ->
      ev h' (env x e) v (step x e rv).
End nuts.
