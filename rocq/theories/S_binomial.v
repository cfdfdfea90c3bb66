(** Specification vocabulary for property C62: models whose closed-form variables are beta priors
    of binomial variables. *)
From Verif Require Export S_exact S_discovery.

(** [p] is a beta variable that is used by the binomial variable [y] only, as its probability.
    Each parameter is a variable of the model, or computed without any of them. *)
Record beta_of (h : heap) (V : list vid) (p y size dtype a b nn : vid) : Prop := BetaOf {
  bo_p : p ∈ V;
  bo_y : y ∈ V;
  bo_beta : rv_full h p RV_beta size dtype [a; b];
  bo_binomial : exists sz dt, rv_full h y RV_binomial sz dt [nn; p];
  bo_used : only_used_by h V p y;
  bo_params : forall u, u ∈ [size; dtype; a; b; nn] -> u ∈ V \/ forall r, r ∈ V -> ~ reachable h [u] r;
}.
Definition beta_binomial (h : heap) (V : list vid) (p y : vid) : Prop :=
  exists size dtype a b nn, beta_of h V p y size dtype a b nn.

(** the graph given to the finders: all its random variables are outputs, it has no
    SubsumingElemwise, and every variable is such a [p], or observed, or without a closed form *)
Record binomial_model (T : typing) (h : heap) (V obs : list vid) : Prop := BinomialModel {
  bm_draws : forall y, rv_output h V y -> y ∈ V;
  bm_plain : forall n, node_reachable h V n -> ~ is_subsume h n;
  bm_shared : forall v, reachable h V v -> shared_var h v -> owner h v = None;
  bm_cases : forall r, r ∈ V -> r ∉ obs ->
    (exists y, beta_binomial h V r y) \/ forall k y, rv_output h V y -> ~ closed_form T h k y r;
}.

Section states.
  Context (Bd : builder) (scalar : nat -> list R -> option R) (other : op -> list (tensor R) -> option (list (tensor R)))
    (cval : nat -> tensor R) (ld : nat -> list (tensor R) -> tensor R -> R).
  Context (h : heap) (rho : vid -> option (tensor R)) (V obs : list vid) (data : vid -> tensor R).
  Context (shape : vid -> list nat).     (* the shape of a beta variable *)

  (** [dom] is the support of the posterior density [w] of the model.  It does not restrict the
      values of the beta variables beyond the unit interval. *)
  Record posterior_on (dom : (vid -> tensor R) -> Prop) (w : (vid -> tensor R) -> R) : Prop := PosteriorOn {
    po_density : forall x, dom x -> density_at scalar other cval ld h rho V w x;
    po_outside : forall x, dom x \/ (~ dom x /\ w x = 0%R);
    po_data : forall x k, dom x -> k ∈ obs -> x k = data k;
    po_free : forall x p y t, beta_binomial h V p y -> p ∉ obs -> dom x ->
      array_in unit_interval (shape p) (t p) -> dom (put [p] t x);
    (* the parameters have values: positive for the prior, and the counts do not exceed the
       numbers of trials *)
    po_params : forall x p y size dtype a b nn, beta_of h V p y size dtype a b nn -> p ∉ obs -> dom x ->
      let env := over (on V x) rho in let s := shape p in
      exists Av Bv Nv cn cy,
        has_value Bd scalar other cval h env a Av /\ fits s Av /\ has_value Bd scalar other cval h env b Bv /\ fits s Bv /\
        (forall i, in_range s i -> (0 < bval Av i)%R /\ (0 < bval Bv i)%R) /\
        has_value Bd scalar other cval h env nn Nv /\ fits s Nv /\ counts s Nv cn /\
        has_value Bd scalar other cval h env y (x y) /\ tensor_ok (x y) /\ t_shape (x y) = s /\ counts s (x y) cy /\
        forall i, in_range s i -> cy i <= cn i;
  }.

  (** The generator of the step of [p] is [g].  From a state of a generator, numpy draws an array
      of the shape of [p] with components in the unit interval; over the states of [g] these
      draws follow the beta law. *)
  Record draws_beta (state : tensor R -> Prop) (test : ((vid -> tensor R) -> R) -> Prop) (dom : (vid -> tensor R) -> Prop)
      (p g : vid) (K : step_block (tensor R)) : Prop := DrawsBeta {
    db_support : forall F F', (forall e, state (e g) -> F e = F' e) -> b_seed K F = b_seed K F';
    db_draw : forall x y size dtype a b nn sv dv A C, beta_of h V p y size dtype a b nn -> dom x ->
      evals (tensor_base scalar other) cval h (over (on V x) rho) size sv ->
      evals (tensor_base scalar other) cval h (over (on V x) rho) dtype dv ->
      t_shape A = shape p -> fits (shape p) A -> t_shape C = shape p -> fits (shape p) C ->
      (forall i, in_range (shape p) i -> (0 < bval A i)%R /\ (0 < bval C i)%R) ->
      exists draw next,
        (forall st, state st -> other (ORV RV_beta) [st; sv; dv; A; C] = Some [next st; draw st] /\
           array_in unit_interval (shape p) (draw st)) /\
        b_own K (fun t => beta_array (shape p) A C (bval (t p))) <> 0%R /\
        forall x0 f, test f -> b_seed K (fun e => f (put [p] (fun _ => draw (e g)) x0)) =
          (b_own K (fun t => beta_array (shape p) A C (bval (t p)) * f (put [p] t x0)) /
           b_own K (fun t => beta_array (shape p) A C (bval (t p))))%R;
  }.

  (** [K] is the step of [p], whose random variable is [step] in the graph [h3] after discovery:
      its only generator is that of [step], and its value is that of [step] given the values [x]
      of the model's variables and the state of the generator.  The measure of [p] lives on
      arrays with components in the unit interval. *)
  Record beta_block (h3 : heap) (step : vid) (state : tensor R -> Prop) (test : ((vid -> tensor R) -> R) -> Prop)
      (dom : (vid -> tensor R) -> Prop) (p g : vid) (K : step_block (tensor R)) : Prop := BetaBlock {
    bb_vars : b_vars K = [p];
    bb_gens : b_gens K = [g];
    bb_input : exists n i nd, owner h3 step = Some (n, i) /\ hn h3 n = Some nd /\ n_ins nd !! 0 = Some g;
    bb_value : forall x e t, dom x ->
      evals (tensor_base scalar other) cval h3 (over (on V x) (over (on [g] e) rho)) step t -> b_step K x e p = t;
    bb_local : forall x e e', e g = e' g -> b_step K x e p = b_step K x e' p;
    bb_own : measure_on p (array_in unit_interval (shape p)) (b_own K);
    bb_draw : draws_beta state test dom p g K;
  }.
End states.
