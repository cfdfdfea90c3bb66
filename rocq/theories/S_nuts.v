(** Specification vocabulary for the NUTS step: the support of a distribution. *)
From Verif Require Export S_broadcast M_nuts_step S_basic.

(** The support of a scalar distribution with the given parameters (the interior, where it
    is an interval); [None] for distributions that are not covered *)
Definition scalar_support (d : nat) (params : list R) : option (R -> Prop) :=
  (if decide (d = RV_normal) then Some (fun _ => True)
   else if decide (d = RV_uniform) then
     match params with [a; b] => Some (fun x => a < x < b) | _ => None end
   else if decide (d = RV_triangular) then
     match params with [a; _; b] => Some (fun x => a < x < b) | _ => None end
   else if decide (d = RV_pareto) then
     match params with [_; m] => Some (fun x => m < x) | _ => None end
   else if decide (d ∈ [RV_halfnormal; RV_halfcauchy]) then
     match params with [m; _] => Some (fun x => m < x) | _ => None end
   else if decide (d ∈ [RV_exponential; RV_gamma; RV_invgamma; RV_lognormal]) then Some (fun x => 0 < x)
   else if decide (d = RV_beta) then Some (fun x => 0 < x < 1)
   else if decide (d = RV_vonmises) then Some (fun x => - PI < x <= PI)
   else None)%R.

(** the number of parameters of the distributions covered *)
Definition nparams (d : nat) : option nat :=
  if decide (d ∈ [RV_normal; RV_uniform; RV_pareto; RV_halfnormal; RV_halfcauchy; RV_gamma; RV_invgamma; RV_lognormal;
                  RV_beta; RV_vonmises]) then Some 2
  else if decide (d = RV_triangular) then Some 3
  else if decide (d ∈ [RV_exponential; RV_dirichlet]) then Some 1
  else None.

(** the probability vectors with positive entries *)
Definition open_simplex (x : list R) : Prop := Forall (fun r => 0 < r)%R x /\ foldr Rplus 0%R x = 1%R.

(** Array [x] is in the support of distribution [d] with array parameters (broadcast to the
    shape of [x]): every element is; for a Dirichlet distribution, every vector along the
    last axis is. *)
Definition in_support (d : nat) (params : list (tensor num)) (x : tensor num) : Prop :=
  if decide (d = RV_dirichlet) then
    exists s n, t_shape x = s ++ [n] /\ 0 < n /\
      forall idx, in_range s idx -> exists v, length v = n /\ open_simplex v /\
        forall j r, v !! j = Some r -> t_at x (idx ++ [j]) = Some (Some r)
  else
    forall idx, in_range (t_shape x) idx -> exists ps S r,
      mapM (fun p => bget p idx) params = Some (Some <$> ps) /\ scalar_support d ps = Some S /\
      t_at x idx = Some (Some r) /\ S r.

(** all elements are numbers *)
Definition finite (x : tensor num) : Prop := Forall is_Some (t_data x).
Definition same_shape (x y : tensor num) : Prop := t_shape x = t_shape y.

(** The kernel returns a position of numbers of the length of the one it is given *)
Definition returns_position (K : list (tensor num) -> option (list (tensor num))) : Prop :=
  forall q args ys, tensor_ok q -> finite q -> K (q :: args) = Some ys ->
    exists q' ys', ys = q' :: ys' /\ tensor_ok q' /\ finite q' /\ t_shape q' = t_shape q.
(** ... it returns the position it is given *)
Definition kernel_stays (K : list (tensor num) -> option (list (tensor num))) : Prop :=
  forall q args ys, K (q :: args) = Some ys -> exists ys', ys = q :: ys'.

(** The parameters of the random variable [rv] of distribution [d]: the inputs of its node
    after the generator, the size and the data type *)
Definition rv_of (h : heap) (rv : vid) (d : nat) (params : list vid) : Prop :=
  exists n nd rng size dtype, owner h rv = Some (n, 1) /\ hn h n = Some nd /\ n_op nd = ORV d /\
    n_ins nd = rng :: size :: dtype :: params.

(** joint_logprob makes new nodes *)
Definition lp_ok (lp : heap -> dict nat nat -> dict nat nat -> heap * list vid) : Prop :=
  forall h ts re, good_heap h -> (forall v, v ∈ dvalues ts ++ dvalues re -> is_Some (hv h v)) ->
    extends h (lp h ts re).1 /\ good_heap (lp h ts re).1 /\ (forall v, v ∈ (lp h ts re).2 -> is_Some (hv (lp h ts re).1 v)).

(** The parameters that bound the support of a distribution (positions among the
    parameters) *)
Definition bound_positions (d : nat) : list nat :=
  if decide (d = RV_uniform) then [0; 1]
  else if decide (d = RV_triangular) then [0; 2]
  else if decide (d = RV_pareto) then [1]
  else if decide (d ∈ [RV_halfnormal; RV_halfcauchy]) then [0]
  else [].
Definition bounds (d : nat) (params : list vid) : list vid := omap (fun i => params !! i) (bound_positions d).

(** The state of a model: [sigma] gives the values of the random variables, [rho] those of
    the leaves.  The value of the random variable [rv], held in [vv], lies in its support. *)
Definition in_state (ev : (vid -> option (tensor num)) -> vid -> tensor num -> Prop) (rho sigma : vid -> option (tensor num))
    (h : heap) (rv vv : vid) (d : nat) (params : list vid) : Prop :=
  rv_of h rv d params /\ nparams d = Some (length params) /\
  exists x P, sigma rv = Some x /\ ev rho vv x /\ tensor_ok x /\
    Forall2 (ev (over sigma rho)) params P /\ Forall (fits (t_shape x)) P /\ in_support d P x.

(** Every update of the sampler assigns to a random generator the output of the kernel that
    is the next state of that generator *)
Definition advances (h : heap) (s : nuts_step) (k : nuts_sampler) : Prop :=
  forall r o, dget (nk_updates k) r = Some o ->
    exists n j r', owner h o = Some (n, j) /\ (ns_results s ++ dvalues (ns_updates s)) !! j = Some r' /\ (r, r') ∈ ns_updates s.
