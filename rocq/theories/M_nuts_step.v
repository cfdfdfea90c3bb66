(** Model of nuts.step (/repo/aemcmc/nuts.py:44-145) as a graph-building function, and what
    its nodes compute. *)
From Verif Require Export M_nuts M_build M_walk.

(** Operators used by the step.  (A transform is a few Aesara operators; here it is one
    node, with the value and the arguments it uses as inputs.) *)
Definition kind_code (k : tkind) : nat :=
  match k with KLog => 0 | KLogOdds => 1 | KInterval => 2 | KLower => 3 | KUpper => 4 | KSimplex => 5 | KCircular => 6 end.
Definition N_ravel := 0.
Definition N_momentum := 1.
Definition N_expand := 2.
Definition N_forward (k : tkind) := 10 + kind_code k.
Definition N_backward (k : tkind) := 20 + kind_code k.
Definition N_unravel (i : nat) := 30 + i.
Definition nuts_op (m : nat) : op := OOther (8 * m + 6).

(** get_transform (nuts.py:177-183): AePPL's default transform of the distribution [d], if
    any, with the positions in [rv.owner.inputs] of the arguments it uses *)
Definition transforms := nat -> option (tkind * list nat).
Definition get_transform (tr : transforms) (h : heap) (rv : vid) : option (tkind * list nat) :=
  match owner_op h rv with Some (ORV d) => tr d | _ => None end.
(** the arguments among [rv.owner.inputs] *)
(* nuts.py:189, 200 *)
Definition targs (h : heap) (rv : vid) (pos : list nat) : list vid :=
  omap (fun i => parents h rv !! i) pos.

(** transform_forward and transform_backward (nuts.py:186-203).  (Simplification: names are
    not set; the new variable has the type of [vv].) *)
Definition transform_forward (h : heap) (rv vv : vid) (t : option (tkind * list nat)) : heap * vid :=
  match t with
  | Some (k, pos) => apply1 h (nuts_op (N_forward k)) (vv :: targs h rv pos) (ty_def h vv)
  | None => (h, vv)
  end.
Definition transform_backward (h : heap) (rv vv : vid) (t : option (tkind * list nat)) : heap * vid :=
  match t with
  | Some (k, pos) => apply1 h (nuts_op (N_backward k)) (vv :: targs h rv pos) (ty_def h vv)
  | None => (h, vv)
  end.

(** [[transform_forward(rv, vv, transforms[rv]) for rv, vv in zip(to_sample_rvs, initial_values)]]
    (nuts.py:87-91) *)
Fixpoint forward_all (tr : transforms) (h : heap) (items : list (vid * vid)) : heap * list vid :=
  match items with
  | [] => (h, [])
  | (rv, vv) :: items' =>
      let '(h1, t) := transform_forward h rv vv (get_transform tr h rv) in
      let '(h2, ts) := forward_all tr h1 items' in
      (h2, t :: ts)
  end.

(** [rp_map.unravel_params(new_q)] and the backward transforms (nuts.py:135-139), for the
    variables from number [i] on.  [tvs] are the references of the RaveledParamsMap. *)
Fixpoint backward_all (tr : transforms) (h : heap) (new_q : vid) (tvs : list vid) (i : nat)
    (items : list (vid * vid)) : heap * list vid :=
  match items with
  | [] => (h, [])
  | (rv, vv) :: items' =>
      let '(h1, u) := apply1 h (nuts_op (N_unravel i)) (new_q :: tvs) (ty_def h vv) in
      let '(h2, w) := transform_backward h1 rv u (get_transform tr h rv) in
      let '(h3, ws) := backward_all tr h2 new_q tvs (S i) items' in
      (h3, w :: ws)
  end.

(** [n] new shared random generators *)
(* made by aehmc.nuts in the call nuts.py:134 *)
Fixpoint new_rngs (B : builder) (h : heap) (n : nat) : heap * list vid :=
  match n with
  | 0 => (h, [])
  | S n' =>
      let '(h1, r) := alloc_var h (Var None (b_rng B) (KShared None) None) in
      let '(h2, rs) := new_rngs B h1 n' in
      (h2, r :: rs)
  end.

(** step (nuts.py:44-145).  [lp] is joint_logprob (nuts.py:97-101): it makes new nodes and
    gives the variables that the log-density reads besides the position (its value is
    modelled in M_target.v).  The kernel (aehmc.nuts) draws a momentum with a generator of
    its own, and then runs a scan that uses [nr] other generators; the updates are those of
    the scan. *)
Definition step (B : builder) (tr : transforms) (lp : heap -> dict nat nat -> dict nat nat -> heap * list vid)
    (nr : nat) (h : heap) (to_sample realized : dict nat nat) : heap * nuts_step :=
  let '(h1, tvs) := forward_all tr h to_sample in                        (* :87-91 *)
  let '(h2, lps) := lp h1 to_sample realized in                          (* :97-101 *)
  let '(h3, q) := apply1 h2 (nuts_op N_ravel) tvs (VType false 1) in     (* :108, 123 *)
  let '(h4, eps) := alloc_var h3 (Var (Some "step_size"%string) (VType false 0) KPlain None) in      (* :127 *)
  let '(h5, imm) := alloc_var h4 (Var (Some "inverse_mass_matrix"%string) (VType false 1) KPlain None) in   (* :128-130 *)
  let '(h6, (_, _, p)) := gen B h5 (nuts_op N_momentum) [imm] in         (* :134 *)
  let '(h7, rngs) := new_rngs B h6 nr in
  let '(h8, outs) := alloc_node h7 (nuts_op N_expand) ([q; p] ++ rngs ++ [eps; imm] ++ lps)
                       ((None, VType false 1) :: replicate nr (None, b_rng B)) in
  match outs with
  | [] => (h8, NutsStep [] [] (eps, imm))
  | new_q :: rngs' =>
      let '(h9, results) := backward_all tr h8 new_q tvs 0 to_sample in  (* :135-139 *)
      (h9, NutsStep results (zip rngs rngs') (eps, imm))
  end.

(** ** What the nodes compute.  [K] is the kernel: from the position, the momentum, the
    generators, the step size, the inverse mass matrix and what the log-density reads it
    gives the new position and the new generators.  [other] gives the other operators. *)
Section base.
  Context (K : list (tensor num) -> option (list (tensor num))).
  Context (other : op -> list (tensor num) -> option (list (tensor num))).

  (* nuts.py:177-183 *)
  Definition all_kinds : list tkind := [KLog; KLogOdds; KInterval; KLower; KUpper; KSimplex; KCircular].
  (* what the operators made in nuts.py:108-139 compute *)
  Definition nuts_base (o : op) (xs : list (tensor num)) : option (list (tensor num)) :=
    match o with
    | OOther c =>
        if decide (c mod 8 = 6) then
          let m := c / 8 in
          if decide (m = N_ravel) then Some [ravel_params xs]
          else if decide (m = N_expand) then K xs
          else if decide (30 <= m) then
            match xs with q :: refs => y ← unravel_param (m - 30) q refs; Some [y] | [] => None end
          else if decide (20 <= m) then k ← all_kinds !! (m - 20); y ← backward k xs; Some [y]
          else if decide (10 <= m) then k ← all_kinds !! (m - 10); y ← forward k xs; Some [y]
          else other o xs
        else other o xs
    | _ => other o xs
    end.
End base.

(** The default transforms of AePPL (aeppl.transforms), for distributions with parameters
    at positions 3, 4, ... of the inputs *)
Definition RV_uniform := 8.
Definition RV_triangular := 9.
Definition RV_pareto := 10.
Definition RV_halfnormal := 11.
Definition RV_invgamma := 13.
Definition RV_lognormal := 14.
Definition RV_vonmises := 15.
Definition RV_dirichlet := 16.
Definition aeppl_default : transforms := fun d =>
  match d with
  | 8 => Some (KInterval, [3; 4])         (* uniform(low, high) *)
  | 9 => Some (KInterval, [3; 5])         (* triangular(left, mode, right) *)
  | 10 => Some (KLower, [4])              (* pareto(b, scale) *)
  | 11 => Some (KLower, [3])              (* halfnormal(loc, scale) *)
  | 1 => Some (KLower, [3])               (* halfcauchy(loc, scale) *)
  | 12 | 2 | 13 | 14 => Some (KLog, [])   (* exponential, gamma, invgamma, lognormal *)
  | 3 => Some (KLogOdds, [])              (* beta *)
  | 15 => Some (KCircular, [])            (* vonmises *)
  | 16 => Some (KSimplex, [])             (* dirichlet *)
  | _ => None                             (* normal, and all others *)
  end.
