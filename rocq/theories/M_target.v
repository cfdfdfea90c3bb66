(** Model of the log-density that nuts.step builds (/repo/aemcmc/nuts.py:97-101, 113-118):
    joint_logprob of AePPL, called on the variables to sample and the realized variables. *)
From Verif Require Export S_basic.
From Coq Require Export Reals.

(** A joint log-density is the sum of one term for each random variable: the log-density
    [ld] of its distribution at its value, its parameters being computed from the values
    of the random variables.  The parameters are the inputs of the node after the
    generator; [sigma] gives the values of the random variables, [rho] those of the other
    leaves (data, placeholders, random generators). *)
Section density.
  Context {D : Type} (base : op -> list D -> option (list D)) (cval : nat -> D).
  Context (ld : nat -> list D -> D -> R).
  Context (h : heap) (rho : vid -> option D).

  (* aeppl.joint_logprob, one term: nuts.py:97-101 *)
  Definition factor (sigma : vid -> option D) (rv : vid) (l : R) : Prop :=
    exists n nd d xs x, owner h rv = Some (n, 1) /\ hn h n = Some nd /\ n_op nd = ORV d /\
      sigma rv = Some x /\ evals_list base cval h (over sigma rho) (tail (n_ins nd)) xs /\ l = ld d xs x.

  (* aeppl.joint_logprob: nuts.py:97-101 *)
  Definition joint (sigma : vid -> option D) (rvs : list vid) (l : R) : Prop :=
    exists ls, Forall2 (factor sigma) rvs ls /\ l = foldr Rplus 0%R ls.

  (** [joint_logprob( *to_sample.keys(), realized=realized)] (nuts.py:97-101) as a function
      [q] of the values of the variables to sample (nuts.py:113-118); the others have the
      values of the variables they are realized by.  (Simplification: the change of
      variables is modelled in M_nuts.v.) *)
  Definition nuts_logprob (to_sample realized : dict nat nat) (q : vid -> option D) (l : R) : Prop :=
    exists sigma,
      (forall k, is_Some (sigma k) -> k ∈ dkeys realized) /\
      (forall k w, dget realized k = Some w -> exists x, sigma k = Some x /\ evals base cval h rho w x) /\
      joint (over q sigma) (dkeys to_sample ++ dkeys realized) l.
End density.
