(** Specification for the sampling stages of /repo/aemcmc/types.py. *)
From Verif Require Export M_types.

Section spec.
  Context {K A : Type} `{EqDecision K}.

  (** the distinct elements of a list, in order of first use *)
  Fixpoint first_uses (l : list K) : list K :=
    match l with
    | [] => []
    | x :: l' => x :: filter (fun y => y <> x) (first_uses l')
    end.

  (** the [A]s tagged with [k], in order *)
  Definition members (k : K) (l : list (K * A)) : list A :=
    (filter (fun p => p.1 = k) l).*2.

  (** equal keys are never separated by a different key *)
  Definition contiguous (l : list K) : Prop :=
    forall i j m a b, i < j < m -> l !! i = Some a -> l !! j = Some b -> l !! m = Some a -> b = a.
End spec.

(** The list of (kernel, variable) pairs in the order of the sampling steps *)
Definition tagged (opkey : vid -> option nat) (steps : dict nat nat) : option (list (nat * vid)) :=
  mapM (fun '(rv, s) => k ← opkey s; Some (k, rv)) steps.
