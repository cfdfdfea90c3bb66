(** Specification vocabulary for the log-density handed to NUTS.  [joint] is the
    log-density of a model; the full conditional of some variables is the joint
    log-density of the whole model as a function of their values. *)
From Verif Require Export M_target.

Section involves.
  Context (h : heap) (V : list vid).

  (** [NV] are variables updated by NUTS.  The factor of [rv] involves one of them: its
      value, or one of its parameters without going through another model variable *)
  Definition involves (NV : vid -> Prop) (rv : vid) : Prop :=
    NV rv \/ exists u, NV u /\ cut_reachable h V (parents h rv) u.

  (** node [n] computes the factor of [rv] *)
  Definition factor_node (rv : vid) (n : nid) : Prop :=
    (exists i, owner h rv = Some (n, i)) \/
    exists v i, cut_reachable h V (parents h rv) v /\ v ∉ V /\ owner h v = Some (n, i).
End involves.
