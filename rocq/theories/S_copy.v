(** Specification vocabulary for property C56: the copy of the model in which samplers are
    looked up has the density of the model. *)
From Verif Require Export M_pass M_target S_subsume S_tensor.

(** values for the leaves of a graph that are not constants: data, placeholders, generators *)
Definition data_env {D} (h : heap) (rho : vid -> option D) : Prop :=
  forall v, is_Some (rho v) -> is_Some (hv h v) /\ owner h v = None /\ is_constant h v = false.

(** values for the random variables of a graph *)
Definition draws_env {D} (h : heap) (sigma : vid -> option D) : Prop :=
  forall v, is_Some (sigma v) -> is_draw h v.

(** A rewriting of function graphs whose outputs are random variables keeps the model: the
    density of every output is what it was, whatever the values of the random variables and
    of the leaves. *)
Definition keeps_densities {D} (base : op -> list D -> option (list D)) (cval : nat -> D)
    (ld : nat -> list D -> D -> R) (canon : heap -> list vid -> heap * list vid) : Prop :=
  forall h outs, good_heap h -> shuffles_ok h -> (forall r, r ∈ outs -> is_draw h r) ->
  forall rho sigma, data_env h rho -> draws_env h sigma ->
  forall r l, r ∈ outs ->
    factor base cval ld h rho sigma r l <-> factor base cval ld (canon h outs).1 rho sigma r l.
