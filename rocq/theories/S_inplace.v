(** Specification vocabulary for C65: construct_ir_fgraph with [clone=False]. *)
From Verif Require Export M_inplace S_copy.

(** values for leaves that are not constants and for random variables *)
Definition state_env {D} (h : heap) (rho : vid -> option D) : Prop :=
  forall v, is_Some (rho v) -> is_Some (hv h v) /\ is_constant h v = false /\ (owner h v = None \/ is_draw h v).

(** A rewriting of function graphs keeps values: every variable there was, inside the graph or
    not, has the value it had, whatever the values of random variables and leaves. *)
Definition keeps_values {D} (base : op -> list D -> option (list D)) (cval : nat -> D)
    (canon : heap -> list vid -> heap * list vid) : Prop :=
  forall h outs, good_heap h -> shuffles_ok h -> (forall r, r ∈ outs -> is_draw h r) ->
  forall rho, state_env h rho ->
  forall v x, is_Some (hv h v) -> evals base cval h rho v x <-> evals base cval (canon h outs).1 rho v x.
