(** Specification vocabulary for the link between C53 and C57: a step that is a draw from a
    density of one variable. *)
From Verif Require Export S_conditional S_sweep.

Section exact.
  Context (scalar : nat -> list R -> option R) (other : op -> list (tensor R) -> option (list (tensor R))) (cval : nat -> tensor R).
  Context (ld : nat -> list (tensor R) -> tensor R -> R) (h : heap) (rho : vid -> option (tensor R)) (V : list vid).
  Context (p : vid) (S : tensor R -> Prop).

  (** the measure of the block is homogeneous and lives on values of [p] in [S] *)
  Record measure_on (own : law (vid -> tensor R)) : Prop := MeasureOn {
    mo_scale : forall a c, own (fun y => a y * c)%R = (own a * c)%R;
    mo_in : forall f f', (forall y, S (y p) -> f y = f' y) -> own f = own f';
  }.

  Definition additive (own : law (vid -> tensor R)) : Prop := forall f f', own (fun y => f y + f' y)%R = (own f + own f')%R.

  (** at [x], the step draws [p] from the law with the given density, up to a constant *)
  Definition draws_from (test : ((vid -> tensor R) -> R) -> Prop) (B : step_block (tensor R)) (x : vid -> tensor R)
      (density : tensor R -> R) : Prop :=
    b_own B (fun y => density (y p)) <> 0%R /\
    forall g, test g -> kernel B x g =
      (b_own B (fun y => density (y p) * g (put [p] y x)) / b_own B (fun y => density (y p)))%R.

  (** the test functions tell multiples of the density and of [w] apart, as functions of [p] *)
  Definition tells_apart (test : ((vid -> tensor R) -> R) -> Prop) (w : (vid -> tensor R) -> R) (B : step_block (tensor R))
      (x : vid -> tensor R) (density : tensor R -> R) : Prop :=
    forall a b, (forall g, test g -> b_own B (fun y => (density (y p) * a - w (put [p] y x) * b) * g (put [p] y x)) = 0)%R ->
      forall y, S (y p) -> (density (y p) * a = w (put [p] y x) * b)%R.

  (** [w] is the joint density of the model at [x] *)
  Definition density_at (w : (vid -> tensor R) -> R) (x : vid -> tensor R) : Prop :=
    exists l, joint (tensor_base scalar other) cval ld h rho (on V x) V l /\ w x = exp l.
End exact.
