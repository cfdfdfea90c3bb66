(** Specification vocabulary for the graphs built by the finders. *)
From Verif Require Export S_basic S_broadcast M_build.

(** What is assumed of Aesara when it makes nodes *)
Record builder_ok (B : builder) : Prop := BuilderOk {
  bo_elem : forall s tys, a_ndim B (b_elem B s tys) = foldr Nat.max 0 (a_ndim B <$> tys);
  bo_int : forall z, a_ndim B (b_int B z).2 = 0;
  bo_float : forall z, a_ndim B (b_float B z).2 = 0;
}.

(** everything that [x] is computed from in [h] is in [S], or is new since [h0] *)
Definition sourced (h0 : heap) (S : vid -> Prop) (h : heap) (x : vid) : Prop :=
  is_Some (hv h x) /\ forall u, reachable h [x] u -> S u \/ hv h0 u = None.

(** [v] is a draw from distribution [d], made with the given size, dtype and parameters *)
Definition rv_full (h : heap) (v : vid) (d : nat) (size dtype : vid) (params : list vid) : Prop :=
  exists n nd r, owner h v = Some (n, 1) /\ hn h n = Some nd /\ n_op nd = ORV d /\
    n_ins nd = r :: size :: dtype :: params /\ n_outs nd !! 1 = Some v.
