(** Specification vocabulary for dimension-shuffle subsumption. *)
From Verif Require Export S_basic M_subsume.

(** [v] is a DimShuffle of [x] *)
Definition shuffle_of (h : heap) (v : vid) (order : list (option nat)) (x : vid) : Prop :=
  exists m, owner h v = Some (m, 0) /\ hn h m = Some (Node (ODimShuffle order) [x] [v]).

Section law.
  Context {D : Type} (base : op -> list D -> option (list D)).
  Definition shuffle (order : list (option nat)) (x : D) : option D :=
    ys ← base (ODimShuffle order) [x]; ys !! 0.

  (** Adding broadcast dimensions on the left can be done after the rest of a
      shuffle (proved of tensors in L_tensor.v) *)
  Definition shuffle_law : Prop :=
    forall k order x,
      shuffle (replicate k None ++ order) x =
      y ← shuffle order x; shuffle (replicate k None ++ (Some <$> seq 0 (length order))) y.
End law.
