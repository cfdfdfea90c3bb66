(** Specification: reading an array at a position of a larger one it is broadcast to. *)
From Verif Require Export S_match.

Section broadcast.
  Context {A : Type}.

  (** as many elements as the shape says *)
  Definition tensor_ok (x : tensor A) : Prop := length (t_data x) = size_of (t_shape x).

  (** [x] can be broadcast to shape [s]: aligned on the right, every dimension is 1 or the
      one of [s] *)
  Definition fits (s : list nat) (x : tensor A) : Prop :=
    tensor_ok x /\ rank x <= length s /\
    Forall2 (fun d e => d = 1 \/ d = e) (t_shape x) (drop (length s - rank x) s).

  (** the element of [x] at position [idx] of the larger array *)
  Definition bget (x : tensor A) (idx : list nat) : option A :=
    t_at x (clip (t_shape x) (drop (length idx - rank x) idx)).
End broadcast.
