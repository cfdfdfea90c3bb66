(** Specification vocabulary for C67: numpy's broadcasting of shapes. *)
From Coq Require Import List.

(** the dimension [k] places from the last; missing dimensions count as one *)
Definition dim_at (s : list nat) (k : nat) : nat := nth k (rev s) 1.

(** arrays of shapes [s] and [t] give one of shape [u]: as many dimensions as the longer, and each
    dimension is that of both, or that of one where the other has one *)
Definition broadcasts (s t u : list nat) : Prop :=
  length u = Nat.max (length s) (length t) /\
  forall k, (dim_at s k = dim_at t k /\ dim_at u k = dim_at s k) \/
            (dim_at s k = 1 /\ dim_at u k = dim_at t k) \/
            (dim_at t k = 1 /\ dim_at u k = dim_at s k).
