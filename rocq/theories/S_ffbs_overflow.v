(** Specification vocabulary for C66: overflow in FFBS. *)
From Flocq Require Import Core.
From Verif Require Export M_ffbs_overflow S_ffbs_float.

(** [rd] rounds to the nearest double unless the result is 2^1024 or more in absolute value *)
Definition rounds (rd : R -> R) : Prop := forall x, Rabs (rnd x) < bpow radix2 1024 -> rd x = rnd x.

(** [fl_sum] with [rd] for the rounding *)
Inductive fl_sum_r (rd : R -> R) : list R -> R -> Prop :=
  | fr_nil : fl_sum_r rd [] 0
  | fr_one x : fl_sum_r rd [x] x
  | fr_add l1 l2 l s1 s2 : fl_sum_r rd l1 s1 -> fl_sum_r rd l2 s2 -> Permutation l (l1 ++ l2) ->
      fl_sum_r rd l (rd (s1 + s2)).

Definition sum_ok_r (rd : R -> R) (summ : list R -> R) : Prop := forall l, fl_sum_r rd l (summ l).
