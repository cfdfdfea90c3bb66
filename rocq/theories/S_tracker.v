(** Specification of sampler discovery. *)
From Verif Require Export M_tracker.

Definition c_key (c : call) : nat * vid := (c_name c, c_rv c).
(** the decorated function returns at least one sampler *)
Definition succeeds (c : call) : Prop := exists e es, c_out c = Ok (e :: es).
Definition c_entries (c : call) : list (vid * vid * dict nat nat) :=
  match c_out c with Ok es => es | Raise _ => [] end.

(** call number [j] is the first success of its finder on its variable *)
Definition first_success (cs : list call) (j : nat) : Prop :=
  exists c, cs !! j = Some c /\ succeeds c /\
    forall k c', k < j -> cs !! k = Some c' -> c_key c' = c_key c -> ~ succeeds c'.

(** the samplers that a call proposes for [rv] *)
Definition proposed (rv : vid) (c : call) : list found :=
  omap (fun '(r, step, u) => if decide (r = rv) then Some (Found (c_name c) step u) else None) (c_entries c).
