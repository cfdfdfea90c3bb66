(** Model of sample_CRT in /repo/aemcmc/gibbs.py (lines 367-400).

    Simplifications: real numbers instead of floats; every Bernoulli draw is an abstract
    weighted choice independent of the others; the updates returned by [scan] are left out. *)
From Verif Require Export LibDist.
From Coq Require Export ZArith.
Open Scope R_scope.

(** an integer array: its shape and its elements in row-major order *)
(* the arguments [y] and [h] of sample_CRT, gibbs.py:367-369 *)
Record arr (A : Type) := Arr { a_shape : list nat; a_data : list A }.
Arguments Arr {A}. Arguments a_shape {A}. Arguments a_data {A}.

(** [at.arange(2, y_i + 1)] (gibbs.py:388) *)
Definition arange2 (y : Z) : list nat := seq 2 (Z.to_nat (y - 1)).

(** [srng.bernoulli(h / (n_i - 1 + h)).sum()] (gibbs.py:389) *)
Fixpoint bern_sum (h : R) (ns : list nat) : fdist nat :=
  match ns with
  | [] => dret 0%nat
  | n :: ns' =>
      dbind (dbern (h / (INR n - 1 + h))) (fun b =>
      dbind (bern_sum h ns') (fun s => dret (b + s)%nat))
  end.

(** single_sample_CRT (gibbs.py:387-389) *)
Definition single_sample_CRT (y_i : Z) (h : R) : fdist nat :=
  dbind (bern_sum h (arange2 y_i)) (fun s => dret (if (y_i <? 1)%Z then 0 else 1 + s)%nat).

(** the [scan] over [y.ravel()] (gibbs.py:391-396) *)
Fixpoint scan_CRT (ys : list Z) (h : R) : fdist (list nat) :=
  match ys with
  | [] => dret []
  | y :: ys' =>
      dbind (single_sample_CRT y h) (fun l =>
      dbind (scan_CRT ys' h) (fun ls => dret (l :: ls)))
  end.

(** sample_CRT (gibbs.py:391-400): [res.reshape(y.shape)] *)
Definition sample_CRT (y : arr Z) (h : R) : fdist (arr nat) :=
  dbind (scan_CRT (a_data y) h) (fun ls => dret (Arr (a_shape y) ls)).
