(** Sums over the reals and finite distributions.  A sampling program that makes
    finitely many finite random choices denotes a list of weighted outcomes; the
    outcome [None] is a run that produced a NaN or an error. *)
From Coq Require Export Reals List Lra Lia.
Export ListNotations.
Open Scope R_scope.

Definition lsum (l : list R) : R := fold_right Rplus 0 l.

(** sum of [f 0 ... f (n-1)] *)
Definition nsum (n : nat) (f : nat -> R) : R := lsum (map f (seq 0 n)).

Definition fdist (A : Type) := list (option A * R).

Definition dret {A} (x : A) : fdist A := [(Some x, 1)].
Definition dfail {A} : fdist A := [(None, 1)].
Definition dscale {A} (c : R) (d : fdist A) : fdist A := map (fun p => (fst p, c * snd p)) d.

Definition dbind {A B} (d : fdist A) (f : A -> fdist B) : fdist B :=
  flat_map (fun p => dscale (snd p) (match fst p with Some x => f x | None => dfail end)) d.

(** a draw of [categorical p]: index [i] with weight [p_i] *)
Definition dcat (p : list R) : fdist nat :=
  map (fun q => (Some (fst q), snd q)) (combine (seq 0 (length p)) p).

(** a draw of [bernoulli p]: 1 with weight [p] *)
Definition dbern (p : R) : fdist nat := [(Some 1%nat, p); (Some 0%nat, 1 - p)].

(** total weight of the outcomes in [P] *)
Fixpoint dprob {A} (d : fdist A) (P : option A -> bool) : R :=
  match d with
  | [] => 0
  | (x, w) :: d' => (if P x then w else 0) + dprob d' P
  end.
