(** Specification vocabulary for C66: FFBS in double precision. *)
From Coq Require Export Permutation.
From Verif Require Export M_ffbs_float S_ffbs.

(** [s] is the sum of [l] taken in some order and some bracketing, each addition rounded *)
Inductive fl_sum : list R -> R -> Prop :=
  | fl_nil : fl_sum [] 0
  | fl_one x : fl_sum [x] x
  | fl_add l1 l2 l s1 s2 : fl_sum l1 s1 -> fl_sum l2 s2 -> Permutation l (l1 ++ l2) ->
      fl_sum l (rnd (s1 + s2)).

(** a way of summing arrays *)
Definition sum_ok (summ : list R -> R) : Prop := forall l, fl_sum l (summ l).

(** a double *)
Definition is_double (x : R) : Prop := rnd x = x.

(** [ll] are the log-likelihoods of the states at some time, [G] the transition matrix into that
    time.  From every state there is a state to go on to that is neither too improbable, nor much
    less likely than the most likely state: a probability of at least 2^-a and a log-likelihood at
    most [c] below every other, with a + 3/2 c <= beta. *)
Definition can_go_on (beta M : nat) (ll : list (option R)) (G : mat) : Prop :=
  forall m, (m < M)%nat -> exists j y (a c : nat),
    (j < M)%nat /\ nth j ll None = Some y /\ (1 / 2) ^ a <= mget G m j /\
    (forall k x, nth k ll None = Some x -> x - INR c <= y) /\ (2 * a + 3 * c <= 2 * beta)%nat.

(** [x] and [y] differ by at most [k] relative errors of 2^-53 *)
Definition near (k : nat) (x y : R) : Prop :=
  y * (1 - (1 / 2) ^ 53) ^ k <= x /\ x * (1 - (1 / 2) ^ 53) ^ k <= y.

(** every transition has a probability of at least 2^-a, every state is possible, and the
    log-likelihoods of any two states differ by at most [c] *)
Definition lively (a c M : nat) (ll : list (option R)) (G : mat) : Prop :=
  (forall i j, (i < M)%nat -> (j < M)%nat -> (1 / 2) ^ a <= mget G i j <= 1) /\
  (forall s, (s < M)%nat -> exists y, nth s ll None = Some y /\ forall k x, nth k ll None = Some x -> x - INR c <= y).
