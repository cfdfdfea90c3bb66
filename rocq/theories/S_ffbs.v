(** Specification: the posterior over state sequences of a hidden Markov model. *)
From Verif Require Export M_ffbs.

(** likelihoods of the observation at each time, and the transition into that time *)
Notation hmm_step := ((nat -> R) * (nat -> nat -> R))%type.

Section hmm.
  Context (M : nat).                          (* number of states *)
  Context (gamma_0 : nat -> R).               (* weights of the state at time 0 *)

  (** the product of transition probabilities and likelihoods along [ss], from [s] *)
  Fixpoint path_weight (s : nat) (steps : list hmm_step) (ss : list nat) : R :=
    match steps, ss with
    | [], [] => 1
    | (L, G) :: steps', s' :: ss' => G s s' * L s' * path_weight s' steps' ss'
    | _, _ => 0
    end.

  (** joint weight of states [ss] at times 1..N and the observations; the state at
      time 0 is summed out *)
  Definition joint (steps : list hmm_step) (ss : list nat) : R :=
    nsum M (fun s0 => gamma_0 s0 / nsum M gamma_0 * path_weight s0 steps ss).

  (** all sequences of [n] states *)
  Fixpoint sequences (n : nat) : list (list nat) :=
    match n with
    | O => [[]]
    | S n' => flat_map (fun ss => map (fun s => ss ++ [s]) (seq 0 M)) (sequences n')
    end.

  (** probability of the observations *)
  Definition evidence (steps : list hmm_step) : R :=
    lsum (map (joint steps) (sequences (length steps))).

  Definition posterior (steps : list hmm_step) (ss : list nat) : R :=
    joint steps ss / evidence steps.
End hmm.

(** likelihood with its log: minus infinity is zero *)
Definition elik (x : option R) : R := match x with Some a => exp a | None => 0 end.

(** the hidden Markov model that the arguments of ffbs_step describe *)
Definition hmm_of (Gammas : list mat) (log_lik : list (list (option R))) (N : nat) : list hmm_step :=
  map (fun n => ((fun s => elik (nth n (nth s log_lik []) None)),
                 (fun i j => mget (nth (if Nat.eqb (length Gammas) 1 then 0%nat else n) Gammas []) i j)))
      (seq 0 N).

(** arguments of matching shapes, non-negative weights, at least one possible state *)
Record ffbs_args (gamma_0 : vec) (Gammas : list mat) (log_lik : list (list (option R))) (N : nat)
    : Prop := FFBSArgs {
  fa_N : (1 <= N)%nat;
  fa_g0 : forall x, In x gamma_0 -> 0 <= x;
  fa_Gs : length Gammas = 1%nat \/ length Gammas = N;
  fa_G : forall G row x, In G Gammas -> In row G -> In x row -> 0 <= x;
  fa_Gshape : forall G, In G Gammas -> length G = length gamma_0 /\
      forall row, In row G -> length row = length gamma_0;
  fa_ll : length log_lik = length gamma_0;
  fa_llshape : forall row, In row log_lik -> length row = N;
}.

(** is the outcome exactly [x]? *)
Definition is_seq (x : list nat) (o : option (list nat)) : bool :=
  match o with Some y => if list_eq_dec Nat.eq_dec x y then true else false | None => false end.

Definition is_failure {A} (o : option A) : bool := match o with None => true | Some _ => false end.
