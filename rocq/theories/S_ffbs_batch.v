(** Specification of ffbs_step on a batch: the states of every element of the batch follow the
    posterior of that element's own hidden Markov model. *)
From Verif Require Export M_ffbs_batch S_ffbs.

(** every element of the batch is a valid argument of its own, with possible observations *)
Definition batch_args (M : nat) (gamma_0 : mat) (Gammas : list mat) (log_lik : list (list (list (option R)))) (N : nat) : Prop :=
  length log_lik = length gamma_0 /\
  forall b, (b < length gamma_0)%nat ->
    length (nth b gamma_0 []) = M /\
    ffbs_args (nth b gamma_0 []) Gammas (nth b log_lik []) N /\
    0 < evidence M (vget (nth b gamma_0 [])) (hmm_of Gammas (nth b log_lik []) N).

(** the states of element [b] over time are [ss] *)
Definition element_is (b : nat) (ss : list nat) (o : option (list (list nat))) : bool :=
  match o with
  | Some y =>
      if list_eq_dec (fun x y : option nat => ltac:(decide equality; apply Nat.eq_dec))
           (map (fun states => nth_error states b) y) (map Some ss) then true else false
  | None => false
  end.
