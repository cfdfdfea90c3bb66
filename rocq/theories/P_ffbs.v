(** C20, C21: forward filtering - backward sampling (/repo/aemcmc/ffbs.py). *)
From Verif Require Import L_ffbs.

(** C20. For every model and observations of positive probability, the sequence
    returned by [ffbs_step] is [ss] with exactly the posterior probability of [ss], for
    every [ss], and no NaN is ever met. *)
Theorem C20_ffbs_exact_posterior :
  forall gamma_0 Gammas log_lik N bound,
    ffbs_args gamma_0 Gammas log_lik N -> 0 < bound ->
    0 < evidence (length gamma_0) (vget gamma_0) (hmm_of Gammas log_lik N) ->
    (forall ss, dprob (ffbs_step gamma_0 Gammas log_lik N bound) (is_seq ss)
              = posterior (length gamma_0) (vget gamma_0) (hmm_of Gammas log_lik N) ss) /\
    dprob (ffbs_step gamma_0 Gammas log_lik N bound) is_failure = 0.
Proof.
  intros gamma_0 Gammas log_lik N bound Ha Hb Hev.
  exact (conj (fun ss => ffbs_exact _ _ _ _ _ Ha Hb ss Hev) (ffbs_no_failure _ _ _ _ _ Ha Hb Hev)).
Qed.
Print Assumptions C20_ffbs_exact_posterior.

(** When the observations are impossible under the model the result is always NaN. *)
Theorem C20_ffbs_impossible_observations :
  forall gamma_0 Gammas log_lik N bound,
    ffbs_args gamma_0 Gammas log_lik N -> 0 < bound ->
    evidence (length gamma_0) (vget gamma_0) (hmm_of Gammas log_lik N) = 0 ->
    dprob (ffbs_step gamma_0 Gammas log_lik N bound) is_failure = 1 /\
    forall ss, dprob (ffbs_step gamma_0 Gammas log_lik N bound) (is_seq ss) = 0.
Proof. exact ffbs_impossible. Qed.
Print Assumptions C20_ffbs_impossible_observations.

(** Neither one transition matrix nor one per observation: an error, never a draw. *)
Theorem C20_wrong_number_of_matrices :
  forall gamma_0 Gammas log_lik N bound,
    length Gammas <> 1%nat -> length Gammas <> N ->
    dprob (ffbs_step gamma_0 Gammas log_lik N bound) is_failure = 1 /\
    forall ss, dprob (ffbs_step gamma_0 Gammas log_lik N bound) (is_seq ss) = 0.
Proof.
  intros gamma_0 Gammas log_lik N bound H1 HN.
  assert (E : ffbs_step gamma_0 Gammas log_lik N bound = dfail).
  { unfold ffbs_step, broadcast. destruct (Req_EM_T (lsum gamma_0) 0); [reflexivity|].
    apply Nat.eqb_neq in HN. rewrite HN. destruct Gammas as [|G [|]]; [reflexivity| |reflexivity].
    exfalso. apply H1. reflexivity. }
  rewrite E. split; [|intros ss]; simpl; lra.
Qed.
Print Assumptions C20_wrong_number_of_matrices.

(** There is no third case. *)
Theorem C20_evidence_nonneg :
  forall gamma_0 Gammas log_lik N, ffbs_args gamma_0 Gammas log_lik N ->
    0 <= evidence (length gamma_0) (vget gamma_0) (hmm_of Gammas log_lik N).
Proof. exact evidence_nonneg. Qed.
Print Assumptions C20_evidence_nonneg.

(** Only sequences of exactly [N] of the [M] states are ever returned. *)
Theorem C20_ffbs_states_valid :
  forall gamma_0 Gammas log_lik N bound ss,
    ffbs_args gamma_0 Gammas log_lik N -> 0 < bound ->
    dprob (ffbs_step gamma_0 Gammas log_lik N bound) (is_seq ss) <> 0 ->
    length ss = N /\ forall s, In s ss -> (s < length gamma_0)%nat.
Proof. exact ffbs_valid. Qed.
Print Assumptions C20_ffbs_states_valid.

(** The specification used above is a probability on the sequences of [N] states:
    these are listed once each and the posterior sums to one. *)
Theorem C20_spec_sequences :
  forall M n, NoDup (sequences M n) /\
    forall ss, In ss (sequences M n) <-> length ss = n /\ forall s, In s ss -> (s < M)%nat.
Proof. exact (fun M n => conj (sequences_NoDup M n) (sequences_spec M n)). Qed.
Print Assumptions C20_spec_sequences.

Theorem C20_spec_posterior_sums_to_one :
  forall M g0 steps, evidence M g0 steps <> 0 ->
    lsum (map (posterior M g0 steps) (sequences M (length steps))) = 1.
Proof. exact posterior_sums. Qed.
Print Assumptions C20_spec_posterior_sums_to_one.

(** C21. The precision bound does not change the distribution of the result ... *)
Theorem C21_bound_irrelevant :
  forall gamma_0 Gammas log_lik N b1 b2,
    ffbs_args gamma_0 Gammas log_lik N -> 0 < b1 -> 0 < b2 ->
    (forall ss, dprob (ffbs_step gamma_0 Gammas log_lik N b1) (is_seq ss)
              = dprob (ffbs_step gamma_0 Gammas log_lik N b2) (is_seq ss)) /\
    dprob (ffbs_step gamma_0 Gammas log_lik N b1) is_failure
    = dprob (ffbs_step gamma_0 Gammas log_lik N b2) is_failure.
Proof. exact ffbs_bound_irrelevant. Qed.
Print Assumptions C21_bound_irrelevant.

(** ... and with (sub-)stochastic transition matrices the forward quantities stay in
    the unit interval, however long the sequence. *)
Theorem C21_forward_bounded :
  forall gamma_0 Gammas log_lik N bound Gs alphas,
    ffbs_args gamma_0 Gammas log_lik N -> 0 < bound -> lsum gamma_0 <> 0 ->
    (forall G row, In G Gammas -> In row G -> lsum row <= 1) ->
    broadcast Gammas N = Some Gs ->
    forward bound (length gamma_0) (combine (transpose log_lik N) Gs)
      (map (fun x => x / lsum gamma_0) gamma_0) [] = Some alphas ->
    forall alpha x, In alpha alphas -> In x alpha -> 0 <= x <= 1.
Proof. exact ffbs_forward_bounded. Qed.
Print Assumptions C21_forward_bounded.

(** ** The hypotheses are met by the model of tests/test_ffbs.py:12-40 for N = 2, with an
    impossible state *)
Definition ex_gamma_0 : vec := [1/2; 1/2].
Definition ex_Gammas : list mat := [[[9/10; 1/10]; [1/10; 9/10]]].
Definition ex_log_lik : list (list (option R)) := [[Some 0; Some 0]; [Some 0; None]].

Example ex_ffbs_args : ffbs_args ex_gamma_0 ex_Gammas ex_log_lik 2.
Proof.
  constructor; simpl.
  - lia.
  - intros x [<-|[<-|[]]]; lra.
  - auto.
  - intros G row x [<-|[]] [<-|[<-|[]]] [<-|[<-|[]]]; lra.
  - intros G [<-|[]]. split; [reflexivity|]. intros row [<-|[<-|[]]]; reflexivity.
  - reflexivity.
  - intros row [<-|[<-|[]]]; reflexivity.
Qed.

Example ex_ffbs_evidence : evidence 2 (vget ex_gamma_0) (hmm_of ex_Gammas ex_log_lik 2) = 1/2.
Proof.
  unfold evidence, joint, nsum, vget, mget. simpl. unfold mget, vget. simpl. rewrite exp_0. lra.
Qed.

Example ex_ffbs_posterior :
  dprob (ffbs_step ex_gamma_0 ex_Gammas ex_log_lik 2 (1 / 10 ^ 20)) (is_seq [1; 0]%nat) = 1/10.
Proof.
  assert (Hb : 0 < 1 / 10 ^ 20) by (apply Rdiv_lt_0_compat; [lra|apply pow_lt; lra]).
  destruct (C20_ffbs_exact_posterior _ _ _ _ _ ex_ffbs_args Hb) as [H _].
  - change (length ex_gamma_0) with 2%nat. rewrite ex_ffbs_evidence. lra.
  - rewrite H. unfold posterior. change (length ex_gamma_0) with 2%nat. rewrite ex_ffbs_evidence.
    unfold joint, nsum, vget. simpl. unfold mget, vget. simpl. rewrite exp_0. lra.
Qed.

Example ex_ffbs_stochastic : forall G row, In G ex_Gammas -> In row G -> lsum row <= 1.
Proof. intros G row [<-|[]] [<-|[<-|[]]]; simpl; lra. Qed.

Example ex_ffbs_wrong_number :
  dprob (ffbs_step ex_gamma_0 (ex_Gammas ++ ex_Gammas) [[Some 0; Some 0; Some 0]; [Some 0; Some 0; Some 0]] 3 1) is_failure = 1.
Proof. apply C20_wrong_number_of_matrices; simpl; lia. Qed.
