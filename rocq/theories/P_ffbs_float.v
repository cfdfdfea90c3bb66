(** C66: FFBS in double precision (/repo/aemcmc/ffbs.py). *)
From Flocq Require Import Core.
From Verif Require Import S_ffbs_float L_ffbs_float L_ffbs P_ffbs.
Open Scope R_scope.

(** C66. Full claim: re-scaling by the precision bound keeps the forward probabilities away from
    underflow, so in double precision a draw fails only if the observations are impossible.  It
    does not: whatever the bound (at least 2^-(beta+1)) and however sums are taken, there is a model
    with a stochastic transition matrix, log-likelihoods between -(2 beta + 6) and 0 and observations
    of positive probability, for which the exact algorithm never fails and the algorithm in double
    precision always does.  For the default bound beta is 66 and N = 17 observations are enough. *)
Theorem C66_double_precision_refuted :
  forall summ beta bound N, sum_ok summ -> (beta <= 500)%nat -> (1 / 2) ^ S beta <= bound ->
    (1075 <= N * S beta)%nat ->
    exists gamma_0 Gammas log_lik,
      ffbs_args gamma_0 Gammas log_lik N /\
      lsum gamma_0 = 1 /\ (forall G row, In G Gammas -> In row G -> lsum row = 1) /\
      (forall row o, In row log_lik -> In o row ->
         exists x, o = Some x /\ - INR (2 * beta + 6) <= x <= 0) /\
      0 < evidence (length gamma_0) (vget gamma_0) (hmm_of Gammas log_lik N) /\
      dprob (ffbs_step gamma_0 Gammas log_lik N bound) is_failure = 0 /\
      dprob (ffbs_step_f summ gamma_0 Gammas log_lik N bound) is_failure = 1.
Proof.
  intros summ beta bound N Hsum Hbeta Hb HN.
  assert (H1 : (1 <= N)%nat) by (destruct N; lia).
  assert (Hp : 0 < bound) by (apply Rlt_le_trans with (2 := Hb); apply pow_lt; lra).
  exists decay_gamma, decay_Gammas, (decay_lik (2 * beta + 6) N).
  pose proof (decay_args (2 * beta + 6) N H1) as Ha. pose proof (decay_evidence (2 * beta + 6) N H1) as He.
  split; [exact Ha|]. split; [unfold decay_gamma; simpl; lra|]. split; [|split].
  - intros G row [<-|[]] [<-|[<-|[]]]; simpl; lra.
  - intros row o [<-|[<-|[]]] Ho; apply repeat_spec in Ho; subst o; eexists; (split; [reflexivity|]);
      pose proof (pos_INR (2 * beta + 6)); lra.
  - split; [exact He|]. split; [exact (ffbs_no_failure _ _ _ _ _ Ha Hp He)|].
    rewrite half_pw in Hb. exact (decay_fails summ Hsum beta bound Hbeta Hb N HN).
Qed.
Print Assumptions C66_double_precision_refuted.

(** Partial: for a bound between 2^-(beta+1) and 2^-beta, no draw fails in double precision if from
    every state, at every time, the chain can go on to a state that is not too improbable
    ([can_go_on]), however many observations there are and in whatever order sums are taken. *)
Theorem C66_no_underflow_partial :
  forall summ beta gamma_0 Gammas log_lik N bound,
    sum_ok summ -> (beta <= 500)%nat -> (1 / 2) ^ S beta <= bound <= (1 / 2) ^ beta ->
    ffbs_args gamma_0 Gammas log_lik N -> (Z.of_nat (length gamma_0) < 2 ^ 53)%Z ->
    (forall x, In x gamma_0 -> is_double x) -> (exists x, In x gamma_0 /\ 0 < x) ->
    (forall n, (n < N)%nat -> can_go_on beta (length gamma_0) (column log_lik n)
       (nth (if Nat.eqb (length Gammas) 1 then 0%nat else n) Gammas [])) ->
    dprob (ffbs_step_f summ gamma_0 Gammas log_lik N bound) is_failure = 0.
Proof. exact ffbs_float_safe. Qed.
Print Assumptions C66_no_underflow_partial.

(** What is drawn in double precision is possible: a sequence returned with non-zero weight has
    positive joint weight with the observations (in particular it has N states of the model).  No
    condition on the bound, the size or the weights. *)
Theorem C66_only_possible_sequences :
  forall summ gamma_0 Gammas log_lik N bound ss,
    sum_ok summ -> ffbs_args gamma_0 Gammas log_lik N ->
    dprob (ffbs_step_f summ gamma_0 Gammas log_lik N bound) (is_seq ss) <> 0 ->
    0 < joint (length gamma_0) (vget gamma_0) (hmm_of Gammas log_lik N) ss /\
    length ss = N /\ forall s, In s ss -> (s < length gamma_0)%nat.
Proof.
  intros summ gamma_0 Gammas log_lik N bound ss Hsum Ha Hd.
  pose proof (ffbs_float_possible _ _ _ _ _ _ _ Hsum Ha Hd) as Hj. split; [exact Hj|].
  apply sequences_spec, (joint_outside _ _ _ _ _ Ha). lra.
Qed.
Print Assumptions C66_only_possible_sequences.

(** ** Examples *)
(** summing from the right *)
Definition sum_right (l : list R) : R := fold_right (fun x a => rnd (x + a)) 0 l.

Example sum_right_ok : sum_ok sum_right.
Proof.
  intros l. induction l as [|x l IH]; [constructor|]. simpl.
  apply (fl_add [x] l); [constructor|exact IH|apply Permutation_refl].
Qed.

(** the default bound, 1e-20 rounded to a double, has beta = 66 *)
Example default_bound : (1 / 2) ^ 67 <= rnd (1 / 10 ^ 20) <= (1 / 2) ^ 66.
Proof.
  rewrite !half_pw. split.
  - apply rnd_low; [lia|]. rewrite <- half_pw. lra.
  - rewrite <- (rnd_pw (- Z.of_nat 66)) by lia. apply rnd_le. rewrite <- half_pw. lra.
Qed.

Example default_bound_refuted : exists gamma_0 Gammas log_lik,
  ffbs_args gamma_0 Gammas log_lik 17 /\
  dprob (ffbs_step gamma_0 Gammas log_lik 17 (rnd (1 / 10 ^ 20))) is_failure = 0 /\
  dprob (ffbs_step_f sum_right gamma_0 Gammas log_lik 17 (rnd (1 / 10 ^ 20))) is_failure = 1.
Proof.
  destruct (C66_double_precision_refuted sum_right 66 (rnd (1 / 10 ^ 20)) 17 sum_right_ok)
    as (g & G & l & Ha & _ & _ & _ & _ & H1 & H2); [lia|apply default_bound|lia|].
  exists g, G, l. auto.
Qed.

(** a chain of any length that never fails: the test's two states, the second of them
    impossible at the odd times *)
Definition ex_chain_lik (N : nat) : list (list (option R)) :=
  [repeat (Some 0) N; map (fun n => if Nat.odd n then None else Some (- 3)) (seq 0 N)].

Lemma ex_chain_go_on N n : (n < N)%nat -> can_go_on 66 (length ex_gamma_0) (column (ex_chain_lik N) n)
  (nth (if Nat.eqb (length ex_Gammas) 1 then 0%nat else n) ex_Gammas []).
Proof.
  intros Hn m Hm. exists 0%nat, 0, 4%nat, 0%nat. simpl in Hm.
  assert (Hc : column (ex_chain_lik N) n = [Some 0; if Nat.odd n then None else Some (- 3)]).
  { unfold column, ex_chain_lik. simpl. rewrite nth_repeat_in by exact Hn. do 2 f_equal.
    pose (f := fun n => if Nat.odd n then None else Some (- 3)).
    rewrite nth_indep with (d' := f 0%nat) by (rewrite map_length, seq_length; exact Hn).
    rewrite (map_nth f), seq_nth by exact Hn. reflexivity. }
  rewrite Hc. split; [simpl; lia|]. split; [reflexivity|]. split; [|split; [|lia]].
  - simpl. destruct m as [|[|m]]; [| |lia]; unfold mget, vget; simpl; lra.
  - intros k x Hk. destruct k as [|[|k]]; simpl in Hk.
    + injection Hk as <-. simpl. lra.
    + destruct (Nat.odd n); [discriminate|]. injection Hk as <-. simpl. lra.
    + destruct k; discriminate.
Qed.

Example ex_chain_no_underflow N : (1 <= N)%nat ->
  dprob (ffbs_step_f sum_right ex_gamma_0 ex_Gammas (ex_chain_lik N) N (rnd (1 / 10 ^ 20))) is_failure = 0.
Proof.
  intros HN. apply (C66_no_underflow_partial sum_right 66); [exact sum_right_ok|lia|exact default_bound| | | | |].
  - destruct ex_ffbs_args as [_ H2 _ H4 H5 _ _]. constructor; auto.
    intros row [<-|[<-|[]]]; [apply repeat_length|rewrite map_length; apply seq_length].
  - simpl; lia.
  - assert (is_double (1 / 2)) by (replace (1 / 2) with (bpow radix2 (-1)) by (simpl; lra); apply rnd_pw; lia).
    intros x [<-|[<-|[]]]; assumption.
  - exists (1 / 2). split; [simpl; auto|lra].
  - exact (ex_chain_go_on N).
Qed.

(** some sequence is drawn: one observation *)
Lemma double_half : rnd (1 / 2) = 1 / 2.
Proof. replace (1 / 2) with (bpow radix2 (-1)) by (simpl; lra). apply rnd_pw; lia. Qed.
Lemma double_1 : rnd 1 = 1.
Proof. apply (rnd_IZR 1); lia. Qed.

Example ex_drawn :
  dprob (ffbs_step_f sum_right [1; 0] [[[1; 0]; [0; 1]]] [[Some 0]; [None]] 1 (1 / 2)) (is_seq [0%nat]) = 1.
Proof.
  unfold ffbs_step_f, sum_right. simpl.
  rewrite ?Rplus_0_r, ?rnd_0, ?Rplus_0_r, ?double_1.
  destruct (Req_EM_T 1 0); [lra|]. simpl.
  unfold forward_step_f, flik, fmul, fdot, mget, vget. simpl.
  assert (E0 : rnd (0 / 1) = 0) by (unfold Rdiv; rewrite Rmult_0_l; exact rnd_0).
  assert (E1 : rnd (1 / 1) = 1) by (replace (1 / 1) with 1 by lra; exact double_1).
  rewrite E0, E1. rewrite Rminus_0_r, rnd_0, exp_0, double_1.
  rewrite ?Rmult_0_r, ?Rmult_0_l, ?Rmult_1_r, ?rnd_0, ?double_1, ?Rplus_0_r, ?rnd_0, ?Rplus_0_r, ?double_1,
    ?Rmult_0_l, ?rnd_0, ?Rmult_1_r, ?double_1, ?Rplus_0_r, ?rnd_0, ?Rplus_0_r, ?double_1.
  destruct (Rlt_dec 1 (1 / 2)); [lra|]. unfold normed_categorical_f. simpl.
  rewrite ?Rplus_0_r, ?rnd_0, ?Rplus_0_r, ?double_1.
  destruct (Req_EM_T 1 0); [lra|]. rewrite E0, E1. simpl. lra.
Qed.
