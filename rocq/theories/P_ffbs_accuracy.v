(** C66, continued: the accuracy of FFBS in double precision (/repo/aemcmc/ffbs.py). *)
From Flocq Require Import Core.
From Verif Require Import S_ffbs_float L_ffbs_float L_ffbs L_ffbs_accuracy P_ffbs P_ffbs_float.
Open Scope R_scope.

(** Partial: for a bound between 2^-(beta+1) and 2^-beta, initial weights that are 0 or between
    2^-100 and 1, transition probabilities of at least 2^-a and log-likelihoods that differ by at
    most [c] between the states of one time, with a + 3/2 c <= beta, every sequence of states is drawn
    in double precision with its posterior probability up to a relative error of
    N (2 N (M + c + 5) + M + 5) 2^-53, in whatever order sums are taken. *)
Theorem C66_accuracy_partial :
  forall summ beta a c gamma_0 Gammas log_lik N bound ss,
    sum_ok summ -> (beta <= 250)%nat -> (1 / 2) ^ S beta <= bound <= (1 / 2) ^ beta ->
    ffbs_args gamma_0 Gammas log_lik N -> (Z.of_nat (length gamma_0) < 2 ^ 53)%Z ->
    (forall x, In x gamma_0 -> is_double x /\ (x = 0 \/ (1 / 2) ^ 100 <= x <= 1)) ->
    (exists x, In x gamma_0 /\ 0 < x) -> (2 * a + 3 * c <= 2 * beta)%nat ->
    (forall n, (n < N)%nat -> lively a c (length gamma_0) (column log_lik n)
       (nth (if Nat.eqb (length Gammas) 1 then 0%nat else n) Gammas [])) ->
    let M := length gamma_0 in
    let K := (N * (2 * N * (M + c + 5) + M + 5))%nat in
    let drawn := dprob (ffbs_step_f summ gamma_0 Gammas log_lik N bound) (is_seq ss) in
    let exact := posterior M (vget gamma_0) (hmm_of Gammas log_lik N) ss in
    near K drawn exact /\ Rabs (drawn - exact) <= INR K * (1 / 2) ^ 53 * Rmax drawn exact.
Proof.
  intros summ beta a c gamma_0 Gammas log_lik N bound ss Hsum Hbeta Hb Ha HM Hg Hpos Hac Hl M K drawn exact.
  enough (Hn : near K drawn exact /\ 0 <= drawn /\ 0 <= exact)
    by (split; [apply Hn|]; apply near_error; apply Hn).
  destruct (in_dec (list_eq_dec Nat.eq_dec) ss (sequences M N)) as [Hin|Hin].
  - apply sequences_spec in Hin as [H1 H2].
    destruct (ffbs_accurate summ beta a c gamma_0 Gammas log_lik N bound ss Hsum Hbeta Hb Ha HM Hg Hpos Hac Hl H1 H2) as [Hn H0].
    split; [exact Hn|]. split; [exact H0|]. exact (near_nonneg _ _ _ Hn H0).
  - assert (E1 : drawn = 0).
    { destruct (Req_dec drawn 0) as [|Hd]; [assumption|]. exfalso. apply Hin, sequences_spec.
      apply (C66_only_possible_sequences _ _ _ _ _ _ _ Hsum Ha Hd). }
    assert (E2 : exact = 0).
    { destruct (Req_dec exact 0) as [|Hd]; [assumption|]. exfalso. apply Hin.
      apply (joint_outside _ _ _ _ _ Ha). intros E. apply Hd. unfold exact, posterior, M. rewrite E. unfold Rdiv; ring. }
    rewrite E1, E2. split; [apply near_zero|lra].
Qed.
Print Assumptions C66_accuracy_partial.

(** ** Example: a chain of any length with the default bound (beta = 66).  For 1000 observations the
    relative error is at most about 2.2e-9. *)
Definition ex_lively_lik (N : nat) : list (list (option R)) :=
  [repeat (Some 0) N; map (fun n => if Nat.odd n then Some 5 else Some (- 3)) (seq 0 N)].

Example ex_accuracy N ss : (1 <= N)%nat ->
  let drawn := dprob (ffbs_step_f sum_right ex_gamma_0 ex_Gammas (ex_lively_lik N) N (rnd (1 / 10 ^ 20))) (is_seq ss) in
  let exact := posterior 2 (vget ex_gamma_0) (hmm_of ex_Gammas (ex_lively_lik N) N) ss in
  Rabs (drawn - exact) <= INR (N * (2 * N * 12 + 2 + 5)) * (1 / 2) ^ 53 * Rmax drawn exact.
Proof.
  intros HN drawn exact.
  refine (proj2 (C66_accuracy_partial sum_right 66 4 5 ex_gamma_0 ex_Gammas (ex_lively_lik N) N (rnd (1 / 10 ^ 20)) ss
    sum_right_ok _ default_bound _ _ _ _ _ _)); [lia| | | | |lia|].
  - destruct ex_ffbs_args as [_ H2 _ H4 H5 _ _]. constructor; auto.
    intros row [<-|[<-|[]]]; [apply repeat_length|rewrite map_length; apply seq_length].
  - simpl; lia.
  - intros x Hx. assert (Ex : x = 1 / 2) by (destruct Hx as [<-|[<-|[]]]; reflexivity).
    subst x. split; [exact double_half|]. right. split; [|lra].
    replace (1 / 2) with ((1 / 2) ^ 1) at 2 by lra. rewrite !half_pw. apply bpow_le. lia.
  - exists (1 / 2). split; [simpl; auto|lra].
  - intros n Hn.
    assert (Hc : column (ex_lively_lik N) n = [Some 0; if Nat.odd n then Some 5 else Some (- 3)]).
    { unfold column, ex_lively_lik. simpl. rewrite nth_repeat_in by exact Hn. do 2 f_equal.
      pose (f := fun n => if Nat.odd n then Some 5 else Some (- 3)).
      rewrite nth_indep with (d' := f 0%nat) by (rewrite map_length, seq_length; exact Hn).
      rewrite (map_nth f), seq_nth by exact Hn. reflexivity. }
    rewrite Hc. split.
    + intros i j Hi Hj. simpl in Hi, Hj. replace ((1 / 2) ^ 4) with (1 / 16) by lra. simpl.
      destruct i as [|[|i]]; [| |lia]; destruct j as [|[|j]]; try lia; unfold mget, vget; simpl; lra.
    + intros s Hs. simpl in Hs. replace (INR 5) with 5 by (simpl; lra).
      assert (Hy : exists y, nth s [Some 0; if Nat.odd n then Some 5 else Some (- 3)] None = Some y /\
        (y = 0 /\ (s = 0)%nat \/ y = 5 /\ Nat.odd n = true \/ y = - 3 /\ Nat.odd n = false)).
      { destruct s as [|[|s]]; [eexists; split; [reflexivity|auto]| |lia]. simpl.
        destruct (Nat.odd n); eexists; (split; [reflexivity|auto]). }
      destruct Hy as (y & Ey & Hy). exists y. split; [exact Ey|]. intros k x Hk.
      destruct k as [|[|k]]; simpl in Hk.
      * injection Hk as <-. lra.
      * destruct (Nat.odd n); injection Hk as <-; destruct Hy as [[-> _]|[[-> Hy]|[-> Hy]]]; try discriminate; lra.
      * destruct k; discriminate.
Qed.
