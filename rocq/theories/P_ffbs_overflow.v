(** C66, continued: FFBS in double precision does not overflow (/repo/aemcmc/ffbs.py). *)
From Flocq Require Import Core.
From Verif Require Import S_ffbs_overflow L_ffbs_float L_ffbs L_ffbs_accuracy L_ffbs_overflow P_ffbs P_ffbs_float P_ffbs_accuracy.
Open Scope R_scope.

(** With transition matrices whose rows sum to one (up to 2^-52: entries are rounded), log-likelihoods
    of at most 2^1022 in absolute value and at most about 2^53 / (M + 4) observations, no operation
    overflows: the step is the one that M_ffbs_float.v describes, whatever [rd] gives on overflow. *)
Theorem C66_no_overflow :
  forall rd summ gamma_0 Gammas log_lik N bound,
    rounds rd -> sum_ok_r rd summ -> 0 < bound -> ffbs_args gamma_0 Gammas log_lik N ->
    (Z.of_nat (N * (length gamma_0 + 4)) <= 2 ^ 53)%Z ->
    (forall x, In x gamma_0 -> is_double x) -> lsum gamma_0 <= bpow radix2 60 ->
    (forall G row, In G Gammas -> In row G -> lsum row <= 1 + (1 / 2) ^ 52 /\ forall x, In x row -> x <= 1) ->
    (forall row x, In row log_lik -> In (Some x) row -> Rabs x <= bpow radix2 1022) ->
    exists summ', sum_ok summ' /\
      ffbs_step_r rd summ gamma_0 Gammas log_lik N bound = ffbs_step_f summ' gamma_0 Gammas log_lik N bound.
Proof. exact ffbs_no_overflow. Qed.
Print Assumptions C66_no_overflow.

(** So neither overflow nor underflow makes a draw fail if the chain can always go on
    ([C66_no_underflow_partial]) ... *)
Theorem C66_no_failure_partial :
  forall rd summ beta gamma_0 Gammas log_lik N bound,
    rounds rd -> sum_ok_r rd summ -> (beta <= 500)%nat -> (1 / 2) ^ S beta <= bound <= (1 / 2) ^ beta ->
    ffbs_args gamma_0 Gammas log_lik N ->
    (Z.of_nat (N * (length gamma_0 + 4)) <= 2 ^ 53)%Z ->
    (forall x, In x gamma_0 -> is_double x) -> (exists x, In x gamma_0 /\ 0 < x) -> lsum gamma_0 <= bpow radix2 60 ->
    (forall G row, In G Gammas -> In row G -> lsum row <= 1 + (1 / 2) ^ 52 /\ forall x, In x row -> x <= 1) ->
    (forall row x, In row log_lik -> In (Some x) row -> Rabs x <= bpow radix2 1022) ->
    (forall n, (n < N)%nat -> can_go_on beta (length gamma_0) (column log_lik n)
       (nth (if Nat.eqb (length Gammas) 1 then 0%nat else n) Gammas [])) ->
    dprob (ffbs_step_r rd summ gamma_0 Gammas log_lik N bound) is_failure = 0.
Proof.
  intros rd summ beta gamma_0 Gammas log_lik N bound Hrd Hsum Hbeta Hb Ha HN Hd Hp Hg HG Hl Hgo.
  assert (Hb0 : 0 < bound) by (apply Rlt_le_trans with (2 := proj1 Hb); apply pow_lt; lra).
  destruct (C66_no_overflow rd summ gamma_0 Gammas log_lik N bound Hrd Hsum Hb0 Ha HN Hd Hg HG Hl) as (summ' & Hs' & E).
  rewrite E. apply (C66_no_underflow_partial summ' beta); auto.
  pose proof (fa_N _ _ _ _ Ha). nia.
Qed.
Print Assumptions C66_no_failure_partial.

(** ... and the probabilities are as accurate as [C66_accuracy_partial] says. *)
Theorem C66_accuracy_overflow_partial :
  forall rd summ beta a c gamma_0 Gammas log_lik N bound ss,
    rounds rd -> sum_ok_r rd summ -> (beta <= 250)%nat -> (1 / 2) ^ S beta <= bound <= (1 / 2) ^ beta ->
    ffbs_args gamma_0 Gammas log_lik N ->
    (Z.of_nat (N * (length gamma_0 + 4)) <= 2 ^ 53)%Z ->
    (forall x, In x gamma_0 -> is_double x /\ (x = 0 \/ (1 / 2) ^ 100 <= x <= 1)) ->
    (exists x, In x gamma_0 /\ 0 < x) -> (2 * a + 3 * c <= 2 * beta)%nat ->
    (forall G row, In G Gammas -> In row G -> lsum row <= 1 + (1 / 2) ^ 52) ->
    (forall row x, In row log_lik -> In (Some x) row -> Rabs x <= bpow radix2 1022) ->
    (forall n, (n < N)%nat -> lively a c (length gamma_0) (column log_lik n)
       (nth (if Nat.eqb (length Gammas) 1 then 0%nat else n) Gammas [])) ->
    let M := length gamma_0 in
    let K := (N * (2 * N * (M + c + 5) + M + 5))%nat in
    let drawn := dprob (ffbs_step_r rd summ gamma_0 Gammas log_lik N bound) (is_seq ss) in
    let exact := posterior M (vget gamma_0) (hmm_of Gammas log_lik N) ss in
    Rabs (drawn - exact) <= INR K * (1 / 2) ^ 53 * Rmax drawn exact.
Proof.
  intros rd summ beta a c gamma_0 Gammas log_lik N bound ss Hrd Hsum Hbeta Hb Ha HN Hg Hp Hac HG Hl Hlv.
  assert (Hb0 : 0 < bound) by (apply Rlt_le_trans with (2 := proj1 Hb); apply pow_lt; lra).
  pose proof (fa_N _ _ _ _ Ha) as HN1.
  assert (HM : (Z.of_nat (length gamma_0) < 2 ^ 53)%Z) by nia.
  assert (Hone : forall G row, In G Gammas -> In row G -> forall x, In x row -> x <= 1).
  { intros G row HGi Hr x Hx. destruct (In_nth Gammas G ([] : mat) HGi) as (n & Hn & En).
    destruct (In_nth _ _ [] Hr) as (i & Hi & Ei). destruct (In_nth _ _ 0 Hx) as (j & Hj & Ej).
    destruct (fa_Gshape _ _ _ _ Ha G HGi) as [H1 H2]. specialize (H2 row Hr).
    assert (Hsel : exists m, (m < N)%nat /\ (if Nat.eqb (length Gammas) 1 then 0%nat else m) = n).
    { destruct (fa_Gs _ _ _ _ Ha) as [E1|E1].
      - exists 0%nat. rewrite E1 in Hn |- *. clear -Hn HN1. split; [lia|]. change (0%nat = n). lia.
      - exists n. rewrite E1 in Hn. split; [exact Hn|]. destruct (Nat.eqb_spec (length Gammas) 1) as [E2|_]; [rewrite E1 in E2; clear -Hn E2; lia|reflexivity]. }
    destruct Hsel as (m & Hm & Em). specialize (Hlv m Hm). rewrite Em, En in Hlv. destruct Hlv as [Hlv _].
    specialize (Hlv i j ltac:(lia) ltac:(lia)). unfold mget, vget in Hlv. rewrite Ei, Ej in Hlv. lra. }
  assert (Hsum60 : lsum gamma_0 <= bpow radix2 60).
  { apply Rle_trans with (INR (length gamma_0)).
    - clear -Hg. induction gamma_0 as [|x l IH]; [simpl; lra|]. simpl length. rewrite S_INR. simpl lsum.
      assert (x <= 1) by (destruct (Hg x (or_introl eq_refl)) as [_ [->|H]]; lra).
      assert (lsum l <= INR (length l)) by (apply IH; intros y Hy; apply Hg; now right). lra.
    - apply Rle_trans with (bpow radix2 53); [exact (size_pw _ HM)|apply bpow_le; lia]. }
  destruct (C66_no_overflow rd summ gamma_0 Gammas log_lik N bound Hrd Hsum Hb0 Ha HN (fun x Hx => proj1 (Hg x Hx)) Hsum60
    (fun G row HGi Hr => conj (HG G row HGi Hr) (Hone G row HGi Hr)) Hl) as (summ' & Hs' & E).
  cbv zeta. rewrite E.
  exact (proj2 (C66_accuracy_partial summ' beta a c gamma_0 Gammas log_lik N bound ss Hs' Hbeta Hb Ha HM Hg Hp Hac Hlv)).
Qed.
Print Assumptions C66_accuracy_overflow_partial.

(** ** Examples *)
(** an arithmetic that gives 0 on overflow *)
Definition rd_zero (x : R) : R := if Rlt_dec (Rabs (rnd x)) (bpow radix2 1024) then rnd x else 0.
Definition sum_zero (l : list R) : R := fold_right (fun x a => rd_zero (x + a)) 0 l.

Example rd_zero_ok : rounds rd_zero /\ sum_ok_r rd_zero sum_zero.
Proof.
  split.
  - intros x Hx. unfold rd_zero. destruct (Rlt_dec _ _); [reflexivity|contradiction].
  - intros l. induction l as [|x l IH]; [constructor|]. simpl.
    apply (fr_add _ [x] l); [constructor|exact IH|apply Permutation_refl].
Qed.

(** the chain of P_ffbs_float.v, up to a million of observations *)
Example ex_no_failure N : (1 <= N)%nat -> (Z.of_nat N <= 10 ^ 6)%Z ->
  dprob (ffbs_step_r rd_zero sum_zero ex_gamma_0 ex_Gammas (ex_chain_lik N) N (rnd (1 / 10 ^ 20))) is_failure = 0.
Proof.
  intros HN HN6.
  assert (Ha : ffbs_args ex_gamma_0 ex_Gammas (ex_chain_lik N) N).
  { destruct ex_ffbs_args as [_ H2 _ H4 H5 _ _]. constructor; auto.
    intros row [<-|[<-|[]]]; [apply repeat_length|rewrite map_length; apply seq_length]. }
  assert (Hb0 : 0 < rnd (1 / 10 ^ 20)) by (apply Rlt_le_trans with (2 := proj1 default_bound); apply pow_lt; lra).
  destruct (C66_no_overflow rd_zero sum_zero ex_gamma_0 ex_Gammas (ex_chain_lik N) N (rnd (1 / 10 ^ 20))
    (proj1 rd_zero_ok) (proj2 rd_zero_ok) Hb0 Ha) as (summ' & Hs & E).
  - simpl length. rewrite Nat2Z.inj_mul. lia.
  - intros x Hx. assert (Ex : x = 1 / 2) by (destruct Hx as [<-|[<-|[]]]; reflexivity). subst x. exact double_half.
  - apply Rle_trans with (bpow radix2 0); [simpl; lra|apply bpow_le; lia].
  - intros G row [<-|[]] Hr. assert (0 < (1 / 2) ^ 52) by (apply pow_lt; lra).
    destruct Hr as [<-|[<-|[]]]; (split; [simpl; lra|]; intros x [<-|[<-|[]]]; lra).
  - assert (H3 : 3 <= bpow radix2 1022) by (apply Rle_trans with (bpow radix2 2); [simpl; lra|apply bpow_le; lia]).
    intros row x [<-|[<-|[]]] Hx.
    + apply repeat_spec in Hx. injection Hx as ->. rewrite Rabs_R0. lra.
    + apply in_map_iff in Hx as (n & Hx & _). destruct (Nat.odd n); [discriminate|]. injection Hx as <-.
      rewrite Rabs_left by lra. lra.
  - rewrite E. apply (C66_no_underflow_partial summ' 66); [exact Hs|lia|exact default_bound|exact Ha|simpl; lia| | |].
    + intros x Hx. assert (Ex : x = 1 / 2) by (destruct Hx as [<-|[<-|[]]]; reflexivity). subst x. exact double_half.
    + exists (1 / 2). split; [simpl; auto|lra].
    + exact (ex_chain_go_on N).
Qed.
