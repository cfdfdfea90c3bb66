(** Lemmas about the horseshoe Gibbs sweep. *)
From Verif Require Export S_horseshoe L_density L_dist.

Lemma nprod_ext n f g : (forall j, (j < n)%nat -> f j = g j) -> nprod n f = nprod n g.
Proof. induction n; simpl; intros H; auto. rewrite IHn, H; auto. Qed.

Lemma nsumS n f : nsum (S n) f = nsum n f + f n.
Proof.
  unfold nsum. rewrite seq_S, map_app. simpl. generalize (map f (seq 0 n)). intros l.
  induction l; simpl; lra.
Qed.

Lemma nsum_ext' n f g : (forall j, (j < n)%nat -> f j = g j) -> nsum n f = nsum n g.
Proof. induction n; intros H; [reflexivity|]. rewrite !nsumS, IHn, H; auto. Qed.

Lemma nprod_exp n f : nprod n (fun j => exp (f j)) = exp (nsum n f).
Proof.
  induction n; simpl; [symmetry; apply exp_0|]. rewrite nsumS, exp_plus, IHn. reflexivity.
Qed.

Lemma nprod_mult n f g : nprod n f * nprod n g = nprod n (fun j => f j * g j).
Proof. induction n; simpl; [ring|]. rewrite <- IHn. ring. Qed.

Lemma nsum_add n f g : nsum n (fun j => f j + g j) = nsum n f + nsum n g.
Proof. induction n; [unfold nsum; simpl; ring|]. rewrite !nsumS, IHn. ring. Qed.

Lemma nsum_mul n a f : nsum n (fun j => a * f j) = a * nsum n f.
Proof. induction n; [unfold nsum; simpl; ring|]. rewrite !nsumS, IHn. ring. Qed.

Lemma nsum_const' n a : nsum n (fun _ => a) = INR n * a.
Proof. induction n; [unfold nsum; simpl; ring|]. rewrite nsumS, IHn, S_INR. ring. Qed.

Lemma ln_inv_pow2 x : 0 < x -> / x ^ 2 = exp (- (2 * ln x)).
Proof.
  intros H. rewrite exp_Ropp. f_equal. replace (2 * ln x) with (ln x + ln x) by ring.
  rewrite exp_plus, exp_ln by auto. ring.
Qed.

Lemma ig_half_exp s x : 0 < x -> 0 < s ->
  ig_half s x = exp (/ 2 * ln s - 3 / 2 * ln x - s / x).
Proof.
  intros Hx Hs. unfold ig_half, Rpower. rewrite <- !exp_plus. f_equal. lra.
Qed.

Lemma normal_var_exp v b : normal_var v b = exp (- / 2 * ln v - b ^ 2 / (2 * v)).
Proof. unfold normal_var, Rpower. rewrite <- exp_plus. f_equal. Qed.

(** log of the joint density *)
Definition hs_term (sigma2 tau2 b l v : R) : R :=
  (- / 2 * (ln l + ln tau2 + ln sigma2) - b ^ 2 / (2 * (l * tau2 * sigma2)))
  + (- / 2 * ln v - 3 / 2 * ln l - / v / l) + (- 3 / 2 * ln v - / v).
Definition hs_rest (tau2 xi : R) : R :=
  (- / 2 * ln xi - 3 / 2 * ln tau2 - / xi / tau2) + (- 3 / 2 * ln xi - / xi).

Lemma hs_joint_exp p beta sigma2 l tau2 nu xi :
  0 < sigma2 -> orthant p l -> 0 < tau2 -> orthant p nu -> 0 < xi ->
  hs_joint p beta sigma2 l tau2 nu xi =
  exp (nsum p (fun j => hs_term sigma2 tau2 (beta j) (l j) (nu j)) + hs_rest tau2 xi).
Proof.
  intros Hs Hl Ht Hn Hx. unfold hs_joint.
  rewrite (nprod_ext p _ (fun j => exp (hs_term sigma2 tau2 (beta j) (l j) (nu j)))).
  - rewrite nprod_exp, ig_half_exp, ig_half_exp by (auto; try apply Rinv_0_lt_compat; auto; lra).
    rewrite <- !exp_plus. f_equal. unfold hs_rest.
    rewrite ln_Rinv by auto. rewrite ln_1. unfold Rdiv. ring.
  - intros j Hj. specialize (Hl j Hj). specialize (Hn j Hj).
    rewrite normal_var_exp, !ig_half_exp by (auto; try apply Rinv_0_lt_compat; auto; lra).
    rewrite <- !exp_plus. f_equal. unfold hs_term.
    rewrite !ln_mult by (repeat apply Rmult_lt_0_compat; auto).
    rewrite ln_Rinv by auto. rewrite ln_1. unfold Rdiv. ring.
Qed.

Lemma vprop_exp n f g F G c :
  (forall x, orthant n x -> f x = exp (F x)) -> (forall x, orthant n x -> g x = exp (G x)) ->
  (forall x, orthant n x -> F x = c + G x) -> vproportional n f g.
Proof.
  intros Hf Hg H. exists (exp c). split; [apply exp_pos|]. intros x Hx.
  rewrite (Hf x Hx), (Hg x Hx), <- exp_plus, (H x Hx). reflexivity.
Qed.

Lemma recip_exp_density cv n arg x : orthant n x ->
  reciprocal_density n (node_density cv (NExponential n arg)) x =
  exp (nsum n (fun j => - (exponential_rate cv (arg j) * / x j) - 2 * ln (x j))).
Proof.
  intros H. unfold reciprocal_density, node_density. rewrite nprod_mult.
  rewrite (nprod_ext n _ (fun j => exp (- (exponential_rate cv (arg j) * / x j) - 2 * ln (x j)))).
  - apply nprod_exp.
  - intros j Hj. rewrite ln_inv_pow2 by (apply H; auto). unfold exponential_density.
    rewrite <- exp_plus. reflexivity.
Qed.

Lemma recip_gamma_density cv n a r x : orthant n x ->
  reciprocal_density n (node_density cv (NGamma n a r)) x =
  exp (nsum n (fun j => - (a j + 1) * ln (x j) - r j * / x j)).
Proof.
  intros H. unfold reciprocal_density, node_density. rewrite nprod_mult.
  rewrite (nprod_ext n _ (fun j => exp (- (a j + 1) * ln (x j) - r j * / x j))).
  - apply nprod_exp.
  - intros j Hj. rewrite ln_inv_pow2 by (apply H; auto). unfold gamma_density, Rpower.
    rewrite ln_Rinv by (apply H; auto). rewrite <- !exp_plus. f_equal. ring.
Qed.

Lemma orthant_inv n x : orthant n x -> orthant n (fun j => / x j).
Proof. intros H j Hj. apply Rinv_0_lt_compat, H, Hj. Qed.

Lemma nsum1 f : nsum 1 f = f 0%nat.
Proof. unfold nsum. simpl. ring. Qed.

Lemma sqrt_inv_pow2 x : 0 < x -> 0 < / sqrt x /\ (/ sqrt x) ^ 2 = / x.
Proof.
  intros H. pose proof (sqrt_lt_R0 x H). split; [apply Rinv_0_lt_compat; auto|].
  rewrite pow_inv; [|lra..]. f_equal. rewrite <- Rsqr_pow2. apply Rsqr_sqrt. lra.
Qed.

Lemma hs_sweep p beta sigma2 lambda2 tau2 :
  0 < sigma2 -> orthant p lambda2 -> 0 < tau2 ->
  gibbs_sweep Rate p beta sigma2 lambda2 tau2 (horseshoe_posterior p beta sigma2 lambda2 tau2).
Proof.
  intros Hs Hl Ht. unfold gibbs_sweep, horseshoe_posterior.
  eexists _, _. split; [reflexivity|]. split; [reflexivity|]. split.
  { intros xi Hxi. unfold draws_reciprocal_of. simpl node_size.
    eapply vprop_exp.
    - apply recip_exp_density.
    - intros nu Hnu. apply hs_joint_exp; auto.
    - intros nu Hnu.
      instantiate (1 := nsum p (fun j => / 2 * (ln (lambda2 j) + ln tau2 + ln sigma2)
         + beta j ^ 2 / (2 * (lambda2 j * tau2 * sigma2)) + 3 / 2 * ln (lambda2 j)) - hs_rest tau2 xi).
      cbv beta. match goal with |- ?A = ?B - ?C + (?D + ?C) => cut (A = B + D); [lra|] end.
      rewrite <- nsum_add. apply nsum_ext'. intros j Hj. unfold hs_term. simpl exponential_rate.
      specialize (Hl j Hj). specialize (Hnu j Hj). field. lra. }
  intros u Hu. set (nu := fun j => / u j). assert (Hnu : orthant p nu) by (apply orthant_inv; auto).
  eexists _, _. split; [reflexivity|]. split; [reflexivity|]. split.
  { unfold draws_reciprocal_of. simpl node_size. eapply vprop_exp.
    - apply recip_exp_density.
    - intros xi Hxi. apply hs_joint_exp; auto. 
    - intros xi Hxi. assert (0 < xi 0%nat) by (apply Hxi; lia). cbv beta. rewrite nsum1.
      instantiate (1 := 3 / 2 * ln tau2 -
        nsum p (fun j => hs_term sigma2 tau2 (beta j) (lambda2 j) (nu j))).
      unfold hs_rest. simpl exponential_rate.
      cbv beta. match goal with |- _ = _ - ?N + (?N' + _) => change N' with N; generalize N end.
      intros N. field. lra. }
  intros z Hz. set (xi := / z 0%nat). assert (Hxi : 0 < xi) by (apply Rinv_0_lt_compat, Hz; lia).
  eexists _, _. split; [reflexivity|]. split; [reflexivity|]. split.
  { unfold draws_reciprocal_of. simpl node_size. eapply vprop_exp.
    - apply recip_exp_density.
    - intros l Hll. apply hs_joint_exp; auto.
    - intros l Hll.
      instantiate (1 := nsum p (fun j => / 2 * (ln tau2 + ln sigma2) + 2 * ln (nu j) + / nu j)
         - hs_rest tau2 xi).
      cbv beta. match goal with |- ?A = ?B - ?C + (?D + ?C) => cut (A = B + D); [lra|] end.
      rewrite <- nsum_add. apply nsum_ext'. intros j Hj. unfold hs_term. simpl exponential_rate.
      specialize (Hll j Hj). pose proof (Hnu j Hj). specialize (Hu j Hj).
      replace (u j) with (/ nu j) by (unfold nu; apply Rinv_inv). field. lra. }
  intros l Hll. set (lambda2' := fun j => / l j). assert (Hl' : orthant p lambda2') by (apply orthant_inv; auto).
  eexists _, _. split; [reflexivity|]. split; [reflexivity|]. split.
  { unfold draws_reciprocal_of. simpl node_size.
    pose (K := fun j => / 2 * (ln (lambda2' j) + ln sigma2)
         + (/ 2 * ln (nu j) + 3 / 2 * ln (lambda2' j) + / nu j / lambda2' j)
         + (3 / 2 * ln (nu j) + / nu j)).
    apply (vprop_exp _ _ _
      (fun t => nsum 1 (fun j => - (/ 2 * (INR p + 1) + 1) * ln (t j)
        - (z 0%nat + / 2 * nsum p (fun i => beta i ^ 2 * l i) / sigma2) * / t j))
      (fun t => nsum p (fun j => hs_term sigma2 (t 0%nat) (beta j) (lambda2' j) (nu j)) + hs_rest (t 0%nat) xi)
      (2 * ln xi + / xi + nsum p K)).
    - intros t Htt. exact (recip_gamma_density Rate 1 _ _ t Htt).
    - intros t Htt. assert (0 < t 0%nat) by (apply Htt; lia). apply hs_joint_exp; auto.
    - intros t Htt. assert (Ht0 : 0 < t 0%nat) by (apply Htt; lia). rewrite nsum1.
      rewrite (nsum_ext' p (fun j => hs_term _ _ _ _ _) (fun j =>
         ((-1) * K j + - / 2 * ln (t 0%nat)) + (- / (2 * sigma2 * t 0%nat)) * (beta j ^ 2 * l j))).
      + rewrite (nsum_add p (fun j => -1 * K j + - / 2 * ln (t 0%nat))), (nsum_add p (fun j => -1 * K j)),
          nsum_const', (nsum_mul p (-1) K), (nsum_mul p (- / (2 * sigma2 * t 0%nat)) (fun j => beta j ^ 2 * l j)).
        unfold hs_rest. replace (z 0%nat) with (/ xi) by (unfold xi; apply Rinv_inv).
        generalize (nsum p (fun j => beta j ^ 2 * l j)) (nsum p K). intros B N. field. lra.
      + intros j Hj. unfold hs_term, K. specialize (Hl' j Hj). specialize (Hnu j Hj). specialize (Hll j Hj).
        replace (l j) with (/ lambda2' j) by (unfold lambda2'; apply Rinv_inv). field. lra. }
  intros t Htt. eexists _, _. split; [reflexivity|]. split.
  - intros j Hj. apply sqrt_inv_pow2, Hll, Hj.
  - apply sqrt_inv_pow2, Htt. lia.
Qed.

(** If the argument of [exponential] is a scale, no input gives a Gibbs sweep. *)
Lemma hs_sweep_scale p beta sigma2 lambda2 tau2 :
  0 < sigma2 -> orthant p lambda2 -> 0 < tau2 ->
  ~ gibbs_sweep Scale p beta sigma2 lambda2 tau2 (horseshoe_posterior p beta sigma2 lambda2 tau2).
Proof.
  intros Hs Hl Ht (d1 & k1 & H & _ & _ & H1). unfold horseshoe_posterior in H.
  injection H as <- <-. destruct (H1 (fun _ => 1)) as (d2 & k2 & H & _ & H2 & _).
  { intros j _. lra. }
  injection H as <- <-. destruct H2 as (c & Hc & H2). simpl node_size in H2.
  assert (Hp : forall x, 0 < x -> orthant 1 (fun _ => x)) by (intros x Hx j _; exact Hx).
  assert (Ho : orthant p (fun _ => / 1)) by (intros j _; lra).
  assert (E : forall x, 0 < x -> exists K, K = ln c + nsum p (fun j => hs_term sigma2 tau2 (beta j) (lambda2 j) (/ 1)) - 3 / 2 * ln tau2
     /\ - (/ (1 + / tau2) * / x) = K - (1 + / tau2) * / x).
  { intros x Hx. eexists. split; [reflexivity|]. specialize (H2 (fun _ => x) (Hp x Hx)).
    rewrite recip_exp_density, hs_joint_exp in H2 by auto.
    apply (f_equal ln) in H2. rewrite ln_mult in H2 by (auto; apply exp_pos).
    rewrite !ln_exp in H2. rewrite nsum1 in H2. simpl exponential_rate in H2. unfold hs_rest in H2.
    match type of H2 with context [nsum p ?f] => set (N := nsum p f) in * end.
    replace (nsum p _) with N by reflexivity.
    unfold Rdiv in *. lra. }
  destruct (E 1 ltac:(lra)) as (K & E1 & E2). destruct (E (/ 2) ltac:(lra)) as (K' & E3 & E4).
  rewrite <- E1 in E3. subst K'. clear E1 E Hp Ho H2 H1 Hl.
  rewrite Rinv_inv in E4. rewrite Rinv_1 in E2.
  pose proof (Rinv_0_lt_compat _ Ht).
  assert (/ (1 + / tau2) < / 1) by (apply Rinv_lt_contravar; lra). lra.
Qed.
