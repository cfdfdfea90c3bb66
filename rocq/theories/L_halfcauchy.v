(** The half-Cauchy density as a scale mixture, and integrals of densities. *)
From Coquelicot Require Import Coquelicot.
From Verif Require Import S_horseshoe L_horseshoe.

Definition F_mix (l v : R) : R := 2 / (PI * (l ^ 2 + 1)) * exp (- ((1 + / l ^ 2) / v)).

Lemma F_mix_derive l v : 0 < l -> 0 < v ->
  is_derive (F_mix l) v (2 * l * (ig_half (/ v) (l ^ 2) / sqrt PI) * (ig_half 1 v / sqrt PI)).
Proof.
  intros Hl Hv. pose proof PI_RGT_0. assert (0 < l ^ 2) by nra.
  unfold F_mix. auto_derive; [lra|].
  rewrite !ig_half_exp by (auto; try apply Rinv_0_lt_compat; auto; lra).
  rewrite ln_Rinv, ln_1 by auto.
  replace (ln (l ^ 2)) with (2 * ln l) by (simpl; rewrite Rmult_1_r, ln_mult; auto; ring).
  replace (2 * l * (exp (/ 2 * - ln v - 3 / 2 * (2 * ln l) - / v / l ^ 2) / sqrt PI) *
           (exp (/ 2 * 0 - 3 / 2 * ln v - 1 / v) / sqrt PI))
    with (2 * l * (exp (/ 2 * - ln v - 3 / 2 * (2 * ln l) - / v / l ^ 2) *
           exp (/ 2 * 0 - 3 / 2 * ln v - 1 / v)) / (sqrt PI * sqrt PI)).
  2:{ field. apply Rgt_not_eq, sqrt_lt_R0; auto. }
  rewrite sqrt_sqrt by lra. rewrite <- exp_plus.
  replace (/ 2 * - ln v - 3 / 2 * (2 * ln l) - / v / l ^ 2 + (/ 2 * 0 - 3 / 2 * ln v - 1 / v))
    with (- (2 * ln v) + (- (2 * ln l) + - ln l) + - ((1 + / l ^ 2) / v)).
  2:{ field. lra. }
  rewrite !exp_plus, <- !ln_inv_pow2 by auto. rewrite (exp_Ropp (ln l)), exp_ln by auto.
  change (- ((1 + / (l * (l * 1))) * / v)) with (- ((1 + / l ^ 2) / v)).
  generalize (exp (- ((1 + / l ^ 2) / v))). intros e. field. repeat split; nra.
Qed.

Lemma exp_over_0 k : 0 < k -> filterlim (fun v => exp (- (k / v))) (at_right 0) (locally 0).
Proof.
  intros Hk. apply (filterlim_comp _ _ _ (fun v => - (k / v)) exp _ (Rbar_locally m_infty)).
  - apply (filterlim_comp _ _ _ (fun v => / v) (fun w => - (k * w)) _ (Rbar_locally p_infty)).
    + apply filterlim_Rinv_0_right.
    + replace m_infty with (Rbar_opp (Rbar_mult k p_infty)).
      2:{ simpl. destruct (Rle_dec 0 k) as [r|n]; [|lra]. destruct (Rle_lt_or_eq_dec 0 k r); [reflexivity|lra]. }
      apply (filterlim_comp _ _ _ (fun w => k * w) Ropp _ (Rbar_locally (Rbar_mult k p_infty))).
      * apply filterlim_Rbar_mult_l.
      * apply filterlim_Rbar_opp.
  - apply is_lim_exp_m.
Qed.

Lemma exp_over_inf k : filterlim (fun v => exp (- (k / v))) (Rbar_locally p_infty) (locally 1).
Proof.
  rewrite <- exp_0. apply (filterlim_comp _ _ _ (fun v => - (k / v)) exp _ (locally 0)).
  - replace 0 with (- (k * 0)) by ring.
    apply (filterlim_comp _ _ _ (fun v => / v) (fun w => - (k * w)) _ (locally 0)).
    + apply (is_lim_inv (fun x => x) p_infty p_infty); [apply is_lim_id|discriminate].
    + apply (ex_derive_continuous (fun w => - (k * w)) 0). auto_derive. auto.
  - apply continuous_exp.
Qed.

Lemma half_cauchy_mixture l : 0 < l ->
  is_RInt_gen (fun v => 2 * l * (ig_half (/ v) (l ^ 2) / sqrt PI) * (ig_half 1 v / sqrt PI))
    (at_right 0) (Rbar_locally p_infty) (2 / (PI * (1 + l ^ 2))).
Proof.
  intros Hl. pose proof PI_RGT_0. assert (0 < l ^ 2) by nra.
  assert (Hk : 0 < 1 + / l ^ 2) by (pose proof (Rinv_0_lt_compat (l ^ 2)); lra).
  assert (Hpos : filter_prod (at_right 0) (Rbar_locally p_infty)
     (fun ab => 0 < fst ab /\ 0 < snd ab)).
  { apply Filter_prod with (fun a => 0 < a) (fun b => 0 < b).
    - exists (mkposreal 1 Rlt_0_1). auto.
    - exists 0. auto.
    - auto. }
  assert (Hx : forall a b x, 0 < a /\ 0 < b -> Rmin a b <= x <= Rmax a b -> 0 < x).
  { intros a b x (Ha & Hb) (H1 & _). apply Rlt_le_trans with (Rmin a b); auto. apply Rmin_pos; auto. }
  apply is_RInt_gen_ext with (Derive (F_mix l)).
  { apply (filter_imp _ _) with (2 := Hpos). intros (a, b) Hab x Hxx. simpl in *.
    apply is_derive_unique, F_mix_derive; auto. eapply Hx; eauto. lra. }
  replace (2 / (PI * (1 + l ^ 2))) with (2 / (PI * (l ^ 2 + 1)) * 1 - 2 / (PI * (l ^ 2 + 1)) * 0).
  2:{ field. repeat split; nra. }
  apply is_RInt_gen_Derive.
  - apply (filter_imp _ _) with (2 := Hpos). intros (a, b) Hab x Hxx. simpl in *.
    eexists. apply F_mix_derive; auto. eapply Hx; eauto.
  - apply (filter_imp _ _) with (2 := Hpos). intros (a, b) Hab x Hxx. simpl in *.
    assert (0 < x) by (eapply Hx; eauto).
    apply continuous_ext_loc with (fun v => 2 / (PI * (l ^ 2 + 1)) * ((1 + / l ^ 2) / v ^ 2 * exp (- ((1 + / l ^ 2) / v)))).
    + exists (mkposreal x H1). intros y Hy.
      assert (0 < y). { unfold ball in Hy. simpl in Hy. unfold AbsRing_ball, abs, minus, plus, opp in Hy. simpl in Hy.
        apply Rabs_def2 in Hy. lra. }
      symmetry. apply is_derive_unique. unfold F_mix. auto_derive; [lra|].
      change (- ((1 + / (l * (l * 1))) * / y)) with (- ((1 + / l ^ 2) / y)).
      generalize (exp (- ((1 + / l ^ 2) / y))). intros e. field. repeat split; nra.
    + apply (ex_derive_continuous (fun v => 2 / (PI * (l ^ 2 + 1)) * ((1 + / l ^ 2) / v ^ 2 * exp (- ((1 + / l ^ 2) / v))))).
      auto_derive. repeat split; nra.
  - unfold F_mix. apply (filterlim_comp _ _ _ (fun v => exp (- ((1 + / l ^ 2) / v))) (fun e => 2 / (PI * (l ^ 2 + 1)) * e) _ (locally 0)).
    + apply exp_over_0. auto.
    + apply (ex_derive_continuous (fun e => 2 / (PI * (l ^ 2 + 1)) * e) 0). auto_derive. auto.
  - unfold F_mix. apply (filterlim_comp _ _ _ (fun v => exp (- ((1 + / l ^ 2) / v))) (fun e => 2 / (PI * (l ^ 2 + 1)) * e) _ (locally 1)).
    + apply exp_over_inf.
    + apply (ex_derive_continuous (fun e => 2 / (PI * (l ^ 2 + 1)) * e) 1). auto_derive. auto.
Qed.
