(** The dispersion step compared with the conditional of the dispersion. *)
From Verif Require Export L_crt L_density S_dispersion.

Lemma list_sum_cons x l : list_sum (x :: l) = (x + list_sum l)%nat.
Proof. reflexivity. Qed.

(** the joint is a gamma density in [h] *)
Lemma dispersion_joint_gamma a b ps ys ls :
  0 < b -> length ps = length ys -> Forall unit_interval ps -> possible_tables ys ls ->
  proportional pos_reals (dispersion_joint (GammaNode a b) ps ys ls)
    (gamma_density (a + INR (list_sum ls)) (/ b - lsum (map ln ps))).
Proof.
  intros Hb Hlen Hps Hls.
  assert (Hprod : exists c, 0 < c /\ forall h, 0 < h ->
     lprod (map (fun q => nb_pmf h (fst q) (snd q)) (combine ps ys))
     * lprod (map (fun p => crt_pmf (fst p) h (snd p)) (combine ys ls))
     = c * (h ^ list_sum ls * exp (h * lsum (map ln ps)))).
  { revert ps Hlen Hps. induction Hls as [|y l ys ls Hyl Hls IH]; intros ps Hlen Hps.
    - destruct ps; [|discriminate]. exists 1. split; [lra|]. intros h _. simpl.
      rewrite Rmult_0_r, exp_0. ring.
    - destruct ps as [|p ps]; [discriminate|]. inversion Hps as [|? ? Hp Hps']; subst.
      destruct (IH ps ltac:(simpl in Hlen; lia) Hps') as (c & Hc & Heq).
      exists (c * (INR (stirling y l) / INR (fact y) * (1 - p) ^ y)). split.
      + apply Rmult_lt_0_compat; [exact Hc|].
        apply Rmult_lt_0_compat; [|apply pow_lt; unfold unit_interval in Hp; lra].
        apply Rdiv_lt_0_compat; [|apply INR_fact_lt_0].
        assert (1 <= stirling y l)%nat.
        { destruct Hyl as [[-> ->]|Hyl]; [simpl; lia|]. apply stirling_pos, Hyl. }
        apply le_INR in H. simpl in H. lra.
      + intros h Hh. specialize (Heq h Hh).
        cbn [combine map lprod fold_right fst snd]. fold lprod.
        change (fold_right Rmult 1) with lprod.
        rewrite list_sum_cons, pow_add. cbn [lsum fold_right]. change (fold_right Rplus 0) with lsum.
        rewrite Rmult_plus_distr_l, exp_plus.
        set (P := lprod (map (fun q => nb_pmf h (fst q) (snd q)) (combine ps ys))) in *.
        set (Q := lprod (map (fun p0 => crt_pmf (fst p0) h (snd p0)) (combine ys ls))) in *.
        transitivity ((P * Q) * (nb_pmf h p y * crt_pmf y h l)); [ring|].
        rewrite Heq. unfold nb_pmf, crt_pmf.
        pose proof (rising_pos h y Hh). pose proof (INR_fact_lt_0 y).
        unfold Rpower. set (E := exp (h * ln p)). field. lra. }
  destruct Hprod as (c & Hc & Hprod). exists c. split; [exact Hc|]. intros h Hh. unfold pos_reals in Hh.
  unfold dispersion_joint. rewrite CRT_joint by exact Hh. cbn [a_shape a_data].
  destruct (list_eq_dec Nat.eq_dec [length ys] [length ys]) as [_|]; [|congruence].
  assert (Hl : length ys = length ls) by (clear -Hls; induction Hls; simpl; congruence). rewrite Hl, Nat.eqb_refl.
  rewrite Rmult_assoc, (Hprod h Hh).
  unfold gamma_node_density, gamma_density. cbn [gn_shape gn_scale].
  replace (a + INR (list_sum ls) - 1) with ((a - 1) + INR (list_sum ls)) by ring.
  rewrite Rpower_plus, Rpower_pow by exact Hh.
  replace (- ((/ b - lsum (map ln ps)) * h)) with (- (1 / b * h) + h * lsum (map ln ps)) by (unfold Rdiv; ring).
  rewrite exp_plus. ring.
Qed.

Lemma rate_pos b ps : 0 < b -> Forall unit_interval ps ->
  0 < / b - lsum (map (fun q => ln (1 - q)) ps).
Proof.
  intros Hb Hps. pose proof (Rinv_0_lt_compat _ Hb).
  assert (lsum (map (fun q => ln (1 - q)) ps) <= 0); [|lra].
  induction Hps as [|p ps Hp Hps IH]; simpl; [lra|].
  assert (ln (1 - p) < 0); [|lra]. rewrite <- ln_1. apply ln_increasing; unfold unit_interval in Hp; lra.
Qed.

Lemma dispersion_node_density a b ps ls : 0 < b -> Forall unit_interval ps ->
  gamma_node_density (dispersion_node a b ps ls)
  = gamma_density (a + INR (list_sum ls)) (/ b - lsum (map (fun q => ln (1 - q)) ps)).
Proof.
  intros Hb Hps. unfold gamma_node_density, dispersion_node, at_gamma. cbn [gn_shape gn_scale].
  f_equal. pose proof (rate_pos b ps Hb Hps).
  set (r := / b - _) in *. field. lra.
Qed.

Lemma dispersion_iff a b ps ys ls :
  0 < b -> length ps = length ys -> Forall unit_interval ps -> possible_tables ys ls ->
  (proportional pos_reals (gamma_node_density (dispersion_node a b ps ls))
     (dispersion_joint (GammaNode a b) ps ys ls)
   <-> lsum (map (fun p => ln (1 - p)) ps) = lsum (map ln ps)).
Proof.
  intros Hb Hlen Hps Hls. rewrite dispersion_node_density by assumption.
  pose proof (dispersion_joint_gamma a b ps ys ls Hb Hlen Hps Hls) as HJ. split.
  - intros H. pose proof (proportional_trans _ _ _ _ H HJ) as K.
    apply gamma_density_inj in K as [_ K]. lra.
  - intros E. apply proportional_sym. rewrite E. exact HJ.
Qed.

(** the step is right when it is given the failure probabilities instead *)
Lemma dispersion_complement a b ps ys ls :
  0 < b -> length ps = length ys -> Forall unit_interval ps -> possible_tables ys ls ->
  proportional pos_reals (gamma_node_density (dispersion_node a b (map (fun p => 1 - p) ps) ls))
     (dispersion_joint (GammaNode a b) ps ys ls).
Proof.
  intros Hb Hlen Hps Hls.
  assert (Hps' : Forall unit_interval (map (fun p => 1 - p) ps)).
  { clear -Hps. induction Hps as [|p ps Hp _ IH]; simpl; constructor; auto. unfold unit_interval in *. lra. }
  rewrite dispersion_node_density by assumption.
  apply proportional_sym. rewrite map_map.
  replace (map (fun x => ln (1 - (1 - x))) ps) with (map ln ps).
  - apply dispersion_joint_gamma; assumption.
  - apply map_ext. intros x. f_equal. ring.
Qed.
