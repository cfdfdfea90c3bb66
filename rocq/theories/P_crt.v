(** C28, C29: the Chinese-restaurant-table draw and the dispersion step
    (/repo/aemcmc/gibbs.py:367-478). *)
From Verif Require Import L_dispersion.

(** C28. Joint law of [sample_CRT(y, h)] for an array of counts of any shape: the
    result has the shape of [y], its entries are independent, and each entry has the
    Chinese-restaurant-table law. *)
Theorem C28_crt_joint_law :
  forall shape ys h a, 0 < h ->
    dprob (sample_CRT (Arr shape (map Z.of_nat ys)) h) (is_arr a)
    = if list_eq_dec Nat.eq_dec (a_shape a) shape
      then if Nat.eqb (length (a_data a)) (length ys)
           then lprod (map (fun p => crt_pmf (fst p) h (snd p)) (combine ys (a_data a)))
           else 0
      else 0.
Proof. exact CRT_joint. Qed.
Print Assumptions C28_crt_joint_law.

Theorem C28_crt_entry_law :
  forall h y l, 0 < h ->
    dprob (single_sample_CRT (Z.of_nat y) h) (is_nat l) = crt_pmf y h l.
Proof. exact single_law. Qed.
Print Assumptions C28_crt_entry_law.

(** An entry is possible exactly when it is 0 for no customers and between 1 and [y]
    otherwise; probabilities sum to one; no run fails. *)
Theorem C28_crt_support :
  forall y h l, 0 < h -> (crt_pmf y h l <> 0 <-> (y = 0 /\ l = 0)%nat \/ (1 <= l <= y)%nat).
Proof. exact crt_pmf_support. Qed.
Print Assumptions C28_crt_support.

Theorem C28_crt_total :
  forall y h, 0 < h -> nsum (S y) (crt_pmf y h) = 1 /\ dprob (single_sample_CRT (Z.of_nat y) h) is_fail = 0.
Proof. exact (fun y h Hh => conj (crt_pmf_sums y h Hh) (single_no_fail (Z.of_nat y) h)). Qed.
Print Assumptions C28_crt_total.

(** The recurrence defining [stirling] is that of the unsigned Stirling numbers of the
    first kind: they are the coefficients of x (x+1) ... (x+n-1). *)
Theorem C28_stirling_coefficients :
  forall x n, nsum (S n) (fun k => INR (stirling n k) * x ^ k) = rising_fact x n.
Proof. exact stirling_generating. Qed.
Print Assumptions C28_stirling_coefficients.

Example ex_crt : dprob (single_sample_CRT 3 1) (is_nat 2) = 1/2.
Proof.
  change 3%Z with (Z.of_nat 3). rewrite C28_crt_entry_law by lra.
  unfold crt_pmf. simpl. lra.
Qed.

(** C29. The conditional of the dispersion, for observations [ys_i ~ NB(h, ps_i)], a
    gamma prior and table counts drawn by [sample_CRT], is compared with the gamma
    drawn by the step, for the success probabilities that the finder passes. *)
Theorem C29_dispersion_iff_partial :
  forall a b ps ys ls,
    0 < b -> length ps = length ys -> Forall unit_interval ps -> possible_tables ys ls ->
    (proportional pos_reals (gamma_node_density (dispersion_node a b ps ls))
       (dispersion_joint (GammaNode a b) ps ys ls)
     <-> lsum (map (fun p => ln (1 - p)) ps) = lsum (map ln ps)).
Proof. exact dispersion_iff. Qed.
Print Assumptions C29_dispersion_iff_partial.

(** With failure probabilities in place of success probabilities the step is right. *)
Theorem C29_dispersion_failure_probabilities_partial :
  forall a b ps ys ls,
    0 < b -> length ps = length ys -> Forall unit_interval ps -> possible_tables ys ls ->
    proportional pos_reals (gamma_node_density (dispersion_node a b (map (fun p => 1 - p) ps) ls))
       (dispersion_joint (GammaNode a b) ps ys ls).
Proof. exact dispersion_complement. Qed.
Print Assumptions C29_dispersion_failure_probabilities_partial.

(** The claim is false of the code. *)
Theorem C29_dispersion_refuted :
  exists a b ps ys ls,
    0 < b /\ length ps = length ys /\ Forall unit_interval ps /\ possible_tables ys ls /\
    ~ proportional pos_reals (gamma_node_density (dispersion_node a b ps ls))
        (dispersion_joint (GammaNode a b) ps ys ls).
Proof.
  exists 1, 1, [1/4], [3]%nat, [2]%nat.
  assert (Hps : Forall unit_interval [1/4]) by (constructor; [unfold unit_interval; lra|constructor]).
  assert (Hls : possible_tables [3]%nat [2]%nat) by (constructor; [lia|constructor]).
  split; [lra|]. split; [reflexivity|]. split; [exact Hps|]. split; [exact Hls|].
  rewrite dispersion_iff; [|lra|reflexivity|exact Hps|exact Hls].
  simpl. intros E. assert (ln (1/4) < ln (1 - 1/4)) by (apply ln_increasing; lra). lra.
Qed.
Print Assumptions C29_dispersion_refuted.
