(** Property C57, the steps: a step that draws a variable from a density which is its full
    conditional in the sense of C53 leaves the conditional of that variable invariant in the
    sense of C57. *)
From Coq Require Import Reals Lra FunctionalExtensionality.
From Verif Require Import L_sweep L_exact L_conjugates L_conditional L_pairs P_conditional E_sweep.

(** The density may depend on the values of the other variables.  Where the others are outside
    the support the posterior density is zero and nothing is required. *)
Theorem C57_full_conditional_draws_keep_the_conditional scalar other cval ld h rho V p (S : tensor R -> Prop) test w B :
  p ∈ V -> b_vars B = [p] -> measure_on p S (b_own B) -> (exists t, S t) ->
  (forall x, (forall y, S (y p) -> w (put [p] y x) = 0%R) \/
    ((forall y, S (y p) -> density_at scalar other cval ld h rho V w (put [p] y x)) /\
     forall y, S (y p) -> exists density, (forall t, S t -> density t <> 0%R) /\
       full_conditional scalar other cval ld h rho V (on V (put [p] y x)) p S density /\
       draws_from p test B (put [p] y x) density)) ->
  keeps_conditional test w B.
Proof. intros Hp HB Hm. by apply (exact_keeps scalar other cval ld h rho V p S Hp test w B HB Hm). Qed.
Print Assumptions C57_full_conditional_draws_keep_the_conditional.

(** ** The beta-binomial step.  In every state with a positive density, the parameters have
    values as in C53 and the step is a beta draw with the values of its two parameters. *)
Theorem C57_beta_binomial_step_keeps_the_conditional :
  forall (Bd : builder) h n nd y nn p size dtype sz dt a b,
    builder_ok Bd -> good_heap h -> hn h n = Some nd -> n_outs nd !! 1 = Some y ->
    rv_full h y RV_binomial sz dt [nn; p] -> rv_full h p RV_beta size dtype [a; b] ->
    exists h' post a' b',
      local_beta_binomial_posterior Bd h n = (h', Ok [(p, post, [])]) /\
      extends h h' /\ rv_full h' post RV_beta size dtype [a'; b'] /\
      forall scalar other cval ld rho V others s test w B,
        real_ops Bd scalar cval -> log_densities ld -> gives_old h rho ->
        V ≡ₚ p :: y :: others -> NoDup V -> only_used_by h V p y ->
        b_vars B = [p] -> measure_on p (array_in unit_interval s) (b_own B) ->
        (forall x, (forall t, array_in unit_interval s (t p) -> w (put [p] t x) = 0%R) \/
          forall t, array_in unit_interval s (t p) ->
            density_at scalar other cval ld h rho V w (put [p] t x) /\
            let env := over (on V (put [p] t x)) rho in
            (exists Av Bv Nv cn cy,
              has_value Bd scalar other cval h env a Av /\ fits s Av /\ has_value Bd scalar other cval h env b Bv /\ fits s Bv /\
              has_value Bd scalar other cval h env nn Nv /\ fits s Nv /\ counts s Nv cn /\
              has_value Bd scalar other cval h env y (x y) /\ tensor_ok (x y) /\ t_shape (x y) = s /\ counts s (x y) cy /\
              forall i, in_range s i -> cy i <= cn i) /\
            forall Av' Bv', has_value Bd scalar other cval h' env a' Av' -> has_value Bd scalar other cval h' env b' Bv' ->
              draws_from p test B (put [p] t x) (fun v => beta_array s Av' Bv' (bval v))) ->
        keeps_conditional test w B.
Proof.
  intros Bd h n nd y nn p size dtype sz dt a b HBd Hg Hn Hy Hrv Hf.
  destruct (C53_beta_binomial_iff_partial Bd h n nd y nn p size dtype sz dt a b HBd Hg Hn Hy Hrv Hf) as (h' & post & a' & b' & H1 & H2 & H3 & H4).
  exists h', post, a', b'. split; [exact H1|]. split; [exact H2|]. split; [exact H3|].
  intros scalar other cval ld rho V others s test w B Hops Hld Hold Hperm Hnd Hu HB Hm Hx.
  assert (HpV : p ∈ V) by (rewrite Hperm; by left).
  apply (C57_full_conditional_draws_keep_the_conditional scalar other cval ld h rho V p (array_in unit_interval s) test w B HpV HB Hm).
  - destruct (array_of unit_interval s (fun _ => (/ 2)%R)) as (t & Ht & _); [intros i _; apply half_unit|]. by exists t.
  - intros x. destruct (Hx x) as [H0|Hs]; [by left|right]. split; [intros t Ht; by apply Hs|].
    intros t Ht. destruct (Hs t Ht) as (Hd & (Av & Bv & Nv & cn & cy & A1 & A2 & B1 & B2 & N1 & N2 & N3 & Y1 & Y2 & Y3 & Y4 & Hle) & Hdr).
    destruct Hd as (l0 & Hj & _).
    assert (HV : forall v, is_Some (on V (put [p] t x) v) <-> v ∈ V).
    { intros v. unfold on. case_decide as Hv; split; [done|by eexists| |done]. by intros [? ?]. }
    destruct (H4 scalar other cval ld rho (on V (put [p] t x)) V others l0 s Av Bv Nv (x y) cn cy Hops Hld Hold HV Hperm Hnd Hj
      (only_params h V p y RV_binomial sz dt [nn] Hrv Hu) A1 A2 B1 B2 N1 N2 N3 Y1 Y2 Y3 Y4 Hle) as (Av' & Bv' & V1 & V2 & _ & Hc).
    exists (fun v => beta_array s Av' Bv' (bval v)). split; [|split; [by apply Hc|by apply Hdr]].
    intros v _. pose proof (beta_array_pos s Av' Bv' (bval v)). lra.
Qed.
Print Assumptions C57_beta_binomial_step_keeps_the_conditional.

(** ** The converse.  A step that draws from a density which does not depend on the current
    value of the variable leaves the conditional invariant exactly when the density is the full
    conditional.  [draw x d]: in the state [x], with the value of [p] left open, it draws from
    [d]. *)
Theorem C57_draws_keep_iff scalar other cval ld h rho V p (S : tensor R -> Prop) test w B (draw : (vid -> tensor R) -> (tensor R -> R) -> Prop) :
  p ∈ V -> b_vars B = [p] -> measure_on p S (b_own B) -> additive (b_own B) -> (exists t, S t) ->
  (forall x, (forall y, S (y p) -> w (put [p] y x) = 0%R) \/ exists d, draw x d) ->
  (forall x d, draw x d -> (forall t, S t -> d t <> 0%R) /\
    (forall y, S (y p) -> density_at scalar other cval ld h rho V w (put [p] y x)) /\
    (forall y, S (y p) -> draws_from p test B (put [p] y x) d) /\ tells_apart p S test w B x d) ->
  (keeps_conditional test w B <-> forall x d, draw x d -> full_conditional scalar other cval ld h rho V (on V x) p S d).
Proof.
  intros Hp HB Hm Ha Hi Hx Hd. split.
  - intros Hk x d Hxd. destruct (Hd x d Hxd) as (H1 & H2 & H3 & H4).
    apply (exact_at scalar other cval ld h rho V p S Hp test w B HB Hm Ha x d Hi H1 H2 H3 H4). intros g. apply Hk.
  - intros Hf. apply (exact_keeps scalar other cval ld h rho V p S Hp test w B HB Hm Hi).
    intros x. destruct (Hx x) as [H0|[d Hxd]]; [by left|right]. destruct (Hd x d Hxd) as (H1 & H2 & H3 & H4). split; [exact H2|].
    intros t Ht. exists d. split; [exact H1|]. split; [|by apply H3]. apply full_conditional_put; [exact Hp|]. by apply Hf.
Qed.
Print Assumptions C57_draws_keep_iff.

(** ** The gamma-Poisson step leaves the conditional of its variable invariant exactly when all
    the prior scales are 1. *)
Theorem C57_gamma_poisson_step_iff :
  forall (Bd : builder) h n nd y z size dtype sz dt a sc,
    builder_ok Bd -> good_heap h -> hn h n = Some nd -> n_outs nd !! 1 = Some y ->
    rv_full h y RV_poisson sz dt [z] -> rv_full h z RV_gamma size dtype [a; sc] ->
    exists h' post a' sc',
      local_gamma_poisson_posterior Bd h n = (h', Ok [(z, post, [])]) /\
      extends h h' /\ rv_full h' post RV_gamma size dtype [a'; sc'] /\
      forall scalar other cval ld rho V others s test w B,
        real_ops Bd scalar cval -> log_densities ld -> gives_old h rho ->
        V ≡ₚ z :: y :: others -> NoDup V -> only_used_by h V z y ->
        b_vars B = [z] -> measure_on z (array_in pos_reals s) (b_own B) -> additive (b_own B) ->
        (forall x, (forall t, array_in pos_reals s (t z) -> w (put [z] t x) = 0%R) \/
          exists Av Sv cy, fits s Av /\ fits s Sv /\ (forall i, in_range s i -> (0 < bval Sv i)%R) /\
          tensor_ok (x y) /\ t_shape (x y) = s /\ counts s (x y) cy /\
          forall t, array_in pos_reals s (t z) ->
            density_at scalar other cval ld h rho V w (put [z] t x) /\
            let env := over (on V (put [z] t x)) rho in
            has_value Bd scalar other cval h env a Av /\ has_value Bd scalar other cval h env sc Sv /\
            has_value Bd scalar other cval h env y (x y) /\
            forall Av' Sv', has_value Bd scalar other cval h' env a' Av' -> has_value Bd scalar other cval h' env sc' Sv' ->
              draws_from z test B (put [z] t x) (fun v => gamma_array s Av' Sv' (bval v)) /\
              tells_apart z (array_in pos_reals s) test w B x (fun v => gamma_array s Av' Sv' (bval v))) ->
        (keeps_conditional test w B <->
         forall x Sv, array_in pos_reals s (x z) -> w x <> 0%R ->
           has_value Bd scalar other cval h (over (on V x) rho) sc Sv -> forall i, in_range s i -> bval Sv i = 1%R).
Proof.
  intros Bd h n nd y z size dtype sz dt a sc HBd Hg Hn Hy Hrv Hf.
  destruct (gamma_poisson_pair Bd h n nd y z size dtype sz dt a sc HBd Hg Hn Hy Hrv Hf) as (h' & post & a' & sc' & H1 & H2 & H3 & H4).
  exists h', post, a', sc'. split; [exact H1|]. split; [exact H2|]. split; [exact H3|].
  intros scalar other cval ld rho V others s test w B Hops Hld Hold Hperm Hnd Hu HB Hm Ha Hx.
  assert (HzV : z ∈ V) by (rewrite Hperm; by left).
  set (St := fun x => exists Av Sv cy, fits s Av /\ fits s Sv /\ (forall i, in_range s i -> (0 < bval Sv i)%R) /\
          tensor_ok (x y) /\ t_shape (x y) = s /\ counts s (x y) cy /\
          forall t, array_in pos_reals s (t z) ->
            density_at scalar other cval ld h rho V w (put [z] t x) /\
            let env := over (on V (put [z] t x)) rho in
            has_value Bd scalar other cval h env a Av /\ has_value Bd scalar other cval h env sc Sv /\
            has_value Bd scalar other cval h env y (x y) /\
            forall Av' Sv', has_value Bd scalar other cval h' env a' Av' -> has_value Bd scalar other cval h' env sc' Sv' ->
              draws_from z test B (put [z] t x) (fun v => gamma_array s Av' Sv' (bval v)) /\
              tells_apart z (array_in pos_reals s) test w B x (fun v => gamma_array s Av' Sv' (bval v))).
  assert (Hone : forall x Av Sv cy t, fits s Av -> fits s Sv -> (forall i, in_range s i -> (0 < bval Sv i)%R) ->
    tensor_ok (x y) -> t_shape (x y) = s -> counts s (x y) cy -> density_at scalar other cval ld h rho V w (put [z] t x) ->
    let env := over (on V (put [z] t x)) rho in
    has_value Bd scalar other cval h env a Av -> has_value Bd scalar other cval h env sc Sv -> has_value Bd scalar other cval h env y (x y) ->
    exists Av' Sv', has_value Bd scalar other cval h' env a' Av' /\ has_value Bd scalar other cval h' env sc' Sv' /\
      (forall i, in_range s i -> bval Av' i = bval Av i + bval (x y) i /\ bval Sv' i = 1 / (bval Sv i + 1))%R /\
      (full_conditional scalar other cval ld h rho V (on V (put [z] t x)) z (array_in pos_reals s) (fun v => gamma_array s Av' Sv' (bval v)) <->
       forall i, in_range s i -> bval Sv i = 1%R)).
  { intros x Av Sv cy t F1 F2 F3 F4 F5 F6 (l0 & Hj & _) env E1 E2 E3.
    assert (HV : forall v, is_Some (on V (put [z] t x) v) <-> v ∈ V).
    { intros v. unfold on. case_decide as Hv; split; [done|by eexists| |done]. by intros [? ?]. }
    exact (H4 scalar other cval ld rho (on V (put [z] t x)) V others l0 s Av Sv (x y) cy Hops Hld Hold HV Hperm Hnd Hj Hu E1 F1 E2 F2 F3 E3 F4 F5 F6). }
  assert (Hi : exists t, array_in pos_reals s t).
  { destruct (array_of pos_reals s (fun _ => 1%R)) as (t & Ht & _); [intros i _; unfold pos_reals; lra|]. by exists t. }
  pose (right := fun x : vid -> tensor R => forall t Sv, array_in pos_reals s (t z) ->
    has_value Bd scalar other cval h (over (on V (put [z] t x)) rho) sc Sv -> forall i, in_range s i -> bval Sv i = 1%R).
  transitivity (forall x, St x -> right x).
  - apply (family_iff scalar other cval ld h rho V z (array_in pos_reals s) HzV test w B HB Hm Ha St
      (fun x t A C => has_value Bd scalar other cval h' (over (on V (put [z] t x)) rho) a' A /\ has_value Bd scalar other cval h' (over (on V (put [z] t x)) rho) sc' C)
      (fun A C v => gamma_array s A C (bval v)) right Hi Hx).
    + intros x t (Av & Sv & cy & F1 & F2 & F3 & F4 & F5 & F6 & F7) Ht. destruct (F7 t Ht) as (G1 & G2 & G3 & G4 & _). split; [exact G1|].
      destruct (Hone x Av Sv cy t F1 F2 F3 F4 F5 F6 G1 G2 G3 G4) as (A & C & W1 & W2 & _ & W4).
      exists A, C. split; [by split|]. rewrite W4. split.
      * intros E t' Sv' Ht' Hv i Hir. destruct (F7 t' Ht') as (_ & _ & G3' & _).
        rewrite (evals_det _ _ _ _ _ _ _ (proj1 Hv) (proj1 G3')). by apply E.
      * intros E. exact (E t Sv Ht G3).
    + intros x t A C (Av & Sv & cy & F1 & F2 & F3 & F4 & F5 & F6 & F7) Ht [W1 W2]. destruct (F7 t Ht) as (_ & _ & _ & _ & G5). by apply G5.
    + intros A C v. pose proof (gamma_array_pos s A C (bval v)). lra.
    + intros x t t' A C A' C' (Av & Sv & cy & F1 & F2 & F3 & F4 & F5 & F6 & F7) Ht Ht' [W1 W2] [W1' W2'].
      destruct (F7 t Ht) as (G1 & G2 & G3 & G4 & _). destruct (F7 t' Ht') as (G1' & G2' & G3' & G4' & _).
      destruct (Hone x Av Sv cy t F1 F2 F3 F4 F5 F6 G1 G2 G3 G4) as (A1 & C1 & U1 & U2 & U3 & _).
      destruct (Hone x Av Sv cy t' F1 F2 F3 F4 F5 F6 G1' G2' G3' G4') as (A2 & C2 & U1' & U2' & U3' & _).
      rewrite (evals_det _ _ _ _ _ _ _ (proj1 W1) (proj1 U1)), (evals_det _ _ _ _ _ _ _ (proj1 W2) (proj1 U2)),
        (evals_det _ _ _ _ _ _ _ (proj1 W1') (proj1 U1')), (evals_det _ _ _ _ _ _ _ (proj1 W2') (proj1 U2')).
      apply functional_extensionality. intros v. apply product_over_ext. intros i Hir.
      destruct (U3 i Hir) as [-> ->]. by destruct (U3' i Hir) as [-> ->].
  - split.
    + intros H x Sv Hxz Hw Hv. destruct (Hx x) as [H0|Hs].
      * destruct Hw. rewrite <- (put_self [z] x). by apply H0.
      * apply (H x Hs x Sv Hxz). by rewrite put_self.
    + intros H x Hs t Sv Ht Hv. apply (H (put [z] t x) Sv); [rewrite put_in by (by left); exact Ht| |exact Hv].
      destruct Hs as (? & ? & ? & _ & _ & _ & _ & _ & _ & F7). destruct (F7 t Ht) as ((l & _ & ->) & _). pose proof (exp_pos l). lra.
Qed.
Print Assumptions C57_gamma_poisson_step_iff.

(** ** The beta-negative-binomial step leaves the conditional of its variable invariant exactly
    when all the observations equal their n. *)
Theorem C57_beta_nb_step_iff :
  forall (Bd : builder) h n nd y nn p size dtype sz dt a b,
    builder_ok Bd -> good_heap h -> hn h n = Some nd -> n_outs nd !! 1 = Some y ->
    rv_full h y RV_nbinom sz dt [nn; p] -> rv_full h p RV_beta size dtype [a; b] ->
    exists h' post a' b',
      local_beta_negative_binomial_posterior Bd h n = (h', Ok [(p, post, [])]) /\
      extends h h' /\ rv_full h' post RV_beta size dtype [a'; b'] /\
      forall scalar other cval ld rho V others s test w B,
        real_ops Bd scalar cval -> log_densities ld -> gives_old h rho ->
        V ≡ₚ p :: y :: others -> NoDup V -> only_used_by h V p y ->
        b_vars B = [p] -> measure_on p (array_in unit_interval s) (b_own B) -> additive (b_own B) ->
        (forall x, (forall t, array_in unit_interval s (t p) -> w (put [p] t x) = 0%R) \/
          exists Av Bv Nv cy, fits s Av /\ fits s Bv /\ fits s Nv /\ (forall i, in_range s i -> (0 < bval Nv i)%R) /\
          tensor_ok (x y) /\ t_shape (x y) = s /\ counts s (x y) cy /\
          forall t, array_in unit_interval s (t p) ->
            density_at scalar other cval ld h rho V w (put [p] t x) /\
            let env := over (on V (put [p] t x)) rho in
            has_value Bd scalar other cval h env a Av /\ has_value Bd scalar other cval h env b Bv /\
            has_value Bd scalar other cval h env nn Nv /\
            has_value Bd scalar other cval h env y (x y) /\
            forall Av' Bv', has_value Bd scalar other cval h' env a' Av' -> has_value Bd scalar other cval h' env b' Bv' ->
              draws_from p test B (put [p] t x) (fun v => beta_array s Av' Bv' (bval v)) /\
              tells_apart p (array_in unit_interval s) test w B x (fun v => beta_array s Av' Bv' (bval v))) ->
        (keeps_conditional test w B <->
         forall x Nv, array_in unit_interval s (x p) -> w x <> 0%R ->
           has_value Bd scalar other cval h (over (on V x) rho) nn Nv -> forall i, in_range s i -> bval Nv i = bval (x y) i).
Proof.
  intros Bd h n nd y nn p size dtype sz dt a b HBd Hg Hn Hy Hrv Hf.
  destruct (beta_nb_pair Bd h n nd y nn p size dtype sz dt a b HBd Hg Hn Hy Hrv Hf) as (h' & post & a' & b' & H1 & H2 & H3 & H4).
  exists h', post, a', b'. split; [exact H1|]. split; [exact H2|]. split; [exact H3|].
  intros scalar other cval ld rho V others s test w B Hops Hld Hold Hperm Hnd Hu HB Hm Ha Hx.
  assert (HpV : p ∈ V) by (rewrite Hperm; by left).
  set (St := fun x => exists Av Bv Nv cy, fits s Av /\ fits s Bv /\ fits s Nv /\ (forall i, in_range s i -> (0 < bval Nv i)%R) /\
          tensor_ok (x y) /\ t_shape (x y) = s /\ counts s (x y) cy /\
          forall t, array_in unit_interval s (t p) ->
            density_at scalar other cval ld h rho V w (put [p] t x) /\
            let env := over (on V (put [p] t x)) rho in
            has_value Bd scalar other cval h env a Av /\ has_value Bd scalar other cval h env b Bv /\
            has_value Bd scalar other cval h env nn Nv /\
            has_value Bd scalar other cval h env y (x y) /\
            forall Av' Bv', has_value Bd scalar other cval h' env a' Av' -> has_value Bd scalar other cval h' env b' Bv' ->
              draws_from p test B (put [p] t x) (fun v => beta_array s Av' Bv' (bval v)) /\
              tells_apart p (array_in unit_interval s) test w B x (fun v => beta_array s Av' Bv' (bval v))).
  assert (Hone : forall x Av Bv Nv cy t, fits s Av -> fits s Bv -> fits s Nv -> (forall i, in_range s i -> (0 < bval Nv i)%R) ->
    tensor_ok (x y) -> t_shape (x y) = s -> counts s (x y) cy -> density_at scalar other cval ld h rho V w (put [p] t x) ->
    let env := over (on V (put [p] t x)) rho in
    has_value Bd scalar other cval h env a Av -> has_value Bd scalar other cval h env b Bv -> has_value Bd scalar other cval h env nn Nv -> has_value Bd scalar other cval h env y (x y) ->
    exists Av' Bv', has_value Bd scalar other cval h' env a' Av' /\ has_value Bd scalar other cval h' env b' Bv' /\
      (forall i, in_range s i -> bval Av' i = bval Av i + bval (x y) i /\ bval Bv' i = bval Bv i + bval Nv i)%R /\
      (full_conditional scalar other cval ld h rho V (on V (put [p] t x)) p (array_in unit_interval s) (fun v => beta_array s Av' Bv' (bval v)) <->
       forall i, in_range s i -> bval Nv i = bval (x y) i)).
  { intros x Av Bv Nv cy t F1 F2 F2' F3 F4 F5 F6 (l0 & Hj & _) env E1 E2 E2' E3.
    assert (HV : forall v, is_Some (on V (put [p] t x) v) <-> v ∈ V).
    { intros v. unfold on. case_decide as Hv; split; [done|by eexists| |done]. by intros [? ?]. }
    exact (H4 scalar other cval ld rho (on V (put [p] t x)) V others l0 s Av Bv Nv (x y) cy Hops Hld Hold HV Hperm Hnd Hj Hu E1 F1 E2 F2 E2' F2' F3 E3 F4 F5 F6). }
  assert (Hi : exists t, array_in unit_interval s t).
  { destruct (array_of unit_interval s (fun _ => (/ 2)%R)) as (t & Ht & _); [intros i _; apply half_unit|]. by exists t. }
  pose (right := fun x : vid -> tensor R => forall t Nv, array_in unit_interval s (t p) ->
    has_value Bd scalar other cval h (over (on V (put [p] t x)) rho) nn Nv -> forall i, in_range s i -> bval Nv i = bval (x y) i).
  transitivity (forall x, St x -> right x).
  - apply (family_iff scalar other cval ld h rho V p (array_in unit_interval s) HpV test w B HB Hm Ha St
      (fun x t A C => has_value Bd scalar other cval h' (over (on V (put [p] t x)) rho) a' A /\ has_value Bd scalar other cval h' (over (on V (put [p] t x)) rho) b' C)
      (fun A C v => beta_array s A C (bval v)) right Hi Hx).
    + intros x t (Av & Bv & Nv & cy & F1 & F2 & F2' & F3 & F4 & F5 & F6 & F7) Ht. destruct (F7 t Ht) as (G1 & G2 & G3 & G3n & G4 & _). split; [exact G1|].
      destruct (Hone x Av Bv Nv cy t F1 F2 F2' F3 F4 F5 F6 G1 G2 G3 G3n G4) as (A & C & W1 & W2 & _ & W4).
      exists A, C. split; [by split|]. rewrite W4. split.
      * intros E t' Nv' Ht' Hv i Hir. destruct (F7 t' Ht') as (_ & _ & _ & G3' & _).
        rewrite (evals_det _ _ _ _ _ _ _ (proj1 Hv) (proj1 G3')). by apply E.
      * intros E. exact (E t Nv Ht G3n).
    + intros x t A C (Av & Bv & Nv & cy & F1 & F2 & F2' & F3 & F4 & F5 & F6 & F7) Ht [W1 W2]. destruct (F7 t Ht) as (_ & _ & _ & _ & _ & G5). by apply G5.
    + intros A C v. pose proof (beta_array_pos s A C (bval v)). lra.
    + intros x t t' A C A' C' (Av & Bv & Nv & cy & F1 & F2 & F2' & F3 & F4 & F5 & F6 & F7) Ht Ht' [W1 W2] [W1' W2'].
      destruct (F7 t Ht) as (G1 & G2 & G3 & G3n & G4 & _). destruct (F7 t' Ht') as (G1' & G2' & G3' & G3n' & G4' & _).
      destruct (Hone x Av Bv Nv cy t F1 F2 F2' F3 F4 F5 F6 G1 G2 G3 G3n G4) as (A1 & C1 & U1 & U2 & U3 & _).
      destruct (Hone x Av Bv Nv cy t' F1 F2 F2' F3 F4 F5 F6 G1' G2' G3' G3n' G4') as (A2 & C2 & U1' & U2' & U3' & _).
      rewrite (evals_det _ _ _ _ _ _ _ (proj1 W1) (proj1 U1)), (evals_det _ _ _ _ _ _ _ (proj1 W2) (proj1 U2)),
        (evals_det _ _ _ _ _ _ _ (proj1 W1') (proj1 U1')), (evals_det _ _ _ _ _ _ _ (proj1 W2') (proj1 U2')).
      apply functional_extensionality. intros v. apply product_over_ext. intros i Hir.
      destruct (U3 i Hir) as [-> ->]. by destruct (U3' i Hir) as [-> ->].
  - split.
    + intros H x Nv Hxp Hw Hv. destruct (Hx x) as [H0|Hs].
      * destruct Hw. rewrite <- (put_self [p] x). by apply H0.
      * apply (H x Hs x Nv Hxp). by rewrite put_self.
    + intros H x Hs t Nv Ht Hv i Hir. assert (Hyp : y <> p).
      { intros ->. rewrite Hperm in Hnd. apply NoDup_cons in Hnd as [Hnd _]. apply Hnd. by left. }
      rewrite <- (put_out [p] t x y) by (by intros ?%elem_of_list_singleton).
      apply (H (put [p] t x) Nv); [rewrite put_in by (by left); exact Ht| |exact Hv|exact Hir].
      destruct Hs as (? & ? & ? & ? & _ & _ & _ & _ & _ & _ & _ & F7). destruct (F7 t Ht) as ((l & _ & ->) & _). pose proof (exp_pos l). lra.
Qed.
Print Assumptions C57_beta_nb_step_iff.

(** ** An example: p ~ Beta(1, 1), Y ~ Binomial(5, p) is 2, and p takes the values 1/4 and 3/4.
    The step draws p from Beta(3, 4) restricted to these values. *)
Definition xb_h : heap := sp_h RV_beta RV_binomial [5] [12].
Definition xb_rho : vid -> option (tensor R) := sp_rho 1 1 5 3.
Definition xb_y : tensor R := Tensor [] [INR 2].
Definition xb_own : law (vid -> tensor R) := fun f => (f (fun _ => Tensor [] [/ 4]) + f (fun _ => Tensor [] [3 / 4]))%R.
Definition xb_dens (t : tensor R) : R := beta_array [] (Tensor [] [1 + INR 2]%R) (Tensor [] [1 + 5 - INR 2]%R) (bval t).
Definition xb_seed : law (vid -> tensor R) := fun f => (xb_own (fun e => xb_dens (e 7%nat) * f e) / xb_own (fun e => xb_dens (e 7%nat)))%R.
Definition xb_B : step_block (tensor R) := StepBlock [7] [18] xb_seed (fun _ e _ => e 7) xb_own (fun f => f (fun _ => xb_y)).
Definition xb_is_y (t : tensor R) : {t = xb_y} + {t <> xb_y}.
Proof. destruct t as [s d]. destruct (decide (s = [])) as [Hs|Hs], (List.list_eq_dec Req_EM_T d [INR 2]) as [Hd|Hd]; [left; by rewrite Hs, Hd|right..]; by intros [= ? ?]. Defined.
(** the joint density of p and Y where Y is the observed value *)
Definition xb_w (x : vid -> tensor R) : R :=
  if xb_is_y (x 9) then
    exp (sp_ld RV_beta [sp_cval 1; sp_cval 2; Tensor [] [1%R]; Tensor [] [1%R]] (x 7) +
         (sp_ld RV_binomial [sp_cval 1; sp_cval 2; Tensor [] [5%R]; x 7] xb_y + 0))
  else 0%R.

Lemma xb_unit r : (0 < r < 1)%R -> array_in unit_interval [] (Tensor [] [r]).
Proof. intros Hr. split; [done|]. split; [done|]. intros i _. exact Hr. Qed.
Lemma xb_scalar t : array_in unit_interval [] t -> exists r, t = Tensor [] [r] /\ (0 < r < 1)%R.
Proof.
  intros (Hok & Hs & Hi). destruct t as [s d]. cbn in Hs. subst s. unfold tensor_ok in Hok. cbn in Hok.
  destruct d as [|r [|]]; try done. exists r. split; [done|]. apply (Hi []). constructor.
Qed.
Lemma xb_measure : measure_on 7 (array_in unit_interval []) xb_own.
Proof.
  constructor; unfold xb_own.
  - intros a c. ring.
  - intros f f' Hf. rewrite !Hf; [done|apply xb_unit; lra..].
Qed.
Lemma xb_on x r : x 9 = xb_y -> on (sp_V false) (put [7] (fun _ => Tensor [] [r]) x) = sp_sigma false r (INR 2) (INR 1).
Proof.
  intros Hx. apply functional_extensionality. intros u. unfold on, put, sp_sigma.
  do 15 (destruct u as [|u]; [first [reflexivity|rewrite decide_True by (right; left); cbn; by rewrite Hx]|]). 
  rewrite decide_False; [done|]. rewrite elem_of_list_In. cbn. lia.
Qed.

Definition xb_p : heap * outcome := local_beta_binomial_posterior sp_B xb_h 21.
Section xb_values.
  Context (r : R).
  Notation env := (over (sp_sigma false r (INR 2) (INR 1)) xb_rho).
  Notation EV := (evals (tensor_base sp_scalar (fun _ _ => None)) sp_cval xb_p.1 env).
  Lemma xb_alpha : EV 15 (Tensor [] [1 + INR 2]%R).
  Proof.
    apply (ev_node _ _ _ _ 15 23 0 (Node (OElem 0) [3; 9] [15]) [Tensor [] [1%R]; xb_y] [Tensor [] [1 + INR 2]%R]);
      [reflexivity|vm_compute; reflexivity|vm_compute; reflexivity| |reflexivity|reflexivity].
    cbn [n_ins]. repeat (apply List.Forall2_cons; [apply ev_given; reflexivity|]). apply List.Forall2_nil.
  Qed.
  Lemma xb_beta0 : EV 16 (Tensor [] [1 + 5]%R).
  Proof.
    apply (ev_node _ _ _ _ 16 24 0 (Node (OElem 0) [4; 5] [16]) [Tensor [] [1%R]; Tensor [] [5%R]] [Tensor [] [1 + 5]%R]);
      [reflexivity|vm_compute; reflexivity|vm_compute; reflexivity| |reflexivity|reflexivity].
    cbn [n_ins]. repeat (apply List.Forall2_cons; [apply ev_given; reflexivity|]). apply List.Forall2_nil.
  Qed.
  Lemma xb_beta : EV 17 (Tensor [] [1 + 5 - INR 2]%R).
  Proof.
    apply (ev_node _ _ _ _ 17 25 0 (Node (OElem 2) [16; 9] [17]) [Tensor [] [1 + 5]%R; xb_y] [Tensor [] [1 + 5 - INR 2]%R]);
      [reflexivity|vm_compute; reflexivity|vm_compute; reflexivity| |reflexivity|reflexivity].
    cbn [n_ins]. apply List.Forall2_cons; [apply xb_beta0|]. apply List.Forall2_cons; [apply ev_given; reflexivity|]. apply List.Forall2_nil.
  Qed.
End xb_values.

Lemma xb_density x r : x 9 = xb_y -> (0 < r < 1)%R ->
  density_at sp_scalar (fun _ _ => None) sp_cval sp_ld xb_h xb_rho (sp_V false) xb_w (put [7] (fun _ => Tensor [] [r]) x).
Proof.
  intros Hx Hr. eexists. split.
  - rewrite (xb_on x r Hx). eexists [_; _]. split; [|reflexivity].
    apply List.Forall2_cons; [|apply List.Forall2_cons; [|apply List.Forall2_nil]].
    + eapply factor_given; [apply sp_prior|reflexivity| |reflexivity]. apply evals_list_Forall2.
      apply List.Forall2_cons; [apply sp_const1|]. apply List.Forall2_cons; [apply sp_const2|].
      repeat (apply List.Forall2_cons; [apply ev_given; reflexivity|]). apply List.Forall2_nil.
    + eapply factor_given; [apply (sp_obs _ _ [5] [12])|reflexivity| |reflexivity]. apply evals_list_Forall2.
      apply List.Forall2_cons; [apply sp_const1|]. apply List.Forall2_cons; [apply sp_const2|].
      repeat (apply List.Forall2_cons; [apply ev_given; reflexivity|]). apply List.Forall2_nil.
  - unfold xb_w. change (put [7] (fun _ => Tensor [] [r]) x 9) with (x 9). change (put [7] (fun _ => Tensor [] [r]) x 7) with (Tensor [] [r]).
    rewrite Hx. destruct (xb_is_y xb_y) as [_|N]; [|by destruct N]. reflexivity.
Qed.

Lemma xb_put (t x : vid -> tensor R) r : t 7 = Tensor [] [r] -> put [7] t x = put [7] (fun _ => Tensor [] [r]) x.
Proof. intros Ht. apply functional_extensionality. intros u. unfold put. case_decide as Hu; [|done]. by apply elem_of_list_singleton in Hu as ->. Qed.

Lemma xb_run : local_beta_binomial_posterior sp_B xb_h 21 = (xb_p.1, Ok [(7, 20, [])]).
Proof.
  assert (Er : xb_p.2 = Ok [(7, 20, [])]) by (vm_compute; reflexivity).
  rewrite <- Er. change (local_beta_binomial_posterior sp_B xb_h 21) with xb_p. exact (surjective_pairing xb_p).
Qed.
Lemma xb_params a' b' : rv_full xb_p.1 20 RV_beta 1 2 [a'; b'] -> a' = 15 /\ b' = 17.
Proof.
  intros (n' & nd' & r & Ho' & Hn' & _ & Hi' & _).
  assert (E0 : owner xb_p.1 20 = Some (26, 1)) by (vm_compute; reflexivity).
  pose proof (eq_trans (eq_sym Ho') E0) as E1. injection E1 as ->.
  assert (E2 : hn xb_p.1 26 = Some (Node (ORV 3) [18; 1; 2; 15; 17] [19; 20])) by (vm_compute; reflexivity).
  pose proof (eq_trans (eq_sym Hn') E2) as E3. injection E3 as ->. cbn in Hi'. clear - Hi'. injection Hi' as _ -> ->. split; reflexivity.
Qed.

Lemma xb_dens_pos t : (0 < xb_dens t)%R.
Proof. apply beta_array_pos. Qed.
Lemma xb_draws x : draws_from 7 (fun _ => True) xb_B x (fun v => beta_array [] (Tensor [] [1 + INR 2]%R) (Tensor [] [1 + 5 - INR 2]%R) (bval v)).
Proof.
  change (draws_from 7 (fun _ => True) xb_B x xb_dens). split.
  - cbn [b_own xb_B]. unfold xb_own. apply Rgt_not_eq, Rplus_lt_0_compat; apply xb_dens_pos.
  - intros g _. unfold kernel. cbn [b_own b_seed b_vars b_step xb_B]. unfold xb_seed, xb_own. reflexivity.
Qed.
Lemma xb_vals r : let env := over (sp_sigma false r (INR 2) (INR 1)) xb_rho in
  exists Av Bv Nv cn cy,
    has_value sp_B sp_scalar (fun _ _ => None) sp_cval xb_h env 3 Av /\ fits [] Av /\
    has_value sp_B sp_scalar (fun _ _ => None) sp_cval xb_h env 4 Bv /\ fits [] Bv /\
    has_value sp_B sp_scalar (fun _ _ => None) sp_cval xb_h env 5 Nv /\ fits [] Nv /\ counts [] Nv cn /\
    has_value sp_B sp_scalar (fun _ _ => None) sp_cval xb_h env 9 xb_y /\ tensor_ok xb_y /\ t_shape xb_y = [] /\ counts [] xb_y cy /\
    forall i, in_range [] i -> cy i <= cn i.
Proof.
  intros env. exists (Tensor [] [1%R]), (Tensor [] [1%R]), (Tensor [] [5%R]), (fun _ => 5), (fun _ => 2).
  split; [apply sp_value; reflexivity|]. split; [apply fits_scalar|]. split; [apply sp_value; reflexivity|].
  split; [apply fits_scalar|]. split; [apply sp_value; reflexivity|]. split; [apply fits_scalar|].
  split; [intros i _; rewrite bget_scalar; f_equal; cbn; lra|].
  split; [apply sp_value; reflexivity|]. split; [reflexivity|]. split; [reflexivity|].
  split; [intros i _; exact (bget_scalar _ _)|]. intros i _. lia.
Qed.

Example C57_beta_binomial_example :
  local_beta_binomial_posterior sp_B xb_h 21 = (xb_p.1, Ok [(7, 20, [])]) /\
  keeps_conditional (fun _ => True) xb_w xb_B.
Proof.
  destruct (C57_beta_binomial_step_keeps_the_conditional sp_B xb_h 21 _ 9 5 7 1 2 1 2 3 4 sp_builder (sp_good _ _ _ _ (or_intror eq_refl) (or_intror eq_refl))
    eq_refl eq_refl (sp_obs _ _ [5] [12]) (sp_prior _ _ [5] [12])) as (h' & post & a' & b' & H1 & _ & H3 & H4).
  assert (E : local_beta_binomial_posterior sp_B xb_h 21 = (xb_p.1, Ok [(7, 20, [])])) by exact xb_run.
  split; [exact E|].
  assert (Hinj : forall (g g' : heap) (o o' : outcome), (g, o) = (g', o') -> g = g' /\ o = o') by (clear; intros ????; by injection 1).
  destruct (Hinj _ _ _ _ (eq_trans (eq_sym H1) E)) as [Eh Ep]. assert (Hp : post = 20) by (clear - Ep; by injection Ep).
  clear Ep. subst post. subst h'.
  assert (Hab : a' = 15 /\ b' = 17) by (exact (xb_params a' b' H3)).
  destruct Hab as [-> ->]. clear H1 H3 E.
  apply (H4 sp_scalar (fun _ _ => None) sp_cval sp_ld xb_rho (sp_V false) [] []); clear H4.
  - apply sp_ops.
  - apply sp_densities.
  - apply sp_old.
  - reflexivity.
  - apply NoDup_cons. split; [rewrite elem_of_list_singleton; lia|]. apply NoDup_singleton.
  - apply sp_only. by right.
  - reflexivity.
  - apply xb_measure.
  - intros x. destruct (xb_is_y (x 9)) as [Hx|Hx].
    + right. intros t Ht. destruct (xb_scalar _ Ht) as (r & Hr & Hu). rewrite (xb_put t x r Hr).
      split; [by apply xb_density|]. rewrite (xb_on x r Hx). cbv zeta. split.
      * rewrite Hx. apply xb_vals.
      * intros Av' Bv' [HA _] [HB _].
        rewrite (evals_det _ _ _ _ _ _ _ HA (xb_alpha r)), (evals_det _ _ _ _ _ _ _ HB (xb_beta r)).
        apply xb_draws.
    + left. intros t _. unfold xb_w. change (put [7] t x 9) with (x 9). destruct (xb_is_y (x 9)); [done|reflexivity].
Qed.

(** ** An example: z ~ Gamma(1, scale), Y ~ Poisson(z) is 2, and z takes the values 1 and 2.  The
    step draws z from Gamma(3, 1 / (scale + 1)) restricted to these values. *)
Definition xg_h : heap := sp_h RV_gamma RV_poisson [] [].
Section xg.
  Context (scale : R).
  Hypothesis Hscale : (0 < scale)%R.
  Definition xg_rho : vid -> option (tensor R) := sp_rho 1 scale 5 3.
  Definition xg_own : law (vid -> tensor R) := fun f => (f (fun _ => Tensor [] [1%R]) + f (fun _ => Tensor [] [2%R]))%R.
  Definition xg_dens (t : tensor R) : R := gamma_array [] (Tensor [] [1 + INR 2]%R) (Tensor [] [1 / (scale + 1)]%R) (bval t).
  Definition xg_seed : law (vid -> tensor R) := fun f => (xg_own (fun e => xg_dens (e 7%nat) * f e) / xg_own (fun e => xg_dens (e 7%nat)))%R.
  Definition xg_B : step_block (tensor R) := StepBlock [7] [20] xg_seed (fun _ e _ => e 7) xg_own (fun f => f (fun _ => xb_y)).
  Definition xg_w (x : vid -> tensor R) : R :=
    if xb_is_y (x 9) then
      exp (sp_ld RV_gamma [sp_cval 1; sp_cval 2; Tensor [] [1%R]; Tensor [] [scale]] (x 7) +
           (sp_ld RV_poisson [sp_cval 1; sp_cval 2; x 7] xb_y + 0))
    else 0%R.

  Lemma xg_pos r : (0 < r)%R -> array_in pos_reals [] (Tensor [] [r]).
  Proof. intros Hr. split; [done|]. split; [done|]. intros i _. exact Hr. Qed.
  Lemma xg_scalar t : array_in pos_reals [] t -> exists r, t = Tensor [] [r] /\ (0 < r)%R.
  Proof.
    intros (Hok & Hs & Hi). destruct t as [s d]. cbn in Hs. subst s. unfold tensor_ok in Hok. cbn in Hok.
    destruct d as [|r [|]]; try done. exists r. split; [done|]. apply (Hi []). constructor.
  Qed.
  Lemma xg_measure : measure_on 7 (array_in pos_reals []) xg_own.
  Proof.
    constructor; unfold xg_own.
    - intros a c. ring.
    - intros f f' Hf. rewrite !Hf; [done|apply xg_pos; lra..].
  Qed.
  Definition xg_p : heap * outcome := local_gamma_poisson_posterior sp_B xg_h 21.
  Section xg_values.
    Context (r : R).
    Notation env := (over (sp_sigma false r (INR 2) (INR 1)) xg_rho).
    Notation EV := (evals (tensor_base sp_scalar (fun _ _ => None)) sp_cval xg_p.1 env).
    Lemma xg_alpha : EV 15 (Tensor [] [1 + INR 2]%R).
    Proof.
      apply (ev_node _ _ _ _ 15 23 0 (Node (OElem 0) [3; 9] [15]) [Tensor [] [1%R]; xb_y] [Tensor [] [1 + INR 2]%R]);
        [reflexivity|vm_compute; reflexivity|vm_compute; reflexivity| |reflexivity|reflexivity].
      cbn [n_ins]. repeat (apply List.Forall2_cons; [apply ev_given; reflexivity|]). apply List.Forall2_nil.
    Qed.
    Lemma xg_one v c w : env v = None -> hv xg_p.1 v = Some w -> v_owner w = None -> v_kind w = KConst c -> decode_nat c = Some 1%Z -> EV v (Tensor [] [1%R]).
    Proof.
      intros Hv Hw Ho Hk Hc. assert (E : Tensor [] [1%R] = sp_cval c) by (unfold sp_cval; by rewrite Hc).
      rewrite E. by eapply ev_const.
    Qed.
    Lemma xg_rate : EV 17 (Tensor [] [scale + 1]%R).
    Proof.
      apply (ev_node _ _ _ _ 17 24 0 (Node (OElem 0) [4; 16] [17]) [Tensor [] [scale]; Tensor [] [1%R]] [Tensor [] [scale + 1]%R]);
        [reflexivity|vm_compute; reflexivity|vm_compute; reflexivity| |reflexivity|reflexivity].
      cbn [n_ins]. apply List.Forall2_cons; [apply ev_given; reflexivity|].
      apply List.Forall2_cons; [eapply xg_one; [reflexivity|vm_compute; reflexivity|reflexivity|reflexivity|vm_compute; reflexivity]|]. apply List.Forall2_nil.
    Qed.
    Lemma xg_scl : EV 19 (Tensor [] [1 / (scale + 1)]%R).
    Proof.
      apply (ev_node _ _ _ _ 19 25 0 (Node (OElem 4) [18; 17] [19]) [Tensor [] [1%R]; Tensor [] [scale + 1]%R] [Tensor [] [1 / (scale + 1)]%R]);
        [reflexivity|vm_compute; reflexivity|vm_compute; reflexivity| |reflexivity|reflexivity].
      cbn [n_ins]. apply List.Forall2_cons; [eapply xg_one; [reflexivity|vm_compute; reflexivity|reflexivity|reflexivity|vm_compute; reflexivity]|].
      apply List.Forall2_cons; [apply xg_rate|]. apply List.Forall2_nil.
    Qed.
  End xg_values.

  Lemma xg_density x r : x 9 = xb_y ->
    density_at sp_scalar (fun _ _ => None) sp_cval sp_ld xg_h xg_rho (sp_V false) xg_w (put [7] (fun _ => Tensor [] [r]) x).
  Proof.
    intros Hx. eexists. split.
    - rewrite (xb_on x r Hx). eexists [_; _]. split; [|reflexivity].
      apply List.Forall2_cons; [|apply List.Forall2_cons; [|apply List.Forall2_nil]].
      + eapply factor_given; [apply sp_prior|reflexivity| |reflexivity]. apply evals_list_Forall2.
        apply List.Forall2_cons; [apply sp_const1|]. apply List.Forall2_cons; [apply sp_const2|].
        repeat (apply List.Forall2_cons; [apply ev_given; reflexivity|]). apply List.Forall2_nil.
      + eapply factor_given; [apply (sp_obs _ _ [] [])|reflexivity| |reflexivity]. apply evals_list_Forall2.
        apply List.Forall2_cons; [apply sp_const1|]. apply List.Forall2_cons; [apply sp_const2|].
        repeat (apply List.Forall2_cons; [apply ev_given; reflexivity|]). apply List.Forall2_nil.
    - unfold xg_w. change (put [7] (fun _ => Tensor [] [r]) x 9) with (x 9). change (put [7] (fun _ => Tensor [] [r]) x 7) with (Tensor [] [r]).
      rewrite Hx. destruct (xb_is_y xb_y) as [_|N]; [|by destruct N]. reflexivity.
  Qed.
  Lemma xg_run : local_gamma_poisson_posterior sp_B xg_h 21 = (xg_p.1, Ok [(7, 22, [])]).
  Proof.
    assert (Er : xg_p.2 = Ok [(7, 22, [])]) by (vm_compute; reflexivity).
    rewrite <- Er. change (local_gamma_poisson_posterior sp_B xg_h 21) with xg_p. exact (surjective_pairing xg_p).
  Qed.
  Lemma xg_params a' b' : rv_full xg_p.1 22 RV_gamma 1 2 [a'; b'] -> a' = 15 /\ b' = 19.
  Proof.
    intros (n' & nd' & r & Ho' & Hn' & _ & Hi' & _).
    assert (E0 : owner xg_p.1 22 = Some (26, 1)) by (vm_compute; reflexivity).
    pose proof (eq_trans (eq_sym Ho') E0) as E1. injection E1 as ->.
    assert (E2 : hn xg_p.1 26 = Some (Node (ORV 2) [20; 1; 2; 15; 19] [21; 22])) by (vm_compute; reflexivity).
    pose proof (eq_trans (eq_sym Hn') E2) as E3. injection E3 as ->. cbn in Hi'. clear - Hi'. injection Hi' as _ -> ->. split; reflexivity.
  Qed.
  Lemma xg_dens_pos t : (0 < xg_dens t)%R.
  Proof. apply gamma_array_pos. Qed.
  Lemma xg_draws x : draws_from 7 (fun _ => True) xg_B x xg_dens.
  Proof.
    split.
    - cbn [b_own xg_B]. unfold xg_own. apply Rgt_not_eq, Rplus_lt_0_compat; apply xg_dens_pos.
    - intros g _. unfold kernel. cbn [b_own b_seed b_vars b_step xg_B]. unfold xg_seed, xg_own. reflexivity.
  Qed.

  (** the quotient of the two densities *)
  Definition xg_k : R := (scale - / scale)%R.
  Lemma xg_quotient x r : x 9 = xb_y -> (0 < r)%R ->
    xg_dens (Tensor [] [r]) = (2 * exp (- (xg_k * r)) * xg_w (put [7%nat] (fun _ => Tensor [] [r]) x))%R.
  Proof.
    intros Hx Hr. unfold xg_w. change (put [7] (fun _ => Tensor [] [r]) x 9) with (x 9). change (put [7] (fun _ => Tensor [] [r]) x 7) with (Tensor [] [r]).
    rewrite Hx. destruct (xb_is_y xb_y) as [_|N]; [|by destruct N].
    assert (E1 : forall a b : R, bval (Tensor [] [a]) [] = a) by reflexivity.
    assert (L1 : sp_ld RV_gamma [sp_cval 1; sp_cval 2; Tensor [] [1%R]; Tensor [] [scale]] (Tensor [] [r]) = (- (/ scale * r))%R).
    { cbn -[bval]. unfold gamma_array, product_over. cbn -[bval]. rewrite !(E1 _ 0%R). unfold gamma_density, Rpower.
      replace ((1 - 1) * ln r)%R with 0%R by ring. rewrite exp_0, Rmult_1_l, Rmult_1_r. apply ln_exp. }
    assert (L2 : exp (sp_ld RV_poisson [sp_cval 1; sp_cval 2; Tensor [] [r]] xb_y) = (exp (- r) * r ^ 2 / 2)%R).
    { cbn -[bval to_count INR]. unfold poisson_likelihood, product_over. cbn -[bval to_count INR]. unfold xb_y. rewrite !(E1 _ 0%R).
      rewrite to_count_INR. unfold poisson_pmf. rewrite Rmult_1_r. rewrite exp_ln; [cbn; field|].
      cbn. pose proof (exp_pos (- r)). apply Rmult_lt_0_compat; [apply Rmult_lt_0_compat; [done|nra]|apply Rinv_0_lt_compat; lra]. }
    rewrite L1, Rplus_0_r, exp_plus, L2. unfold xg_dens, gamma_array, product_over. cbn -[bval]. rewrite !(E1 _ 0%R). unfold gamma_density.
    replace (1 + (1 + 1) - 1)%R with (INR 2) by (cbn; ring). rewrite Rpower_pow by exact Hr.
    assert (E2 : exp (- (/ (1 / (scale + 1)) * r)) = (exp (- (xg_k * r)) * (exp (- (/ scale * r)) * exp (- r)))%R).
    { rewrite <- !exp_plus. f_equal. unfold xg_k. field. lra. }
    rewrite E2. field.
  Qed.
  Lemma xg_apart x : x 9 = xb_y -> tells_apart 7 (array_in pos_reals []) (fun _ => True) xg_w xg_B x xg_dens.
  Proof.
    intros Hx a b H y Hy. destruct (xg_scalar _ Hy) as (r & Hr & Hpos). rewrite Hr, (xb_put y x r Hr).
    rewrite (xg_quotient x r Hx Hpos).
    pose (val := fun x : vid -> tensor R => bval (x 7) []).
    pose proof (H (fun x => val x - 2)%R I) as H1. pose proof (H (fun x => val x - 1)%R I) as H2.
    cbn [b_own xg_B] in H1, H2. unfold xg_own in H1, H2.
    set (x1 := put [7] (fun _ => Tensor [] [1%R]) x) in *. set (x2 := put [7] (fun _ => Tensor [] [2%R]) x) in *.
    change (val x1) with 1%R in *. change (val x2) with 2%R in *.
    assert (Q1 := xg_quotient x 1 Hx ltac:(lra)). assert (Q2 := xg_quotient x 2 Hx ltac:(lra)). fold x1 in Q1. fold x2 in Q2.
    assert (P1 : (0 < xg_w x1)%R) by (destruct (xg_density x 1 Hx) as (l & _ & E); unfold x1; rewrite E; apply exp_pos).
    assert (P2 : (0 < xg_w x2)%R) by (destruct (xg_density x 2 Hx) as (l & _ & E); unfold x2; rewrite E; apply exp_pos).
    rewrite Q1, Q2 in H1, H2.
    assert (A1 : (2 * exp (- (xg_k * 1)) * a = b)%R) by (apply (Rmult_eq_reg_r (xg_w x1)); [|lra]; lra).
    assert (A2 : (2 * exp (- (xg_k * 2)) * a = b)%R) by (apply (Rmult_eq_reg_r (xg_w x2)); [|lra]; lra).
    assert (Ek : exp (- (xg_k * 2)) = (exp (- (xg_k * 1)) * exp (- xg_k))%R) by (rewrite <- exp_plus; f_equal; ring).
    destruct (Req_dec a 0) as [Ea|Ea].
    - subst a. rewrite Rmult_0_r in A1. subst b. ring.
    - assert (E1 : exp (- xg_k) = 1%R).
      { rewrite Ek in A2. rewrite <- A1 in A2. pose proof (exp_pos (- (xg_k * 1))).
        apply (Rmult_eq_reg_l (2 * exp (- (xg_k * 1)) * a)); [lra|]. apply Rmult_integral_contrapositive. split; [lra|done]. }
      assert (E0 : xg_k = 0%R) by (rewrite <- exp_0 in E1; apply exp_inv in E1; lra).
      assert (Ez : forall u, exp (- (xg_k * u)) = 1%R) by (intros u; rewrite E0, Rmult_0_l, Ropp_0; apply exp_0).
      rewrite Ez in A1 |- *. rewrite <- A1. ring.
  Qed.

  Lemma xg_state x : x 9 = xb_y ->
    exists Av Sv cy, fits [] Av /\ fits [] Sv /\ (forall i, in_range [] i -> (0 < bval Sv i)%R) /\
      tensor_ok (x 9) /\ t_shape (x 9) = [] /\ counts [] (x 9) cy /\
      forall t, array_in pos_reals [] (t 7) ->
        density_at sp_scalar (fun _ _ => None) sp_cval sp_ld xg_h xg_rho (sp_V false) xg_w (put [7] t x) /\
        let env := over (on (sp_V false) (put [7] t x)) xg_rho in
        has_value sp_B sp_scalar (fun _ _ => None) sp_cval xg_h env 3 Av /\ has_value sp_B sp_scalar (fun _ _ => None) sp_cval xg_h env 4 Sv /\
        has_value sp_B sp_scalar (fun _ _ => None) sp_cval xg_h env 9 (x 9) /\
        forall Av' Sv', has_value sp_B sp_scalar (fun _ _ => None) sp_cval xg_p.1 env 15 Av' ->
          has_value sp_B sp_scalar (fun _ _ => None) sp_cval xg_p.1 env 19 Sv' ->
          draws_from 7 (fun _ => True) xg_B (put [7] t x) (fun v => gamma_array [] Av' Sv' (bval v)) /\
          tells_apart 7 (array_in pos_reals []) (fun _ => True) xg_w xg_B x (fun v => gamma_array [] Av' Sv' (bval v)).
  Proof.
    intros Hx. exists (Tensor [] [1%R]), (Tensor [] [scale]), (fun _ => 2).
    split; [apply fits_scalar|]. split; [apply fits_scalar|].
    split; [intros i _; unfold bval; rewrite bget_scalar; exact Hscale|]. rewrite Hx.
    split; [reflexivity|]. split; [reflexivity|]. split; [intros i _; exact (bget_scalar _ _)|].
    intros t Ht. destruct (xg_scalar _ Ht) as (r & Hr & Hpos). rewrite (xb_put t x r Hr).
    split; [by apply xg_density|]. rewrite (xb_on x r Hx). cbv zeta.
    split; [apply sp_value; reflexivity|]. split; [apply sp_value; reflexivity|]. split; [apply sp_value; reflexivity|].
    intros Av' Sv' [HA _] [HS _].
    rewrite (evals_det _ _ _ _ _ _ _ HA (xg_alpha r)), (evals_det _ _ _ _ _ _ _ HS (xg_scl r)).
    split; [exact (xg_draws _)|by apply xg_apart].
  Qed.

  Lemma xg_iff : local_gamma_poisson_posterior sp_B xg_h 21 = (xg_p.1, Ok [(7, 22, [])]) /\
    (keeps_conditional (fun _ => True) xg_w xg_B <-> scale = 1%R).
  Proof using Hscale.
    destruct (C57_gamma_poisson_step_iff sp_B xg_h 21 _ 9 7 1 2 1 2 3 4 sp_builder (sp_good _ _ _ _ (or_introl eq_refl) (or_introl eq_refl))
      eq_refl eq_refl (sp_obs _ _ [] []) (sp_prior _ _ [] [])) as (h' & post & a' & b' & H1 & _ & H3 & H4).
    assert (E : local_gamma_poisson_posterior sp_B xg_h 21 = (xg_p.1, Ok [(7, 22, [])])) by exact xg_run.
    split; [exact E|].
    assert (Hinj : forall (g g' : heap) (o o' : outcome), (g, o) = (g', o') -> g = g' /\ o = o') by (clear; intros ????; by injection 1).
    destruct (Hinj _ _ _ _ (eq_trans (eq_sym H1) E)) as [Eh Ep]. assert (Hp : post = 22) by (clear - Ep; by injection Ep).
    clear Ep. subst post. subst h'.
    assert (Hab : a' = 15 /\ b' = 19) by (exact (xg_params a' b' H3)).
    destruct Hab as [-> ->]. clear H1 H3 E.
    rewrite (H4 sp_scalar (fun _ _ => None) sp_cval sp_ld xg_rho (sp_V false) [] [] (fun _ => True) xg_w xg_B); clear H4.
    - split.
      + intros H. set (x := fun u : vid => if decide (u = 9) then xb_y else Tensor [] [1%R]).
        assert (Hx : x 9 = xb_y) by reflexivity.
        specialize (H x (Tensor [] [scale])). specialize (H ltac:(apply xg_pos; lra)).
        assert (Hput : put [7] (fun _ => Tensor [] [1%R]) x = x).
        { apply functional_extensionality. intros u. unfold put. case_decide as Hu; [|done]. by apply elem_of_list_singleton in Hu as ->. }
        assert (Hw : xg_w x <> 0%R).
        { destruct (xg_density x 1 Hx) as (l & _ & E). rewrite Hput in E. rewrite E. pose proof (exp_pos l). lra. }
        specialize (H Hw). rewrite <- Hput, (xb_on x 1 Hx) in H.
        specialize (H ltac:(apply sp_value; reflexivity) [] ltac:(constructor)). unfold bval in H. rewrite bget_scalar in H. exact H.
      + intros Es x Sv Hx Hw [Hv _] i _. unfold xg_w in Hw. destruct (xb_is_y (x 9)) as [Hy|]; [|by destruct Hw].
        destruct (xg_scalar _ Hx) as (r & Hr & _). rewrite <- (put_self [7] x), (xb_put x x r Hr), (xb_on x r Hy) in Hv.
        assert (Hv' : evals (tensor_base sp_scalar (fun _ _ => None)) sp_cval xg_h (over (sp_sigma false r (INR 2) (INR 1)) xg_rho) 4 (Tensor [] [scale]))
          by (apply ev_given; reflexivity).
        rewrite (evals_det _ _ _ _ _ _ _ Hv Hv'). unfold bval. rewrite bget_scalar. exact Es.
    - apply sp_ops.
    - apply sp_densities.
    - apply sp_old.
    - reflexivity.
    - apply NoDup_cons. split; [rewrite elem_of_list_singleton; lia|]. apply NoDup_singleton.
    - apply sp_only. by left.
    - reflexivity.
    - apply xg_measure.
    - intros f f'. cbn [b_own xg_B]. unfold xg_own. ring.
    - intros x. destruct (xb_is_y (x 9)) as [Hx|Hx].
      + right. by apply xg_state.
      + left. intros t _. unfold xg_w. change (put [7] t x 9) with (x 9). destruct (xb_is_y (x 9)); [done|reflexivity].
  Qed.
End xg.
Example C57_gamma_poisson_example : keeps_conditional (fun _ => True) (xg_w 1) (xg_B 1) /\ ~ keeps_conditional (fun _ => True) (xg_w 2) (xg_B 2).
Proof.
  split; [by apply (xg_iff 1 ltac:(lra))|]. intros H. apply (xg_iff 2 ltac:(lra)) in H. lra.
Qed.

(** ** An example: p ~ Beta(1, 1), Y ~ NB(3, p) is k, and p takes the values 1/4 and 1/2.  The
    step draws p from Beta(1 + k, 4) restricted to these values. *)
Definition xn_h : heap := sp_h RV_beta RV_nbinom [5] [12].
Section xn.
  Context (k : nat).
  Definition xn_y : tensor R := Tensor [] [INR k].
  Definition xn_is_y (t : tensor R) : {t = xn_y} + {t <> xn_y}.
  Proof. destruct t as [s d]. destruct (decide (s = [])) as [Hs|Hs], (List.list_eq_dec Req_EM_T d [INR k]) as [Hd|Hd]; [left; by rewrite Hs, Hd|right..]; by intros [= ? ?]. Defined.
  Lemma xn_on x r : x 9 = xn_y -> on (sp_V false) (put [7] (fun _ => Tensor [] [r]) x) = sp_sigma false r (INR k) (INR 1).
  Proof.
    intros Hx. apply functional_extensionality. intros u. unfold on, put, sp_sigma.
    do 15 (destruct u as [|u]; [first [reflexivity|rewrite decide_True by (right; left); cbn; by rewrite Hx]|]).
    rewrite decide_False; [done|]. rewrite elem_of_list_In. cbn. lia.
  Qed.
  Definition xn_rho : vid -> option (tensor R) := sp_rho 1 1 3 3.
  Definition xn_own : law (vid -> tensor R) := fun f => (f (fun _ => Tensor [] [/ 4]) + f (fun _ => Tensor [] [/ 2]))%R.
  Definition xn_dens (t : tensor R) : R := beta_array [] (Tensor [] [1 + INR k]%R) (Tensor [] [1 + 3]%R) (bval t).
  Definition xn_seed : law (vid -> tensor R) := fun f => (xn_own (fun e => xn_dens (e 7%nat) * f e) / xn_own (fun e => xn_dens (e 7%nat)))%R.
  Definition xn_B : step_block (tensor R) := StepBlock [7] [17] xn_seed (fun _ e _ => e 7) xn_own (fun f => f (fun _ => xn_y)).
  Definition xn_w (x : vid -> tensor R) : R :=
    if xn_is_y (x 9) then
      exp (sp_ld RV_beta [sp_cval 1; sp_cval 2; Tensor [] [1%R]; Tensor [] [1%R]] (x 7) +
           (sp_ld RV_nbinom [sp_cval 1; sp_cval 2; Tensor [] [3%R]; x 7] xn_y + 0))
    else 0%R.

  Lemma xn_pos r : (0 < r < 1)%R -> array_in unit_interval [] (Tensor [] [r]).
  Proof. intros Hr. split; [done|]. split; [done|]. intros i _. exact Hr. Qed.
  Lemma xn_scalar t : array_in unit_interval [] t -> exists r, t = Tensor [] [r] /\ (0 < r < 1)%R.
  Proof.
    intros (Hok & Hs & Hi). destruct t as [s d]. cbn in Hs. subst s. unfold tensor_ok in Hok. cbn in Hok.
    destruct d as [|r [|]]; try done. exists r. split; [done|]. apply (Hi []). constructor.
  Qed.
  Lemma xn_measure : measure_on 7 (array_in unit_interval []) xn_own.
  Proof.
    constructor; unfold xn_own.
    - intros a c. ring.
    - intros f f' Hf. rewrite !Hf; [done|apply xn_pos; lra..].
  Qed.
  Definition xn_p : heap * outcome := local_beta_negative_binomial_posterior sp_B xn_h 21.
  Section xn_values.
    Context (r : R).
    Notation env := (over (sp_sigma false r (INR k) (INR 1)) xn_rho).
    Notation EV := (evals (tensor_base sp_scalar (fun _ _ => None)) sp_cval xn_p.1 env).
    Lemma xn_alpha : EV 15 (Tensor [] [1 + INR k]%R).
    Proof.
      apply (ev_node _ _ _ _ 15 23 0 (Node (OElem 0) [3; 9] [15]) [Tensor [] [1%R]; xn_y] [Tensor [] [1 + INR k]%R]);
        [reflexivity|vm_compute; reflexivity|vm_compute; reflexivity| |reflexivity|reflexivity].
      cbn [n_ins]. repeat (apply List.Forall2_cons; [apply ev_given; reflexivity|]). apply List.Forall2_nil.
    Qed.
    Lemma xn_scl : EV 16 (Tensor [] [1 + 3]%R).
    Proof.
      apply (ev_node _ _ _ _ 16 24 0 (Node (OElem 0) [4; 5] [16]) [Tensor [] [1%R]; Tensor [] [3%R]] [Tensor [] [1 + 3]%R]);
        [reflexivity|vm_compute; reflexivity|vm_compute; reflexivity| |reflexivity|reflexivity].
      cbn [n_ins]. repeat (apply List.Forall2_cons; [apply ev_given; reflexivity|]). apply List.Forall2_nil.
    Qed.
  End xn_values.

  Lemma xn_density x r : x 9 = xn_y ->
    density_at sp_scalar (fun _ _ => None) sp_cval sp_ld xn_h xn_rho (sp_V false) xn_w (put [7] (fun _ => Tensor [] [r]) x).
  Proof.
    intros Hx. eexists. split.
    - rewrite (xn_on x r Hx). eexists [_; _]. split; [|reflexivity].
      apply List.Forall2_cons; [|apply List.Forall2_cons; [|apply List.Forall2_nil]].
      + eapply factor_given; [apply sp_prior|reflexivity| |reflexivity]. apply evals_list_Forall2.
        apply List.Forall2_cons; [apply sp_const1|]. apply List.Forall2_cons; [apply sp_const2|].
        repeat (apply List.Forall2_cons; [apply ev_given; reflexivity|]). apply List.Forall2_nil.
      + eapply factor_given; [apply (sp_obs _ _ [5] [12])|reflexivity| |reflexivity]. apply evals_list_Forall2.
        apply List.Forall2_cons; [apply sp_const1|]. apply List.Forall2_cons; [apply sp_const2|].
        repeat (apply List.Forall2_cons; [apply ev_given; reflexivity|]). apply List.Forall2_nil.
    - unfold xn_w. change (put [7] (fun _ => Tensor [] [r]) x 9) with (x 9). change (put [7] (fun _ => Tensor [] [r]) x 7) with (Tensor [] [r]).
      rewrite Hx. destruct (xn_is_y xn_y) as [_|N]; [|by destruct N]. reflexivity.
  Qed.
  Lemma xn_run : local_beta_negative_binomial_posterior sp_B xn_h 21 = (xn_p.1, Ok [(7, 19, [])]).
  Proof.
    assert (Er : xn_p.2 = Ok [(7, 19, [])]) by (vm_compute; reflexivity).
    rewrite <- Er. change (local_beta_negative_binomial_posterior sp_B xn_h 21) with xn_p. exact (surjective_pairing xn_p).
  Qed.
  Lemma xn_params a' b' : rv_full xn_p.1 19 RV_beta 1 2 [a'; b'] -> a' = 15 /\ b' = 16.
  Proof.
    intros (n' & nd' & r & Ho' & Hn' & _ & Hi' & _).
    assert (E0 : owner xn_p.1 19 = Some (25, 1)) by (vm_compute; reflexivity).
    pose proof (eq_trans (eq_sym Ho') E0) as E1. injection E1 as ->.
    assert (E2 : hn xn_p.1 25 = Some (Node (ORV 3) [17; 1; 2; 15; 16] [18; 19])) by (vm_compute; reflexivity).
    pose proof (eq_trans (eq_sym Hn') E2) as E3. injection E3 as ->. cbn in Hi'. clear - Hi'. injection Hi' as _ -> ->. split; reflexivity.
  Qed.
  Lemma xn_dens_pos t : (0 < xn_dens t)%R.
  Proof. apply beta_array_pos. Qed.
  Lemma xn_draws x : draws_from 7 (fun _ => True) xn_B x xn_dens.
  Proof.
    split.
    - cbn [b_own xn_B]. unfold xn_own. apply Rgt_not_eq, Rplus_lt_0_compat; apply xn_dens_pos.
    - intros g _. unfold kernel. cbn [b_own b_seed b_vars b_step xn_B]. unfold xn_seed, xn_own. reflexivity.
  Qed.

  (** the quotient of the two densities *)
  Definition xn_k : R := (INR k - 3)%R.
  Lemma xn_const : (0 < rising_fact 3 k / INR (fact k))%R.
  Proof. apply Rmult_lt_0_compat; [apply rising_fact_pos; lra|]. apply Rinv_0_lt_compat, INR_fact_lt_0. Qed.
  Lemma xn_quotient x r : x 9 = xn_y -> (0 < r < 1)%R ->
    xn_dens (Tensor [] [r]) = (/ (rising_fact 3 k / INR (fact k)) * exp (xn_k * (ln r - ln (1 - r))) * xn_w (put [7%nat] (fun _ => Tensor [] [r]) x))%R.
  Proof.
    intros Hx Hr. unfold xn_w. change (put [7] (fun _ => Tensor [] [r]) x 9) with (x 9). change (put [7] (fun _ => Tensor [] [r]) x 7) with (Tensor [] [r]).
    rewrite Hx. destruct (xn_is_y xn_y) as [_|N]; [|by destruct N].
    assert (E1 : forall a b : R, bval (Tensor [] [a]) [] = a) by reflexivity.
    assert (L1 : sp_ld RV_beta [sp_cval 1; sp_cval 2; Tensor [] [1%R]; Tensor [] [1%R]] (Tensor [] [r]) = 0%R).
    { cbn -[bval]. unfold beta_array, product_over. cbn -[bval]. rewrite !(E1 _ 0%R). unfold beta_density, Rpower.
      replace ((1 - 1) * ln r)%R with 0%R by ring. replace ((1 - 1) * ln (1 - r))%R with 0%R by ring. rewrite exp_0, !Rmult_1_r. apply ln_1. }
    assert (L2 : exp (sp_ld RV_nbinom [sp_cval 1; sp_cval 2; Tensor [] [3%R]; Tensor [] [r]] xn_y) = (rising_fact 3 k / INR (fact k) * exp (3 * ln r) * exp (INR k * ln (1 - r)))%R).
    { cbn -[bval to_count INR]. unfold nb_likelihood, product_over. cbn -[bval to_count INR]. unfold xn_y. rewrite !(E1 _ 0%R).
      rewrite to_count_INR. unfold nb_pmf. rewrite Rmult_1_r. rewrite <- (Rpower_pow k (1 - r)) by lra. unfold Rpower. rewrite exp_ln; [done|].
      pose proof xn_const. pose proof (exp_pos (3 * ln r)). pose proof (exp_pos (INR k * ln (1 - r))). apply Rmult_lt_0_compat; [|assumption]. apply Rmult_lt_0_compat; assumption. }
    rewrite L1, Rplus_0_l, Rplus_0_r, L2. unfold xn_dens, beta_array, product_over. cbn -[bval INR]. rewrite !(E1 _ 0%R). unfold beta_density, Rpower.
    pose proof xn_const as Hc. set (c := (rising_fact 3 k / INR (fact k))%R) in *.
    transitivity (exp (xn_k * (ln r - ln (1 - r))) * (exp (3 * ln r) * exp (INR k * ln (1 - r))))%R; [|field; lra].
    rewrite Rmult_1_r, <- !exp_plus. f_equal. unfold xn_k. ring.
  Qed.
  Lemma xn_apart x : x 9 = xn_y -> tells_apart 7 (array_in unit_interval []) (fun _ => True) xn_w xn_B x xn_dens.
  Proof.
    intros Hx a b H y Hy. destruct (xn_scalar _ Hy) as (r & Hr & Hpos). rewrite Hr, (xb_put y x r Hr).
    rewrite (xn_quotient x r Hx Hpos).
    pose (val := fun x : vid -> tensor R => bval (x 7) []).
    pose proof (H (fun x => val x - / 2)%R I) as H1. pose proof (H (fun x => val x - / 4)%R I) as H2.
    cbn [b_own xn_B] in H1, H2. unfold xn_own in H1, H2.
    set (x1 := put [7] (fun _ => Tensor [] [(/ 4)%R]) x) in *. set (x2 := put [7] (fun _ => Tensor [] [(/ 2)%R]) x) in *.
    change (val x1) with (/ 4)%R in *. change (val x2) with (/ 2)%R in *.
    assert (Q1 := xn_quotient x (/ 4) Hx ltac:(lra)). assert (Q2 := xn_quotient x (/ 2) Hx ltac:(lra)). fold x1 in Q1. fold x2 in Q2.
    assert (P1 : (0 < xn_w x1)%R) by (destruct (xn_density x (/ 4) Hx) as (l & _ & E); unfold x1; rewrite E; apply exp_pos).
    assert (P2 : (0 < xn_w x2)%R) by (destruct (xn_density x (/ 2) Hx) as (l & _ & E); unfold x2; rewrite E; apply exp_pos).
    rewrite Q1, Q2 in H1, H2. pose proof xn_const as Hc. set (c := (rising_fact 3 k / INR (fact k))%R) in *.
    assert (Hic : (0 < / c)%R) by (by apply Rinv_0_lt_compat).
    assert (A1 : (/ c * exp (xn_k * (ln (/ 4) - ln (1 - / 4))) * a = b)%R) by (apply (Rmult_eq_reg_r (xn_w x1)); [|lra]; lra).
    assert (A2 : (/ c * a = b)%R).
    { assert (Ez : exp (xn_k * (ln (/ 2) - ln (1 - / 2))) = 1%R).
      { replace (1 - / 2)%R with (/ 2)%R by lra. rewrite Rminus_eq_0, Rmult_0_r. apply exp_0. }
      rewrite Ez in H2. apply (Rmult_eq_reg_r (xn_w x2)); lra. }
    destruct (Req_dec a 0) as [Ea|Ea].
    - subst a. rewrite Rmult_0_r in A2. subst b. ring.
    - assert (E1 : exp (xn_k * (ln (/ 4) - ln (1 - / 4))) = 1%R).
      { apply (Rmult_eq_reg_l (/ c * a)); [lra|]. apply Rmult_integral_contrapositive. split; [lra|done]. }
      assert (Hln : (ln (/ 4) < ln (1 - / 4))%R) by (apply ln_increasing; lra).
      assert (E0 : xn_k = 0%R).
      { pose proof (exp_inv _ _ (eq_trans E1 (eq_sym exp_0))) as E2. apply Rmult_integral in E2 as [E2|E2]; [done|lra]. }
      rewrite E0, Rmult_0_l, exp_0, <- A2. ring.
  Qed.

  Lemma xn_state x : x 9 = xn_y ->
    exists Av Bv Nv cy, fits [] Av /\ fits [] Bv /\ fits [] Nv /\ (forall i, in_range [] i -> (0 < bval Nv i)%R) /\
      tensor_ok (x 9) /\ t_shape (x 9) = [] /\ counts [] (x 9) cy /\
      forall t, array_in unit_interval [] (t 7) ->
        density_at sp_scalar (fun _ _ => None) sp_cval sp_ld xn_h xn_rho (sp_V false) xn_w (put [7] t x) /\
        let env := over (on (sp_V false) (put [7] t x)) xn_rho in
        has_value sp_B sp_scalar (fun _ _ => None) sp_cval xn_h env 3 Av /\ has_value sp_B sp_scalar (fun _ _ => None) sp_cval xn_h env 4 Bv /\
        has_value sp_B sp_scalar (fun _ _ => None) sp_cval xn_h env 5 Nv /\
        has_value sp_B sp_scalar (fun _ _ => None) sp_cval xn_h env 9 (x 9) /\
        forall Av' Sv', has_value sp_B sp_scalar (fun _ _ => None) sp_cval xn_p.1 env 15 Av' ->
          has_value sp_B sp_scalar (fun _ _ => None) sp_cval xn_p.1 env 16 Sv' ->
          draws_from 7 (fun _ => True) xn_B (put [7] t x) (fun v => beta_array [] Av' Sv' (bval v)) /\
          tells_apart 7 (array_in unit_interval []) (fun _ => True) xn_w xn_B x (fun v => beta_array [] Av' Sv' (bval v)).
  Proof.
    intros Hx. exists (Tensor [] [1%R]), (Tensor [] [1%R]), (Tensor [] [3%R]), (fun _ => k).
    split; [apply fits_scalar|]. split; [apply fits_scalar|]. split; [apply fits_scalar|].
    split; [intros i _; unfold bval; rewrite bget_scalar; unfold default; cbn [from_option]; unfold id; apply (IZR_lt 0 3); lia|]. rewrite Hx.
    split; [reflexivity|]. split; [reflexivity|]. split; [intros i _; exact (bget_scalar _ _)|].
    intros t Ht. destruct (xn_scalar _ Ht) as (r & Hr & Hpos). rewrite (xb_put t x r Hr).
    split; [by apply xn_density|]. rewrite (xn_on x r Hx). cbv zeta.
    do 4 (split; [apply sp_value; reflexivity|]).
    intros Av' Sv' [HA _] [HS _].
    rewrite (evals_det _ _ _ _ _ _ _ HA (xn_alpha r)), (evals_det _ _ _ _ _ _ _ HS (xn_scl r)).
    split; [exact (xn_draws _)|by apply xn_apart].
  Qed.

  Lemma xn_iff : local_beta_negative_binomial_posterior sp_B xn_h 21 = (xn_p.1, Ok [(7, 19, [])]) /\
    (keeps_conditional (fun _ => True) xn_w xn_B <-> k = 3).
  Proof.
    destruct (C57_beta_nb_step_iff sp_B xn_h 21 _ 9 5 7 1 2 1 2 3 4 sp_builder (sp_good _ _ _ _ (or_intror eq_refl) (or_intror eq_refl))
      eq_refl eq_refl (sp_obs _ _ [5] [12]) (sp_prior _ _ [5] [12])) as (h' & post & a' & b' & H1 & _ & H3 & H4).
    assert (E : local_beta_negative_binomial_posterior sp_B xn_h 21 = (xn_p.1, Ok [(7, 19, [])])) by exact xn_run.
    split; [exact E|].
    assert (Hinj : forall (g g' : heap) (o o' : outcome), (g, o) = (g', o') -> g = g' /\ o = o') by (clear; intros ????; by injection 1).
    destruct (Hinj _ _ _ _ (eq_trans (eq_sym H1) E)) as [Eh Ep]. assert (Hp : post = 19) by (clear - Ep; by injection Ep).
    clear Ep. subst post. subst h'.
    assert (Hab : a' = 15 /\ b' = 16) by (exact (xn_params a' b' H3)).
    destruct Hab as [-> ->]. clear H1 H3 E.
    rewrite (H4 sp_scalar (fun _ _ => None) sp_cval sp_ld xn_rho (sp_V false) [] [] (fun _ => True) xn_w xn_B); clear H4.
    - split.
      + intros H. set (x := fun u : vid => if decide (u = 9) then xn_y else Tensor [] [(/ 2)%R]).
        assert (Hx : x 9 = xn_y) by reflexivity.
        specialize (H x (Tensor [] [3%R])). specialize (H ltac:(apply xn_pos; lra)).
        assert (Hput : put [7] (fun _ => Tensor [] [(/ 2)%R]) x = x).
        { apply functional_extensionality. intros u. unfold put. case_decide as Hu; [|done]. by apply elem_of_list_singleton in Hu as ->. }
        assert (Hw : xn_w x <> 0%R).
        { destruct (xn_density x (/ 2) Hx) as (l & _ & E). rewrite Hput in E. rewrite E. pose proof (exp_pos l). lra. }
        specialize (H Hw). rewrite <- Hput, (xn_on x (/ 2) Hx) in H.
        specialize (H ltac:(apply sp_value; reflexivity) [] ltac:(constructor)).
        change (put [7] (fun _ => Tensor [] [(/ 2)%R]) x 9) with xn_y in H.
        unfold bval in H. unfold xn_y in H. rewrite !bget_scalar in H. unfold default in H. cbn [from_option] in H. unfold id in H.
        apply INR_eq. transitivity 3%R; [exact (eq_sym H)|]. cbn. lra.
      + intros Es x Nv Hx Hw [Hv _] i _. unfold xn_w in Hw. destruct (xn_is_y (x 9)) as [Hy|]; [|by destruct Hw].
        destruct (xn_scalar _ Hx) as (r & Hr & _). rewrite <- (put_self [7] x), (xb_put x x r Hr), (xn_on x r Hy) in Hv.
        assert (Hv' : evals (tensor_base sp_scalar (fun _ _ => None)) sp_cval xn_h (over (sp_sigma false r (INR k) (INR 1)) xn_rho) 5 (Tensor [] [3%R]))
          by (apply ev_given; reflexivity).
        rewrite (evals_det _ _ _ _ _ _ _ Hv Hv'), Hy. unfold bval, xn_y. rewrite !bget_scalar, Es. cbn. lra.
    - apply sp_ops.
    - apply sp_densities.
    - apply sp_old.
    - reflexivity.
    - apply NoDup_cons. split; [rewrite elem_of_list_singleton; lia|]. apply NoDup_singleton.
    - apply sp_only. by right.
    - reflexivity.
    - apply xn_measure.
    - intros f f'. cbn [b_own xn_B]. unfold xn_own. ring.
    - intros x. destruct (xn_is_y (x 9)) as [Hx|Hx].
      + right. by apply xn_state.
      + left. intros t _. unfold xn_w. change (put [7] t x 9) with (x 9). destruct (xn_is_y (x 9)); [done|reflexivity].
  Qed.
End xn.
Example C57_beta_nb_example : keeps_conditional (fun _ => True) (xn_w 3) (xn_B 3) /\ ~ keeps_conditional (fun _ => True) (xn_w 2) (xn_B 2).
Proof. split; [by apply (xn_iff 3)|]. intros H. apply (xn_iff 2) in H. lia. Qed.
