(** Proofs for C53 and C57: the conjugate steps in the whole model, with the values of their
    parameters. *)
From Verif Require Import L_conjugates.
From Verif Require Export L_conditional.

Lemma beta_binomial_pair :
  forall (B : builder) h n nd y nn p size dtype sz dt a b,
    builder_ok B -> good_heap h -> hn h n = Some nd -> n_outs nd !! 1 = Some y ->
    rv_full h y RV_binomial sz dt [nn; p] -> rv_full h p RV_beta size dtype [a; b] ->
    exists h' post a' b',
      local_beta_binomial_posterior B h n = (h', Ok [(p, post, [])]) /\
      extends h h' /\ rv_full h' post RV_beta size dtype [a'; b'] /\
      forall scalar other cval ld rho sigma V others l0 s Av Bv Nv Yv cn cy,
        real_ops B scalar cval -> log_densities ld -> gives_old h rho ->
        (forall v, is_Some (sigma v) <-> v ∈ V) -> V ≡ₚ p :: y :: others -> NoDup V ->
        joint (tensor_base scalar other) cval ld h rho sigma V l0 ->
        ~ cut_reachable h V [sz; dt; nn] p ->
        has_value B scalar other cval h (over sigma rho) a Av -> fits s Av ->
        has_value B scalar other cval h (over sigma rho) b Bv -> fits s Bv ->
        has_value B scalar other cval h (over sigma rho) nn Nv -> fits s Nv -> counts s Nv cn ->
        has_value B scalar other cval h (over sigma rho) y Yv -> tensor_ok Yv -> t_shape Yv = s -> counts s Yv cy ->
        (forall i, in_range s i -> cy i <= cn i) ->
        exists Av' Bv', has_value B scalar other cval h' (over sigma rho) a' Av' /\ has_value B scalar other cval h' (over sigma rho) b' Bv' /\
          (forall i, in_range s i -> bval Av' i = bval Av i + bval Yv i /\ bval Bv' i = bval Bv i + bval Nv i - bval Yv i)%R /\
          (full_conditional scalar other cval ld h rho V sigma p (array_in unit_interval s) (fun x => beta_array s Av' Bv' (bval x)) <->
           forall x x' m m', array_in unit_interval s x -> array_in unit_interval s x' ->
             joint_at scalar other cval ld h rho sigma p others x m -> joint_at scalar other cval ld h rho sigma p others x' m' -> m = m') /\
          (only_used_by h V p y ->
           full_conditional scalar other cval ld h rho V sigma p (array_in unit_interval s) (fun x => beta_array s Av' Bv' (bval x))).
Proof.
  intros B h n nd y nn p size dtype sz dt a b HB Hg Hn Hy Hrv Hf.
  destruct (beta_binomial_built B HB h n nd y nn p size dtype a b Hg Hn Hy (rv_full_node _ _ _ _ _ _ Hrv) Hf) as (h' & post & a' & b' & H1 & H2 & _ & H4 & H5).
  exists h', post, a', b'. split; [exact H1|]. split; [exact H2|]. split; [exact H4|].
  intros scalar other cval ld rho sigma V others l0 s Av Bv Nv Yv cn cy Hops Hld Hold HV Hperm Hnd Hj Hnp HA FA HBv FB HN FN CN HY Yok Ys CY Hle.
  pose proof (pair_old h scalar other cval ld rho sigma V Hold HV l0 Hj) as Hold'.
  destruct (H5 scalar other cval (over sigma rho) s Av Bv Nv Yv Hops Hold' HA HBv HN HY FA FB FN Yok Ys) as (Av' & Bv' & V1 & V2 & _ & _ & S1 & S2 & V3).
  exists Av', Bv'. split; [exact V1|]. split; [exact V2|]. split; [exact V3|].
  destruct (pair_values h Hg p y RV_beta RV_binomial size dtype sz dt [a; b] [nn] Hf Hrv scalar other cval ld rho sigma V others HV Hperm l0 Hj Hnp
    [Av; Bv] [Nv] Yv) as (s1 & d1 & s2 & d2 & Hsp).
  { constructor; [exact (proj1 HA)|]. constructor; [exact (proj1 HBv)|constructor]. }
  { constructor; [exact (proj1 HN)|constructor]. }
  { exact (proj1 HY). }
  pose proof (beta_binomial_posterior_array s Av Bv Av' Bv' Nv Yv cn cy CN CY Hle V3) as Hpo.
  destruct (ld_beta ld Hld) as [z Hz].
  match goal with |- (?A <-> ?C) /\ _ => assert (Hiff : A <-> C) end.
  { apply (conditional_iff scalar other cval ld h rho sigma V others p unit_interval s (beta_array s Av' Bv') (beta_array s Av Bv) (binomial_likelihood s cn cy) (z s Av Bv)).
    - intros f Hff. apply beta_array_pos.
    - intros f Hff. by apply binomial_likelihood_pos.
    - intros x l Hx. rewrite (Hsp x l). cbn [app]. rewrite (Hz s s1 d1 Av Bv x FA FB Hx), (ld_binomial ld Hld s s2 d2 Nv x Yv cn cy FN CN Hx Yok Ys CY Hle). done.
    - exact Hpo. }
  split; [exact Hiff|]. intros Hu. apply Hiff.
  destruct (pair_only h p y scalar other cval ld rho sigma V others HV Hperm Hnd l0 Hj Hu) as [m0 Hm0].
  intros x x' m m' _ _ Hm Hm'. apply Hm0 in Hm, Hm'. congruence.
Qed.

Lemma gamma_poisson_pair :
  forall (B : builder) h n nd y z size dtype sz dt a sc,
    builder_ok B -> good_heap h -> hn h n = Some nd -> n_outs nd !! 1 = Some y ->
    rv_full h y RV_poisson sz dt [z] -> rv_full h z RV_gamma size dtype [a; sc] ->
    exists h' post a' sc',
      local_gamma_poisson_posterior B h n = (h', Ok [(z, post, [])]) /\
      extends h h' /\ rv_full h' post RV_gamma size dtype [a'; sc'] /\
      forall scalar other cval ld rho sigma V others l0 s Av Sv Yv cy,
        real_ops B scalar cval -> log_densities ld -> gives_old h rho ->
        (forall v, is_Some (sigma v) <-> v ∈ V) -> V ≡ₚ z :: y :: others -> NoDup V ->
        joint (tensor_base scalar other) cval ld h rho sigma V l0 -> only_used_by h V z y ->
        has_value B scalar other cval h (over sigma rho) a Av -> fits s Av ->
        has_value B scalar other cval h (over sigma rho) sc Sv -> fits s Sv -> (forall i, in_range s i -> (0 < bval Sv i)%R) ->
        has_value B scalar other cval h (over sigma rho) y Yv -> tensor_ok Yv -> t_shape Yv = s -> counts s Yv cy ->
        exists Av' Sv', has_value B scalar other cval h' (over sigma rho) a' Av' /\ has_value B scalar other cval h' (over sigma rho) sc' Sv' /\
          (forall i, in_range s i -> bval Av' i = bval Av i + bval Yv i /\ bval Sv' i = 1 / (bval Sv i + 1))%R /\
          (full_conditional scalar other cval ld h rho V sigma z (array_in pos_reals s) (fun x => gamma_array s Av' Sv' (bval x)) <->
           forall i, in_range s i -> bval Sv i = 1%R).
Proof.
  intros B h n nd y zz size dtype sz dt a sc HB Hg Hn Hy Hrv Hf.
  destruct (gamma_poisson_built B HB h n nd y zz size dtype a sc Hg Hn Hy (rv_full_node _ _ _ _ _ _ Hrv) Hf) as (h' & post & a' & sc' & H1 & H2 & _ & H4 & H5).
  exists h', post, a', sc'. split; [exact H1|]. split; [exact H2|]. split; [exact H4|].
  intros scalar other cval ld rho sigma V others l0 s Av Sv Yv cy Hops Hld Hold HV Hperm Hnd Hj Hu HA FA HS FS Spos HY Yok Ys CY.
  pose proof (pair_old h scalar other cval ld rho sigma V Hold HV l0 Hj) as Hold'.
  destruct (H5 scalar other cval (over sigma rho) s Av Sv Yv Hops Hold' HA HS HY FA FS Yok Ys) as (Av' & Sv' & V1 & V2 & _ & F2 & S1 & V3).
  exists Av', Sv'. split; [exact V1|]. split; [exact V2|]. split; [exact V3|].
  destruct (pair_values h Hg zz y RV_gamma RV_poisson size dtype sz dt [a; sc] [] Hf Hrv scalar other cval ld rho sigma V others HV Hperm l0 Hj
    (only_params h V zz y RV_poisson sz dt [] Hrv Hu) [Av; Sv] [] Yv) as (s1 & d1 & s2 & d2 & Hsp).
  { constructor; [exact (proj1 HA)|]. constructor; [exact (proj1 HS)|constructor]. }
  { constructor. }
  { exact (proj1 HY). }
  rewrite <- (gamma_poisson_posterior_array s Av Sv Av' Sv' Yv cy CY Spos V3).
  destruct (ld_gamma ld Hld) as [z Hz].
  destruct (pair_only h zz y scalar other cval ld rho sigma V others HV Hperm Hnd l0 Hj Hu) as [m0 Hm0].
  apply (conditional_posterior scalar other cval ld h rho sigma V others zz pos_reals s (gamma_array s Av' Sv') (gamma_array s Av Sv) (poisson_likelihood s cy) (z s Av Sv)) with (t0 := 1%R) (m0 := m0).
  - intros f Hff. apply gamma_array_pos.
  - intros f Hff. apply gamma_array_pos.
  - intros f Hff. by apply poisson_likelihood_pos.
  - intros x l Hx. rewrite (Hsp x l). cbn [app]. rewrite (Hz s s1 d1 Av Sv x FA FS Hx), (ld_poisson ld Hld s s2 d2 x Yv cy Hx Yok Ys CY). done.
  - intros f g Hfg. apply product_over_ext. intros i Hi. by rewrite Hfg.
  - intros f g Hfg. apply product_over_ext. intros i Hi. by rewrite Hfg.
  - intros f g Hfg. apply product_over_ext. intros i Hi. by rewrite Hfg.
  - unfold pos_reals. lra.
  - intros x m _. apply Hm0.
Qed.

Lemma beta_nb_pair :
  forall (B : builder) h n nd y nn p size dtype sz dt a b,
    builder_ok B -> good_heap h -> hn h n = Some nd -> n_outs nd !! 1 = Some y ->
    rv_full h y RV_nbinom sz dt [nn; p] -> rv_full h p RV_beta size dtype [a; b] ->
    exists h' post a' b',
      local_beta_negative_binomial_posterior B h n = (h', Ok [(p, post, [])]) /\
      extends h h' /\ rv_full h' post RV_beta size dtype [a'; b'] /\
      forall scalar other cval ld rho sigma V others l0 s Av Bv Nv Yv cy,
        real_ops B scalar cval -> log_densities ld -> gives_old h rho ->
        (forall v, is_Some (sigma v) <-> v ∈ V) -> V ≡ₚ p :: y :: others -> NoDup V ->
        joint (tensor_base scalar other) cval ld h rho sigma V l0 -> only_used_by h V p y ->
        has_value B scalar other cval h (over sigma rho) a Av -> fits s Av ->
        has_value B scalar other cval h (over sigma rho) b Bv -> fits s Bv ->
        has_value B scalar other cval h (over sigma rho) nn Nv -> fits s Nv -> (forall i, in_range s i -> (0 < bval Nv i)%R) ->
        has_value B scalar other cval h (over sigma rho) y Yv -> tensor_ok Yv -> t_shape Yv = s -> counts s Yv cy ->
        exists Av' Bv', has_value B scalar other cval h' (over sigma rho) a' Av' /\ has_value B scalar other cval h' (over sigma rho) b' Bv' /\
          (forall i, in_range s i -> bval Av' i = bval Av i + bval Yv i /\ bval Bv' i = bval Bv i + bval Nv i)%R /\
          (full_conditional scalar other cval ld h rho V sigma p (array_in unit_interval s) (fun x => beta_array s Av' Bv' (bval x)) <->
           forall i, in_range s i -> bval Nv i = bval Yv i).
Proof.
  intros B h n nd y nn p size dtype sz dt a b HB Hg Hn Hy Hrv Hf.
  destruct (beta_nb_built B HB h n nd y nn p size dtype a b Hg Hn Hy (rv_full_node _ _ _ _ _ _ Hrv) Hf) as (h' & post & a' & b' & H1 & H2 & _ & H4 & H5).
  exists h', post, a', b'. split; [exact H1|]. split; [exact H2|]. split; [exact H4|].
  intros scalar other cval ld rho sigma V others l0 s Av Bv Nv Yv cy Hops Hld Hold HV Hperm Hnd Hj Hu HA FA HBv FB HN FN Npos HY Yok Ys CY.
  pose proof (pair_old h scalar other cval ld rho sigma V Hold HV l0 Hj) as Hold'.
  destruct (H5 scalar other cval (over sigma rho) s Av Bv Nv Yv Hops Hold' HA HBv HN HY FA FB FN Yok Ys) as (Av' & Bv' & V1 & V2 & _ & F2 & S1 & V3).
  exists Av', Bv'. split; [exact V1|]. split; [exact V2|]. split; [exact V3|].
  destruct (pair_values h Hg p y RV_beta RV_nbinom size dtype sz dt [a; b] [nn] Hf Hrv scalar other cval ld rho sigma V others HV Hperm l0 Hj
    (only_params h V p y RV_nbinom sz dt [nn] Hrv Hu) [Av; Bv] [Nv] Yv) as (s1 & d1 & s2 & d2 & Hsp).
  { constructor; [exact (proj1 HA)|]. constructor; [exact (proj1 HBv)|constructor]. }
  { constructor; [exact (proj1 HN)|constructor]. }
  { exact (proj1 HY). }
  rewrite <- (beta_nb_posterior_array s Av Bv Av' Bv' Nv Yv cy CY Npos V3).
  destruct (ld_beta ld Hld) as [z Hz].
  destruct (pair_only h p y scalar other cval ld rho sigma V others HV Hperm Hnd l0 Hj Hu) as [m0 Hm0].
  apply (conditional_posterior scalar other cval ld h rho sigma V others p unit_interval s (beta_array s Av' Bv') (beta_array s Av Bv) (nb_likelihood s (bval Nv) cy) (z s Av Bv)) with (t0 := (/ 2)%R) (m0 := m0).
  - intros f Hff. apply beta_array_pos.
  - intros f Hff. apply beta_array_pos.
  - intros f Hff. by apply nb_likelihood_pos.
  - intros x l Hx. rewrite (Hsp x l). cbn [app]. rewrite (Hz s s1 d1 Av Bv x FA FB Hx), (ld_nbinom ld Hld s s2 d2 Nv x Yv cy FN Npos Hx Yok Ys CY). done.
  - intros f g Hfg. apply product_over_ext. intros i Hi. by rewrite Hfg.
  - intros f g Hfg. apply product_over_ext. intros i Hi. by rewrite Hfg.
  - intros f g Hfg. apply product_over_ext. intros i Hi. by rewrite Hfg.
  - apply half_unit.
  - intros x m _. apply Hm0.
Qed.

