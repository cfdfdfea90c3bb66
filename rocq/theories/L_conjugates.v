(** The conjugate finders and the posteriors they build. *)
From Verif Require Export L_array L_elem_value L_match_fun.
Global Open Scope nat_scope.

(** ** One component *)
Section component.
  Local Open Scope R_scope.

  Lemma beta_binomial_component a b n y : (y <= n)%nat ->
    proportional unit_interval (beta_density (a + INR y) (b + INR n - INR y))
      (fun t => beta_density a b t * binomial_pmf n t y).
  Proof.
    intros Hy. assert (HC : 0 < C n y) by (apply Rdiv_lt_0_compat; [apply INR_fact_lt_0|apply Rmult_lt_0_compat; apply INR_fact_lt_0]).
    exists (/ C n y). split; [by apply Rinv_0_lt_compat|]. intros t Ht. unfold unit_interval in Ht. unfold beta_density, binomial_pmf.
    rewrite <- (Rpower_pow y t), <- (Rpower_pow (n - y) (1 - t)) by lra. rewrite minus_INR by done.
    replace (a + INR y - 1) with (a - 1 + INR y) by ring. replace (b + INR n - INR y - 1) with (b - 1 + (INR n - INR y)) by ring.
    rewrite !Rpower_plus. field. lra.
  Qed.

  Lemma gamma_poisson_component a r y :
    proportional pos_reals (gamma_density (a + INR y) (r + 1)) (fun t => gamma_density a r t * poisson_pmf t y).
  Proof.
    exists (INR (fact y)). split; [apply INR_fact_lt_0|]. intros t Ht. unfold pos_reals in Ht. unfold gamma_density, poisson_pmf.
    rewrite <- (Rpower_pow y t) by lra. replace (a + INR y - 1) with (a - 1 + INR y) by ring. rewrite Rpower_plus.
    replace (- ((r + 1) * t)) with (- (r * t) + - t) by ring. rewrite exp_plus.
    pose proof (INR_fact_lt_0 y). generalize (exp (- (r * t))) (exp (- t)). intros. field. lra.
  Qed.

  Lemma rising_fact_pos n y : 0 < n -> 0 < rising_fact n y.
  Proof. intros Hn. induction y as [|y IH]; cbn [rising_fact]; [lra|]. apply Rmult_lt_0_compat; [done|]. pose proof (pos_INR y). lra. Qed.

  Lemma beta_nb_component a b n y : 0 < n ->
    proportional unit_interval (beta_density (a + n) (b + INR y)) (fun t => beta_density a b t * nb_pmf n t y).
  Proof.
    intros Hn. pose proof (rising_fact_pos n y Hn) as Hr. pose proof (INR_fact_lt_0 y) as Hf.
    exists (INR (fact y) / rising_fact n y). split; [by apply Rdiv_lt_0_compat|]. intros t Ht. unfold unit_interval in Ht.
    unfold beta_density, nb_pmf. rewrite <- (Rpower_pow y (1 - t)) by lra.
    replace (a + n - 1) with (a - 1 + n) by ring. replace (b + INR y - 1) with (b - 1 + INR y) by ring.
    rewrite !Rpower_plus. generalize (Rpower t (a - 1)) (Rpower t n). intros. field. lra.
  Qed.

  Lemma poisson_pmf_pos t y : 0 < t -> 0 < poisson_pmf t y.
  Proof. intros Ht. unfold poisson_pmf. apply Rdiv_lt_0_compat; [|apply INR_fact_lt_0]. apply Rmult_lt_0_compat; [apply exp_pos|by apply pow_lt]. Qed.
  Lemma nb_pmf_pos n t y : 0 < n -> 0 < t < 1 -> 0 < nb_pmf n t y.
  Proof.
    intros Hn Ht. unfold nb_pmf. repeat apply Rmult_lt_0_compat; [by apply rising_fact_pos|apply Rinv_0_lt_compat, INR_fact_lt_0|apply Rpower_pos|].
    apply pow_lt. lra.
  Qed.
End component.

(** ** What the finders recognise *)
Definition conj_sub (size dtype a b r : vid) : dict nat nat :=
  [(rng_lv, r); (size_lv, size); (dtype_lv, dtype); (alpha_lv, a); (prior_beta_lv, b)].

Lemma rv_full_applied h v d size dtype params : rv_full h v d size dtype params -> exists r, applied h v (ORV d) (r :: size :: dtype :: params).
Proof. intros (n & nd & r & Ho & Hn & Hop & Hi & _). exists r, n, 1, nd. split_and!; [done|done| |done]. by rewrite Hop. Qed.

Lemma umatch_gamma_poisson h y z size dtype a b : rv_node h y RV_poisson [z] -> rv_full h z RV_gamma size dtype [a; b] ->
  exists r, umatch h gamma_poisson_pattern y [] = Some (conj_sub size dtype a b r).
Proof.
  intros (r1 & sz & dt & H1)%rv_node_applied [r H2]%rv_full_applied. exists r. unfold gamma_poisson_pattern.
  rewrite (umatch_applied _ _ _ _ _ _ H1). um. rewrite umatches_cons, (umatch_applied _ _ _ _ _ _ H2). um. done.
Qed.
Lemma umatch_beta_binomial h y p nn size dtype a b : rv_node h y RV_binomial [nn; p] -> rv_full h p RV_beta size dtype [a; b] ->
  exists r, umatch h beta_binomial_pattern y [] = Some ((n_lv, nn) :: conj_sub size dtype a b r).
Proof.
  intros (r1 & sz & dt & H1)%rv_node_applied [r H2]%rv_full_applied. exists r. unfold beta_binomial_pattern.
  rewrite (umatch_applied _ _ _ _ _ _ H1). um. rewrite umatches_cons, (umatch_applied _ _ _ _ _ _ H2). um. done.
Qed.
Lemma umatch_beta_nb h y p nn size dtype a b : rv_node h y RV_nbinom [nn; p] -> rv_full h p RV_beta size dtype [a; b] ->
  exists r, umatch h beta_nb_pattern y [] = Some ((n_lv, nn) :: conj_sub size dtype a b r).
Proof.
  intros (r1 & sz & dt & H1)%rv_node_applied [r H2]%rv_full_applied. exists r. unfold beta_nb_pattern.
  rewrite (umatch_applied _ _ _ _ _ _ H1). um. rewrite umatches_cons, (umatch_applied _ _ _ _ _ _ H2). um. done.
Qed.

(** the draw of a node and the node's last parameter *)
Lemma rv_node_last h n nd y d ps p : good_heap h -> hn h n = Some nd -> n_outs nd !! 1 = Some y -> rv_node h y d (ps ++ [p]) ->
  last (n_ins nd) = Some p.
Proof.
  intros Hg Hn Hy (n' & k & nd' & r & sz & dt & Ho & Hn' & _ & Hi). rewrite (wf_outs h (proj1 Hg) _ _ _ _ Hn Hy) in Ho.
  injection Ho as <- <-. assert (nd' = nd) by congruence. subst nd'. rewrite Hi.
  change (r :: sz :: dt :: ps ++ [p]) with ([r; sz; dt] ++ ps ++ [p]). rewrite app_assoc. apply last_snoc.
Qed.

Lemma rv_full_params h v d size dtype params : good_heap h -> rv_full h v d size dtype params ->
  forall u, u ∈ size :: dtype :: params -> is_Some (hv h u).
Proof.
  intros Hg (n & nd & r & Ho & Hn & Hop & Hi & _) u Hu. apply (wf_ins h (proj1 Hg) n nd); [done|]. rewrite Hi. by right.
Qed.
Lemma rv_node_params h v d params : good_heap h -> rv_node h v d params -> forall u, u ∈ params -> is_Some (hv h u).
Proof.
  intros Hg (n & k & nd & r & sz & dt & Ho & Hn & Hop & Hi) u Hu. apply (wf_ins h (proj1 Hg) n nd); [done|]. rewrite Hi. by do 3 right.
Qed.
Lemma out_some h n nd i y : good_heap h -> hn h n = Some nd -> n_outs nd !! i = Some y -> is_Some (hv h y).
Proof. intros Hg Hn Hy. pose proof (wf_outs h (proj1 Hg) _ _ _ _ Hn Hy) as Ho. unfold owner in Ho. destruct (hv h y); [eauto|done]. Qed.

Section build.
  Context (B : builder) (HB : builder_ok B).

  (** building keeps everything and makes new objects *)
  Lemma mk_elem_struct h e vs : good_heap h -> (forall v, v ∈ vs -> is_Some (hv h v)) ->
    let r := mk_elem B h e vs in extends h r.1 /\ good_heap r.1 /\ is_Some (hv r.1 r.2).
  Proof.
    intros Hg Hv. pose proof (elem_ok h (fun _ => True) B h e vs) as H. cbv zeta in H.
    destruct H as (A & C & D & _); [split; [apply extends_refl|done]|intros v Hvin; split; [by apply Hv|by left]|].
    cbv zeta. split; [done|]. split; [apply C|apply D].
  Qed.
  Lemma mk_const_struct h c : good_heap h -> let r := mk_const h c in extends h r.1 /\ good_heap r.1 /\ is_Some (hv r.1 r.2).
  Proof.
    intros Hg. pose proof (const_ok h (fun _ => True) h c) as H. cbv zeta in H.
    destruct H as (A & C & D & _); [split; [apply extends_refl|done]|]. cbv zeta. split; [done|]. split; [apply C|apply D].
  Qed.
End build.

Section finders.
  Context (B : builder) (HB : builder_ok B).

  Lemma two_some h (a b : vid) : is_Some (hv h a) -> is_Some (hv h b) -> forall v, v ∈ [a; b] -> is_Some (hv h v).
  Proof. intros ? ? v [->|[->|?%elem_of_nil]%elem_of_cons]%elem_of_cons; done. Qed.

  Notation hasv scalar other cval h rho := (has_value B scalar other cval h rho).

  Lemma beta_binomial_built h n nd y nn p size dtype a b :
    good_heap h -> hn h n = Some nd -> n_outs nd !! 1 = Some y ->
    rv_node h y RV_binomial [nn; p] -> rv_full h p RV_beta size dtype [a; b] ->
    exists h' post a' b',
      local_beta_binomial_posterior B h n = (h', Ok [(p, post, [])]) /\
      extends h h' /\ good_heap h' /\ rv_full h' post RV_beta size dtype [a'; b'] /\
      forall scalar other cval rho s Av Bv Nv Yv, real_ops B scalar cval -> gives_old h rho ->
        hasv scalar other cval h rho a Av -> hasv scalar other cval h rho b Bv ->
        hasv scalar other cval h rho nn Nv -> hasv scalar other cval h rho y Yv ->
        fits s Av -> fits s Bv -> fits s Nv -> tensor_ok Yv -> t_shape Yv = s ->
        exists Av' Bv', hasv scalar other cval h' rho a' Av' /\ hasv scalar other cval h' rho b' Bv' /\
          fits s Av' /\ fits s Bv' /\ t_shape Av' = s /\ t_shape Bv' = s /\
          forall i, in_range s i ->
            (bval Av' i = bval Av i + bval Yv i /\ bval Bv' i = bval Bv i + bval Nv i - bval Yv i)%R.
  Proof.
    intros Hg Hn Hy Hrv Hfull. unfold local_beta_binomial_posterior, with_rv. rewrite Hn, Hy.
    destruct (umatch_beta_binomial h y p nn size dtype a b Hrv Hfull) as [r ->].
    change (dget _ size_lv) with (Some size). change (dget _ dtype_lv) with (Some dtype). change (dget _ alpha_lv) with (Some a).
    change (dget _ prior_beta_lv) with (Some b). change (dget _ n_lv) with (Some nn).
    rewrite (rv_node_last h n nd y RV_binomial [nn] p Hg Hn Hy Hrv). cbv beta iota.
    pose proof (out_some _ _ _ _ _ Hg Hn Hy) as Sy. pose proof (rv_full_params _ _ _ _ _ _ Hg Hfull) as Sp.
    pose proof (Sp a ltac:(do 2 right; by left)) as Sa. pose proof (Sp b ltac:(do 3 right; by left)) as Sb.
    pose proof (rv_node_params _ _ _ _ Hg Hrv nn ltac:(by left)) as Sn.
    unfold beta_binomial_posterior.
    pose proof (mk_elem_struct B h E_add [a; y] Hg (two_some _ _ _ Sa Sy)) as T1.
    destruct (mk_elem B h E_add [a; y]) as [h1 na] eqn:M1. cbn in T1. destruct T1 as (E1 & G1 & Sna).
    pose proof (mk_elem_struct B h1 E_add [b; nn] G1 (two_some _ _ _ (extends_some _ _ _ E1 Sb) (extends_some _ _ _ E1 Sn))) as T2.
    destruct (mk_elem B h1 E_add [b; nn]) as [h2 sm] eqn:M2. cbn in T2. destruct T2 as (E2 & G2 & Ssm).
    pose proof (extends_trans _ _ _ E1 E2) as E12.
    pose proof (mk_elem_struct B h2 E_sub [sm; y] G2 (two_some _ _ _ Ssm (extends_some _ _ _ E12 Sy))) as T3.
    destruct (mk_elem B h2 E_sub [sm; y]) as [h3 nb] eqn:M3. cbn in T3. destruct T3 as (E3 & G3 & Snb).
    pose proof (extends_trans _ _ _ E12 E3) as E13. pose proof (extends_trans _ _ _ E2 E3) as E23.
    assert (Sall : forall u, u ∈ [size; dtype; na; nb] -> is_Some (hv h3 u)).
    { intros u [->|[->|[->|[->|?%elem_of_nil]%elem_of_cons]%elem_of_cons]%elem_of_cons]%elem_of_cons; try done.
      - eapply extends_some; [exact E13|]. apply Sp. by left.
      - eapply extends_some; [exact E13|]. apply Sp. right; by left.
      - eapply extends_some; [exact E23|done]. }
    unfold gen_beta. destruct (gen_full B h3 RV_beta size dtype [na; nb] G3 Sall) as (E4 & G4 & Hpost).
    destruct (gen B h3 _ _) as [h4 [[r1 r2] post]]. cbn in E4, G4, Hpost.
    exists h4, post, na, nb. split; [done|]. split; [by eapply extends_trans|]. split; [done|]. split; [done|].
    intros scalar other cval rho s Av Bv Nv Yv Hops Hold HA HBv HN HY FA FB FN Yok Ys.
    assert (FY : fits s Yv) by (rewrite <- Ys; by apply fits_full).
    destruct (mk_binary_value B HB scalar other cval rho h E_add Rplus a y Av Yv s (ro_add _ _ _ Hops) Hg Hold HA HY FA FY) as (Av' & V1).
    rewrite M1 in V1. cbn [fst snd] in V1. destruct V1 as (_ & _ & O1 & HA' & FA' & SA' & VA).
    pose proof (has_extends B scalar other cval rho h h1 _ _ (proj1 Hg) E1 Hold HBv) as HB1.
    pose proof (has_extends B scalar other cval rho h h1 _ _ (proj1 Hg) E1 Hold HN) as HN1.
    destruct (mk_binary_value B HB scalar other cval rho h1 E_add Rplus b nn Bv Nv s (ro_add _ _ _ Hops) G1 O1 HB1 HN1 FB FN) as (Sv & V2).
    rewrite M2 in V2. cbn [fst snd] in V2. destruct V2 as (_ & _ & O2 & HS2 & FS & _ & VS).
    pose proof (has_extends B scalar other cval rho h h2 _ _ (proj1 Hg) E12 Hold HY) as HY2.
    destruct (mk_binary_value B HB scalar other cval rho h2 E_sub Rminus sm y Sv Yv s (ro_sub _ _ _ Hops) G2 O2 HS2 HY2 FS FY) as (Bv' & V3).
    rewrite M3 in V3. cbn [fst snd] in V3. destruct V3 as (_ & _ & O3 & HB3 & FB' & SB' & VB).
    exists Av', Bv'. split; [eapply (has_extends B scalar other cval rho h1 h4); [apply G1| |done|done]; by eapply extends_trans|].
    split; [eapply (has_extends B scalar other cval rho h3 h4); [apply G3|done|done|done]|].
    split; [done|]. split; [done|]. split; [apply SA'; by right|]. split; [apply SB'; by right|].
    intros i Hi. destruct (VA i Hi) as (x1 & x2 & B1 & B2 & B3). destruct (VS i Hi) as (x3 & x4 & B4 & B5 & B6).
    destruct (VB i Hi) as (x5 & x6 & B7 & B8 & B9). unfold bval. rewrite B3, B9, B1, B4, B5, B8. cbn.
    rewrite B6 in B7. injection B7 as <-. assert (x6 = x2) by congruence. subst x6. done.
  Qed.

  Lemma beta_nb_built h n nd y nn p size dtype a b :
    good_heap h -> hn h n = Some nd -> n_outs nd !! 1 = Some y ->
    rv_node h y RV_nbinom [nn; p] -> rv_full h p RV_beta size dtype [a; b] ->
    exists h' post a' b',
      local_beta_negative_binomial_posterior B h n = (h', Ok [(p, post, [])]) /\
      extends h h' /\ good_heap h' /\ rv_full h' post RV_beta size dtype [a'; b'] /\
      forall scalar other cval rho s Av Bv Nv Yv, real_ops B scalar cval -> gives_old h rho ->
        hasv scalar other cval h rho a Av -> hasv scalar other cval h rho b Bv ->
        hasv scalar other cval h rho nn Nv -> hasv scalar other cval h rho y Yv ->
        fits s Av -> fits s Bv -> fits s Nv -> tensor_ok Yv -> t_shape Yv = s ->
        exists Av' Bv', hasv scalar other cval h' rho a' Av' /\ hasv scalar other cval h' rho b' Bv' /\
          fits s Av' /\ fits s Bv' /\ t_shape Av' = s /\
          forall i, in_range s i ->
            (bval Av' i = bval Av i + bval Yv i /\ bval Bv' i = bval Bv i + bval Nv i)%R.
  Proof.
    intros Hg Hn Hy Hrv Hfull. unfold local_beta_negative_binomial_posterior, with_rv. rewrite Hn, Hy.
    destruct (umatch_beta_nb h y p nn size dtype a b Hrv Hfull) as [r ->].
    change (dget _ size_lv) with (Some size). change (dget _ dtype_lv) with (Some dtype). change (dget _ alpha_lv) with (Some a).
    change (dget _ prior_beta_lv) with (Some b). change (dget _ n_lv) with (Some nn).
    rewrite (rv_node_last h n nd y RV_nbinom [nn] p Hg Hn Hy Hrv). cbv beta iota.
    pose proof (out_some _ _ _ _ _ Hg Hn Hy) as Sy. pose proof (rv_full_params _ _ _ _ _ _ Hg Hfull) as Sp.
    pose proof (Sp a ltac:(do 2 right; by left)) as Sa. pose proof (Sp b ltac:(do 3 right; by left)) as Sb.
    pose proof (rv_node_params _ _ _ _ Hg Hrv nn ltac:(by left)) as Sn.
    unfold beta_nb_posterior.
    pose proof (mk_elem_struct B h E_add [a; y] Hg (two_some _ _ _ Sa Sy)) as T1.
    destruct (mk_elem B h E_add [a; y]) as [h1 na] eqn:M1. cbn in T1. destruct T1 as (E1 & G1 & Sna).
    pose proof (mk_elem_struct B h1 E_add [b; nn] G1 (two_some _ _ _ (extends_some _ _ _ E1 Sb) (extends_some _ _ _ E1 Sn))) as T2.
    destruct (mk_elem B h1 E_add [b; nn]) as [h2 nb] eqn:M2. cbn in T2. destruct T2 as (E2 & G2 & Snb).
    pose proof (extends_trans _ _ _ E1 E2) as E12.
    assert (Sall : forall u, u ∈ [size; dtype; na; nb] -> is_Some (hv h2 u)).
    { intros u [->|[->|[->|[->|?%elem_of_nil]%elem_of_cons]%elem_of_cons]%elem_of_cons]%elem_of_cons; try done.
      - eapply extends_some; [exact E12|]. apply Sp. by left.
      - eapply extends_some; [exact E12|]. apply Sp. right; by left.
      - eapply extends_some; [exact E2|done]. }
    unfold gen_beta. destruct (gen_full B h2 RV_beta size dtype [na; nb] G2 Sall) as (E4 & G4 & Hpost).
    destruct (gen B h2 _ _) as [h4 [[r1 r2] post]]. cbn in E4, G4, Hpost.
    exists h4, post, na, nb. split; [done|]. split; [by eapply extends_trans|]. split; [done|]. split; [done|].
    intros scalar other cval rho s Av Bv Nv Yv Hops Hold HA HBv HN HY FA FB FN Yok Ys.
    assert (FY : fits s Yv) by (rewrite <- Ys; by apply fits_full).
    destruct (mk_binary_value B HB scalar other cval rho h E_add Rplus a y Av Yv s (ro_add _ _ _ Hops) Hg Hold HA HY FA FY) as (Av' & V1).
    rewrite M1 in V1. cbn [fst snd] in V1. destruct V1 as (_ & _ & O1 & HA' & FA' & SA' & VA).
    pose proof (has_extends B scalar other cval rho h h1 _ _ (proj1 Hg) E1 Hold HBv) as HB1.
    pose proof (has_extends B scalar other cval rho h h1 _ _ (proj1 Hg) E1 Hold HN) as HN1.
    destruct (mk_binary_value B HB scalar other cval rho h1 E_add Rplus b nn Bv Nv s (ro_add _ _ _ Hops) G1 O1 HB1 HN1 FB FN) as (Bv' & V2).
    rewrite M2 in V2. cbn [fst snd] in V2. destruct V2 as (_ & _ & O2 & HB2 & FB' & _ & VB).
    exists Av', Bv'. split; [eapply (has_extends B scalar other cval rho h1 h4); [apply G1| |done|done]; by eapply extends_trans|].
    split; [eapply (has_extends B scalar other cval rho h2 h4); [apply G2|done|done|done]|].
    split; [done|]. split; [done|]. split; [apply SA'; by right|].
    intros i Hi. destruct (VA i Hi) as (x1 & x2 & B1 & B2 & B3). destruct (VB i Hi) as (x3 & x4 & B4 & B5 & B6).
    unfold bval. by rewrite B3, B6, B1, B2, B4, B5.
  Qed.

  Lemma fits_scalar s (x : R) : fits s (Tensor [] [x]).
  Proof. split; [done|]. split; [cbn; lia|]. cbn. rewrite Nat.sub_0_r, drop_all. constructor. Qed.
  Lemma bget_scalar (x : R) idx : bget (Tensor [] [x]) idx = Some x.
  Proof. done. Qed.

  Lemma gamma_poisson_built h n nd y z size dtype a sc :
    good_heap h -> hn h n = Some nd -> n_outs nd !! 1 = Some y ->
    rv_node h y RV_poisson [z] -> rv_full h z RV_gamma size dtype [a; sc] ->
    exists h' post a' sc',
      local_gamma_poisson_posterior B h n = (h', Ok [(z, post, [])]) /\
      extends h h' /\ good_heap h' /\ rv_full h' post RV_gamma size dtype [a'; sc'] /\
      forall scalar other cval rho s Av Sv Yv, real_ops B scalar cval -> gives_old h rho ->
        hasv scalar other cval h rho a Av -> hasv scalar other cval h rho sc Sv ->
        hasv scalar other cval h rho y Yv ->
        fits s Av -> fits s Sv -> tensor_ok Yv -> t_shape Yv = s ->
        exists Av' Sv', hasv scalar other cval h' rho a' Av' /\ hasv scalar other cval h' rho sc' Sv' /\
          fits s Av' /\ fits s Sv' /\ t_shape Av' = s /\
          forall i, in_range s i ->
            (bval Av' i = bval Av i + bval Yv i /\ bval Sv' i = 1 / (bval Sv i + 1))%R.
  Proof.
    intros Hg Hn Hy Hrv Hfull. unfold local_gamma_poisson_posterior, with_rv. rewrite Hn, Hy.
    destruct (umatch_gamma_poisson h y z size dtype a sc Hrv Hfull) as [r ->].
    change (dget _ size_lv) with (Some size). change (dget _ dtype_lv) with (Some dtype). change (dget _ alpha_lv) with (Some a).
    change (dget _ prior_beta_lv) with (Some sc).
    rewrite (rv_node_last h n nd y RV_poisson [] z Hg Hn Hy Hrv). cbv beta iota.
    pose proof (out_some _ _ _ _ _ Hg Hn Hy) as Sy. pose proof (rv_full_params _ _ _ _ _ _ Hg Hfull) as Sp.
    pose proof (Sp a ltac:(do 2 right; by left)) as Sa. pose proof (Sp sc ltac:(do 3 right; by left)) as Sb.
    unfold gamma_poisson_posterior, gen_gamma.
    pose proof (mk_elem_struct B h E_add [a; y] Hg (two_some _ _ _ Sa Sy)) as T1.
    destruct (mk_elem B h E_add [a; y]) as [h1 na] eqn:M1. cbn in T1. destruct T1 as (E1 & G1 & Sna).
    pose proof (mk_const_struct h1 (b_int B 1) G1) as T2. destruct (mk_const h1 (b_int B 1)) as [h2 one] eqn:M2. cbn in T2. destruct T2 as (E2 & G2 & So).
    pose proof (extends_trans _ _ _ E1 E2) as E12.
    pose proof (mk_elem_struct B h2 E_add [sc; one] G2 (two_some _ _ _ (extends_some _ _ _ E12 Sb) So)) as T3.
    destruct (mk_elem B h2 E_add [sc; one]) as [h3 nb] eqn:M3. cbn in T3. destruct T3 as (E3 & G3 & Snb).
    pose proof (extends_trans _ _ _ E12 E3) as E13.
    pose proof (mk_const_struct h3 (b_float B 1) G3) as T4. destruct (mk_const h3 (b_float B 1)) as [h4 one'] eqn:M4. cbn in T4. destruct T4 as (E4 & G4 & So').
    pose proof (extends_trans _ _ _ E13 E4) as E14.
    pose proof (mk_elem_struct B h4 E_truediv [one'; nb] G4 (two_some _ _ _ So' (extends_some _ _ _ E4 Snb))) as T5.
    destruct (mk_elem B h4 E_truediv [one'; nb]) as [h5 nsc] eqn:M5. cbn in T5. destruct T5 as (E5 & G5 & Snsc).
    pose proof (extends_trans _ _ _ E14 E5) as E15.
    assert (Ena : extends h1 h5).
    { eapply extends_trans; [exact E2|]. eapply extends_trans; [exact E3|]. eapply extends_trans; [exact E4|exact E5]. }
    assert (Sall : forall u, u ∈ [size; dtype; na; nsc] -> is_Some (hv h5 u)).
    { intros u [->|[->|[->|[->|?%elem_of_nil]%elem_of_cons]%elem_of_cons]%elem_of_cons]%elem_of_cons; try done.
      - eapply extends_some; [exact E15|]. apply Sp. by left.
      - eapply extends_some; [exact E15|]. apply Sp. right; by left.
      - eapply extends_some; [exact Ena|done]. }
    destruct (gen_full B h5 RV_gamma size dtype [na; nsc] G5 Sall) as (E6 & G6 & Hpost).
    destruct (gen B h5 _ _) as [h6 [[r1 r2] post]]. cbn in E6, G6, Hpost.
    exists h6, post, na, nsc. split; [done|]. split; [by eapply extends_trans|]. split; [done|]. split; [done|].
    intros scalar other cval rho s Av Sv Yv Hops Hold HA HS HY FA FS Yok Ys.
    assert (FY : fits s Yv) by (rewrite <- Ys; by apply fits_full).
    destruct (mk_binary_value B HB scalar other cval rho h E_add Rplus a y Av Yv s (ro_add _ _ _ Hops) Hg Hold HA HY FA FY) as (Av' & V1).
    rewrite M1 in V1. cbn [fst snd] in V1. destruct V1 as (_ & _ & O1 & HA' & FA' & SA' & VA).
    destruct (mk_const_value B scalar other cval rho h1 (b_int B 1) (Tensor [] [1%R]) G1 O1 (ro_int _ _ _ Hops 1) (eq_sym (bo_int B HB 1))) as (_ & _ & O2 & HO).
    rewrite M2 in O2, HO. cbn [fst snd] in O2, HO.
    pose proof (has_extends B scalar other cval rho h h2 _ _ (proj1 Hg) E12 Hold HS) as HS2.
    destruct (mk_binary_value B HB scalar other cval rho h2 E_add Rplus sc one Sv _ s (ro_add _ _ _ Hops) G2 O2 HS2 HO FS (fits_scalar s 1)) as (Rv & V3).
    rewrite M3 in V3. cbn [fst snd] in V3. destruct V3 as (_ & _ & O3 & HR & FR & _ & VR).
    destruct (mk_const_value B scalar other cval rho h3 (b_float B 1) (Tensor [] [1%R]) G3 O3 (ro_float _ _ _ Hops 1) (eq_sym (bo_float B HB 1))) as (_ & _ & O4 & HO').
    rewrite M4 in O4, HO'. cbn [fst snd] in O4, HO'.
    pose proof (has_extends B scalar other cval rho h3 h4 _ _ (proj1 G3) E4 O3 HR) as HR4.
    destruct (mk_binary_value B HB scalar other cval rho h4 E_truediv Rdiv one' nb _ Rv s (ro_div _ _ _ Hops) G4 O4 HO' HR4 (fits_scalar s 1) FR) as (Sv' & V5).
    rewrite M5 in V5. cbn [fst snd] in V5. destruct V5 as (_ & _ & O5 & HS5 & FS' & _ & VS).
    exists Av', Sv'. split; [eapply (has_extends B scalar other cval rho h1 h6); [apply G1| |done|done]; by eapply extends_trans|].
    split; [eapply (has_extends B scalar other cval rho h5 h6); [apply G5|done|done|done]|].
    split; [done|]. split; [done|]. split; [apply SA'; by right|].
    intros i Hi. destruct (VA i Hi) as (x1 & x2 & B1 & B2 & B3). destruct (VR i Hi) as (x3 & x4 & B4 & B5 & B6).
    destruct (VS i Hi) as (x5 & x6 & B7 & B8 & B9). rewrite bget_scalar in B5, B7. injection B5 as <-. injection B7 as <-.
    unfold bval. rewrite B3, B9, B1, B2, B4. cbn. rewrite B6 in B8. injection B8 as <-. done.
  Qed.
End finders.

(** ** The posteriors *)
Section posteriors.
  Context (s : list nat).
  Local Open Scope R_scope.

  Lemma counts_bval x c i : counts s x c -> in_range s i -> bval x i = INR (c i).
  Proof. intros H Hi. unfold bval. by rewrite (H i Hi). Qed.

  Lemma beta_binomial_posterior_array (A B A' B' N Y : tensor R) cn cy :
    counts s N cn -> counts s Y cy -> (forall i, in_range s i -> (cy i <= cn i)%nat) ->
    (forall i, in_range s i -> bval A' i = bval A i + bval Y i /\ bval B' i = bval B i + bval N i - bval Y i) ->
    is_posterior unit_interval s (beta_array s A' B') (beta_array s A B) (binomial_likelihood s cn cy).
  Proof.
    intros HN HY Hle Hv. apply (posterior_components unit_interval s (fun i => beta_density (bval A' i) (bval B' i))
      (fun i => beta_density (bval A i) (bval B i)) (fun i t => binomial_pmf (cn i) t (cy i))).
    intros i Hi. destruct (Hv i Hi) as [-> ->]. rewrite (counts_bval N cn i HN Hi), (counts_bval Y cy i HY Hi).
    apply beta_binomial_component. by apply Hle.
  Qed.

  Lemma half_unit : unit_interval (/ 2).
  Proof. unfold unit_interval. lra. Qed.

  Lemma beta_nb_posterior_array (A B A' B' N Y : tensor R) cy :
    counts s Y cy -> (forall i, in_range s i -> 0 < bval N i) ->
    (forall i, in_range s i -> bval A' i = bval A i + bval Y i /\ bval B' i = bval B i + bval N i) ->
    (is_posterior unit_interval s (beta_array s A' B') (beta_array s A B) (nb_likelihood s (bval N) cy) <->
     forall i, in_range s i -> bval N i = bval Y i).
  Proof.
    intros HY HN Hv.
    assert (Hcomp : forall i, in_range s i ->
      (proportional unit_interval (beta_density (bval A' i) (bval B' i)) (fun t => beta_density (bval A i) (bval B i) t * nb_pmf (bval N i) t (cy i)) <->
       bval N i = bval Y i)).
    { intros i Hi. destruct (Hv i Hi) as [-> ->]. rewrite (counts_bval Y cy i HY Hi).
      pose proof (beta_nb_component (bval A i) (bval B i) (bval N i) (cy i) (HN i Hi)) as Hp. split.
      - intros H. pose proof (proportional_trans _ _ _ _ H (proportional_sym _ _ _ Hp)) as H2.
        apply beta_density_inj in H2 as [H2 _]. lra.
      - intros Heq. rewrite Heq in Hp |- *. exact Hp. }
    split.
    - intros Hpost i Hi. apply Hcomp; [done|].
      apply (posterior_components_inv unit_interval s (fun i => beta_density (bval A' i) (bval B' i))
        (fun i => beta_density (bval A i) (bval B i)) (fun i t => nb_pmf (bval N i) t (cy i)) (/ 2)); [apply half_unit| |exact Hpost|done].
      intros j t Hj Ht. split; [apply beta_density_pos|]. split; [apply beta_density_pos|]. apply nb_pmf_pos; [by apply HN|done].
    - intros H. apply (posterior_components unit_interval s (fun i => beta_density (bval A' i) (bval B' i))
        (fun i => beta_density (bval A i) (bval B i)) (fun i t => nb_pmf (bval N i) t (cy i))).
      intros i Hi. apply Hcomp; [done|]. by apply H.
  Qed.

  Lemma gamma_poisson_posterior_array (A S A' S' Y : tensor R) cy :
    counts s Y cy -> (forall i, in_range s i -> 0 < bval S i) ->
    (forall i, in_range s i -> bval A' i = bval A i + bval Y i /\ bval S' i = 1 / (bval S i + 1)) ->
    (is_posterior pos_reals s (gamma_array s A' S') (gamma_array s A S) (poisson_likelihood s cy) <->
     forall i, in_range s i -> bval S i = 1).
  Proof.
    intros HY HS Hv.
    assert (Hcomp : forall i, in_range s i ->
      (proportional pos_reals (gamma_density (bval A' i) (/ bval S' i)) (fun t => gamma_density (bval A i) (/ bval S i) t * poisson_pmf t (cy i)) <->
       bval S i = 1)).
    { intros i Hi. destruct (Hv i Hi) as [-> ->]. rewrite (counts_bval Y cy i HY Hi). pose proof (HS i Hi) as Hpos.
      pose proof (gamma_poisson_component (bval A i) (/ bval S i) (cy i)) as Hp.
      replace (/ (1 / (bval S i + 1))) with (bval S i + 1) by (field; lra). split.
      - intros H. pose proof (proportional_trans _ _ _ _ H (proportional_sym _ _ _ Hp)) as H2.
        apply gamma_density_inj in H2 as [_ H2]. assert (H3 : bval S i = / bval S i) by lra.
        assert (H4 : bval S i * bval S i = 1) by (rewrite H3 at 1; field; lra). nra.
      - intros H1. rewrite H1 in *. rewrite Rinv_1 in *. exact Hp. }
    split.
    - intros Hpost i Hi. apply Hcomp; [done|].
      apply (posterior_components_inv pos_reals s (fun i => gamma_density (bval A' i) (/ bval S' i))
        (fun i => gamma_density (bval A i) (/ bval S i)) (fun i t => poisson_pmf t (cy i)) 1); [unfold pos_reals; lra| |exact Hpost|done].
      intros j t Hj Ht. split; [apply gamma_density_pos|]. split; [apply gamma_density_pos|]. by apply poisson_pmf_pos.
    - intros H. apply (posterior_components pos_reals s (fun i => gamma_density (bval A' i) (/ bval S' i))
        (fun i => gamma_density (bval A i) (/ bval S i)) (fun i t => poisson_pmf t (cy i))).
      intros i Hi. apply Hcomp; [done|]. by apply H.
  Qed.
End posteriors.

(** ** The shape of the draws *)
Lemma fits_shape_refl s : fits_shape s s.
Proof. split; [done|]. rewrite Nat.sub_diag, drop_0. apply Forall2_same_length_lookup. split; [done|]. intros i d e Hd He. right. congruence. Qed.
Lemma fits_shape_anti s t : fits_shape s t -> fits_shape t s -> s = t.
Proof.
  intros [L1 H1] [L2 H2]. assert (Hl : length s = length t) by lia. rewrite Hl, Nat.sub_diag, drop_0 in H1.
  rewrite Hl, Nat.sub_diag, drop_0 in H2. apply (list_eq_same_length _ _ (length t)); [done|done|].
  intros i d e Hi Hd He.
  pose proof (Forall2_lookup_lr _ _ _ _ _ _ H1 He Hd) as J1; pose proof (Forall2_lookup_lr _ _ _ _ _ _ H2 Hd He) as J2; cbv beta in J1, J2; lia.
Qed.
Lemma fits_fits_shape (s : list nat) (x : tensor R) : fits s x -> fits_shape s (t_shape x).
Proof. by intros (_ & H1 & H2). Qed.
Lemma draw_shape_unique size ps s t : draw_shape size ps s -> draw_shape size ps t -> s = t.
Proof.
  unfold draw_shape. case_decide.
  - intros [H1 H2] [H3 H4]. apply fits_shape_anti; [by apply H4|by apply H2].
  - intros [-> _] [-> _]. done.
Qed.
Lemma draw_shape_full s (a b : tensor R) : t_shape a = s -> fits s b -> draw_shape [] [t_shape a; t_shape b] s.
Proof.
  intros Ha Hb. unfold draw_shape. rewrite decide_True by done. split.
  - rewrite Ha. apply Forall_cons_2; [apply fits_shape_refl|]. apply Forall_cons_2; [by apply fits_fits_shape|]. apply Forall_nil_2.
  - intros t Ht. apply Forall_cons_1 in Ht as [Ht _]. by rewrite Ha in Ht.
Qed.

(** the step has the shape of the latent variable exactly when the observation has *)
Lemma step_shape_iff size (a b a' b' : tensor R) sp s :
  draw_shape size [t_shape a; t_shape b] sp -> fits_shape s sp -> t_shape a' = s -> fits s b' ->
  (draw_shape size [t_shape a'; t_shape b'] sp <-> sp = s).
Proof.
  intros Hsp Hs Ha Hb. split.
  - intros H. unfold draw_shape in H. destruct (decide (size = [])) as [->|Hne].
    + apply (draw_shape_unique [] [t_shape a'; t_shape b']); [|by apply draw_shape_full].
      unfold draw_shape. by rewrite decide_True.
    + destruct H as [-> H]. apply Forall_cons_1 in H as [H _]. rewrite Ha in H. by apply fits_shape_anti.
  - intros ->. unfold draw_shape in *. destruct (decide (size = [])) as [->|Hne].
    + pose proof (draw_shape_full s a' b' Ha Hb) as H. unfold draw_shape in H. by rewrite decide_True in H.
    + destruct Hsp as [-> H]. split; [done|]. rewrite Ha. apply Forall_cons_2; [apply fits_shape_refl|]. apply Forall_cons_2; [by apply fits_fits_shape|]. apply Forall_nil_2.
Qed.
