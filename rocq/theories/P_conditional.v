(** C53: whether the conjugate steps draw from the full conditional of the latent variable in
    the whole model, not only in the pair that was matched. *)
From Verif Require Import L_conjugates L_conditional L_pairs.

(** ** Beta-binomial.  [sigma] gives every model variable its current value and [rho] the
    remaining inputs; the joint log-density is defined there.  The step is right exactly when
    the density of the other variables does not depend on p; so it is right when the
    observation is the only use of p. *)
Theorem C53_beta_binomial_iff_partial :
  forall (B : builder) h n nd y nn p size dtype sz dt a b,
    builder_ok B -> good_heap h -> hn h n = Some nd -> n_outs nd !! 1 = Some y ->
    rv_full h y RV_binomial sz dt [nn; p] -> rv_full h p RV_beta size dtype [a; b] ->
    exists h' post a' b',
      local_beta_binomial_posterior B h n = (h', Ok [(p, post, [])]) /\
      extends h h' /\ rv_full h' post RV_beta size dtype [a'; b'] /\
      forall scalar other cval ld rho sigma V others l0 s Av Bv Nv Yv cn cy,
        real_ops B scalar cval -> log_densities ld -> gives_old h rho ->
        (forall v, is_Some (sigma v) <-> v ∈ V) -> V ≡ₚ p :: y :: others -> NoDup V ->
        joint (tensor_base scalar other) cval ld h rho sigma V l0 ->
        ~ cut_reachable h V [sz; dt; nn] p ->
        has_value B scalar other cval h (over sigma rho) a Av -> fits s Av ->
        has_value B scalar other cval h (over sigma rho) b Bv -> fits s Bv ->
        has_value B scalar other cval h (over sigma rho) nn Nv -> fits s Nv -> counts s Nv cn ->
        has_value B scalar other cval h (over sigma rho) y Yv -> tensor_ok Yv -> t_shape Yv = s -> counts s Yv cy ->
        (forall i, in_range s i -> cy i <= cn i) ->
        exists Av' Bv', has_value B scalar other cval h' (over sigma rho) a' Av' /\ has_value B scalar other cval h' (over sigma rho) b' Bv' /\
          (full_conditional scalar other cval ld h rho V sigma p (array_in unit_interval s) (fun x => beta_array s Av' Bv' (bval x)) <->
           forall x x' m m', array_in unit_interval s x -> array_in unit_interval s x' ->
             joint_at scalar other cval ld h rho sigma p others x m -> joint_at scalar other cval ld h rho sigma p others x' m' -> m = m') /\
          (only_used_by h V p y ->
           full_conditional scalar other cval ld h rho V sigma p (array_in unit_interval s) (fun x => beta_array s Av' Bv' (bval x))).
Proof.
  intros B h n nd y nn p size dtype sz dt a b HB Hg Hn Hy Hrv Hf.
  destruct (beta_binomial_pair B h n nd y nn p size dtype sz dt a b HB Hg Hn Hy Hrv Hf) as (h' & post & a' & b' & H1 & H2 & H3 & H4).
  exists h', post, a', b'. split; [exact H1|]. split; [exact H2|]. split; [exact H3|].
  intros scalar other cval ld rho sigma V others l0 s Av Bv Nv Yv cn cy Hops Hld Hold HV Hperm Hnd Hj Hnp HA FA HB2 FB HN FN CN HY Yok Ys CY Hle.
  destruct (H4 scalar other cval ld rho sigma V others l0 s Av Bv Nv Yv cn cy Hops Hld Hold HV Hperm Hnd Hj Hnp HA FA HB2 FB HN FN CN HY Yok Ys CY Hle) as (Av' & Bv' & V1 & V2 & _ & V3).
  exists Av', Bv'. split; [exact V1|]. split; [exact V2|]. exact V3.
Qed.
Print Assumptions C53_beta_binomial_iff_partial.

(** ** Gamma-Poisson: even when the observation is the only use of the latent variable, the
    step draws from its full conditional exactly when every prior scale is 1 (C31) *)
Theorem C53_gamma_poisson_iff_partial :
  forall (B : builder) h n nd y z size dtype sz dt a sc,
    builder_ok B -> good_heap h -> hn h n = Some nd -> n_outs nd !! 1 = Some y ->
    rv_full h y RV_poisson sz dt [z] -> rv_full h z RV_gamma size dtype [a; sc] ->
    exists h' post a' sc',
      local_gamma_poisson_posterior B h n = (h', Ok [(z, post, [])]) /\
      extends h h' /\ rv_full h' post RV_gamma size dtype [a'; sc'] /\
      forall scalar other cval ld rho sigma V others l0 s Av Sv Yv cy,
        real_ops B scalar cval -> log_densities ld -> gives_old h rho ->
        (forall v, is_Some (sigma v) <-> v ∈ V) -> V ≡ₚ z :: y :: others -> NoDup V ->
        joint (tensor_base scalar other) cval ld h rho sigma V l0 -> only_used_by h V z y ->
        has_value B scalar other cval h (over sigma rho) a Av -> fits s Av ->
        has_value B scalar other cval h (over sigma rho) sc Sv -> fits s Sv -> (forall i, in_range s i -> (0 < bval Sv i)%R) ->
        has_value B scalar other cval h (over sigma rho) y Yv -> tensor_ok Yv -> t_shape Yv = s -> counts s Yv cy ->
        exists Av' Sv', has_value B scalar other cval h' (over sigma rho) a' Av' /\ has_value B scalar other cval h' (over sigma rho) sc' Sv' /\
          (full_conditional scalar other cval ld h rho V sigma z (array_in pos_reals s) (fun x => gamma_array s Av' Sv' (bval x)) <->
           forall i, in_range s i -> bval Sv i = 1%R).
Proof.
  intros B h n nd y z size dtype sz dt a sc HB Hg Hn Hy Hrv Hf.
  destruct (gamma_poisson_pair B h n nd y z size dtype sz dt a sc HB Hg Hn Hy Hrv Hf) as (h' & post & a' & sc' & H1 & H2 & H3 & H4).
  exists h', post, a', sc'. split; [exact H1|]. split; [exact H2|]. split; [exact H3|].
  intros scalar other cval ld rho sigma V others l0 s Av Sv Yv cy Hops Hld Hold HV Hperm Hnd Hj Hu HA FA HS FS Spos HY Yok Ys CY.
  destruct (H4 scalar other cval ld rho sigma V others l0 s Av Sv Yv cy Hops Hld Hold HV Hperm Hnd Hj Hu HA FA HS FS Spos HY Yok Ys CY) as (Av' & Sv' & V1 & V2 & _ & V3).
  exists Av', Sv'. split; [exact V1|]. split; [exact V2|]. exact V3.
Qed.
Print Assumptions C53_gamma_poisson_iff_partial.

(** ** Beta-negative-binomial: exactly when every observation equals its n (C32) *)
Theorem C53_beta_nb_iff_partial :
  forall (B : builder) h n nd y nn p size dtype sz dt a b,
    builder_ok B -> good_heap h -> hn h n = Some nd -> n_outs nd !! 1 = Some y ->
    rv_full h y RV_nbinom sz dt [nn; p] -> rv_full h p RV_beta size dtype [a; b] ->
    exists h' post a' b',
      local_beta_negative_binomial_posterior B h n = (h', Ok [(p, post, [])]) /\
      extends h h' /\ rv_full h' post RV_beta size dtype [a'; b'] /\
      forall scalar other cval ld rho sigma V others l0 s Av Bv Nv Yv cy,
        real_ops B scalar cval -> log_densities ld -> gives_old h rho ->
        (forall v, is_Some (sigma v) <-> v ∈ V) -> V ≡ₚ p :: y :: others -> NoDup V ->
        joint (tensor_base scalar other) cval ld h rho sigma V l0 -> only_used_by h V p y ->
        has_value B scalar other cval h (over sigma rho) a Av -> fits s Av ->
        has_value B scalar other cval h (over sigma rho) b Bv -> fits s Bv ->
        has_value B scalar other cval h (over sigma rho) nn Nv -> fits s Nv -> (forall i, in_range s i -> (0 < bval Nv i)%R) ->
        has_value B scalar other cval h (over sigma rho) y Yv -> tensor_ok Yv -> t_shape Yv = s -> counts s Yv cy ->
        exists Av' Bv', has_value B scalar other cval h' (over sigma rho) a' Av' /\ has_value B scalar other cval h' (over sigma rho) b' Bv' /\
          (full_conditional scalar other cval ld h rho V sigma p (array_in unit_interval s) (fun x => beta_array s Av' Bv' (bval x)) <->
           forall i, in_range s i -> bval Nv i = bval Yv i).
Proof.
  intros B h n nd y nn p size dtype sz dt a b HB Hg Hn Hy Hrv Hf.
  destruct (beta_nb_pair B h n nd y nn p size dtype sz dt a b HB Hg Hn Hy Hrv Hf) as (h' & post & a' & b' & H1 & H2 & H3 & H4).
  exists h', post, a', b'. split; [exact H1|]. split; [exact H2|]. split; [exact H3|].
  intros scalar other cval ld rho sigma V others l0 s Av Bv Nv Yv cy Hops Hld Hold HV Hperm Hnd Hj Hu HA FA HB2 FB HN FN Npos HY Yok Ys CY.
  destruct (H4 scalar other cval ld rho sigma V others l0 s Av Bv Nv Yv cy Hops Hld Hold HV Hperm Hnd Hj Hu HA FA HB2 FB HN FN Npos HY Yok Ys CY) as (Av' & Bv' & V1 & V2 & _ & V3).
  exists Av', Bv'. split; [exact V1|]. split; [exact V2|]. exact V3.
Qed.
Print Assumptions C53_beta_nb_iff_partial.

(** ** Models with two observed variables: the latent variable (7) with parameters 3 and 4, and
    two observed variables (9 and 14) whose last parameter is 7 *)
Definition sp_ty : vtype := VType false 0.
Definition sp_rng : vtype := VType true 20.
Definition sp_h (prior obs : nat) (extra extra2 : list vid) : heap :=
  Heap (list_to_map [(0, Var None sp_rng (KShared None) None); (1, Var None (VType false 1) (KConst 1) None);
                     (2, Var None sp_ty (KConst 2) None); (3, Var None sp_ty KPlain None);
                     (4, Var None sp_ty KPlain None); (5, Var None sp_ty KPlain None);
                     (6, Var None sp_rng KPlain (Some (20, 0))); (7, Var None sp_ty KPlain (Some (20, 1)));
                     (8, Var None sp_rng (KShared None) None); (9, Var None sp_ty KPlain (Some (21, 1)));
                     (10, Var None sp_rng KPlain (Some (21, 0))); (11, Var None sp_rng (KShared None) None);
                     (12, Var None sp_ty KPlain None); (13, Var None sp_rng KPlain (Some (22, 0)));
                     (14, Var None sp_ty KPlain (Some (22, 1)))])
       (list_to_map [(20, Node (ORV prior) [0; 1; 2; 3; 4] [6; 7]); (21, Node (ORV obs) ([8; 1; 2] ++ extra ++ [7]) [10; 9]);
                     (22, Node (ORV obs) ([11; 1; 2] ++ extra2 ++ [7]) [13; 14])]).
Definition sp_T : typing := Typing ty_tag (fun ty => replicate (ty_tag ty) None) (fun _ => NScalar 0).
Definition sp_B : builder := Builder sp_T
  (fun _ tys => VType false (foldr Nat.max 0 (ty_tag <$> tys))) (fun o _ => VType false (length o)) (fun _ _ => VType false 1) sp_rng
  (fun _ _ _ => sp_ty)
  (fun z => (encode_nat z, sp_ty)) (fun z => (encode_nat z, sp_ty)) (1, sp_ty) (2, VType false 1) (3, sp_ty).
Lemma sp_builder : builder_ok sp_B.
Proof. constructor; done. Qed.
Definition sp_scalar (s : nat) (xs : list R) : option R :=
  match s, xs with
  | 0, [a; b] => Some (a + b)%R | 2, [a; b] => Some (a - b)%R | 4, [a; b] => Some (a / b)%R
  | _, _ => None
  end.
Definition sp_cval (c : nat) : tensor R := Tensor [] [IZR (default 0%Z (decode_nat c))].
Lemma sp_ops : real_ops sp_B sp_scalar sp_cval.
Proof. constructor; try done; intros z; cbn; unfold sp_cval; by rewrite decode_encode_nat. Qed.
(** log-densities of the families concerned *)
Definition to_count (r : R) : nat := Z.to_nat (Int_part r).
Definition sp_ld (d : nat) (params : list (tensor R)) (x : tensor R) : R :=
  match params with
  | [_; _; A; B] =>
    if Nat.eqb d RV_beta then ln (beta_array (t_shape x) A B (bval x))
    else if Nat.eqb d RV_gamma then ln (gamma_array (t_shape x) A B (bval x))
    else if Nat.eqb d RV_binomial then ln (binomial_likelihood (t_shape x) (fun i => to_count (bval A i)) (fun i => to_count (bval x i)) (bval B))
    else ln (nb_likelihood (t_shape x) (bval A) (fun i => to_count (bval x i)) (bval B))
  | [_; _; P] => ln (poisson_likelihood (t_shape x) (fun i => to_count (bval x i)) (bval P))
  | _ => 0%R
  end.
Lemma to_count_INR k : to_count (INR k) = k.
Proof. unfold to_count. by rewrite Int_part_INR, Nat2Z.id. Qed.
Lemma to_count_counts s x c i : counts s x c -> in_range s i -> to_count (bval x i) = c i.
Proof. intros Hc Hi. unfold bval. rewrite (Hc i Hi). cbn. apply to_count_INR. Qed.
Lemma sp_densities : log_densities sp_ld.
Proof.
  constructor.
  - exists (fun _ _ _ => 0%R). intros s sz dt A B x _ _ (_ & Hs & _). cbn -[beta_array]. rewrite Hs. lra.
  - exists (fun _ _ _ => 0%R). intros s sz dt A B x _ _ (_ & Hs & _). cbn -[gamma_array]. rewrite Hs. lra.
  - intros s sz dt N P y cn cy _ CN _ _ Hs CY _. cbn -[binomial_likelihood]. rewrite Hs. f_equal. apply product_over_ext.
    intros i Hi. by rewrite (to_count_counts s N cn i CN Hi), (to_count_counts s y cy i CY Hi).
  - intros s sz dt P y cy _ _ Hs CY. cbn -[poisson_likelihood]. rewrite Hs. f_equal. apply product_over_ext.
    intros i Hi. by rewrite (to_count_counts s y cy i CY Hi).
  - intros s sz dt N P y cy _ _ _ _ Hs CY. cbn -[nb_likelihood]. rewrite Hs. f_equal. apply product_over_ext.
    intros i Hi. by rewrite (to_count_counts s y cy i CY Hi).
Qed.

Lemma sp_good d1 d2 e e2 : (e = [] \/ e = [5]) -> (e2 = [] \/ e2 = [12]) -> good_heap (sp_h d1 d2 e e2).
Proof. intros [-> | ->] [-> | ->]; apply heap_check_good; vm_compute; reflexivity. Qed.
Definition sp_rho (a b c c2 : R) (v : vid) : option (tensor R) :=
  match v with 3 => Some (Tensor [] [a]) | 4 => Some (Tensor [] [b]) | 5 => Some (Tensor [] [c]) | 12 => Some (Tensor [] [c2]) | _ => None end.
Definition sp_sigma (two : bool) (x y y2 : R) (v : vid) : option (tensor R) :=
  match v with 7 => Some (Tensor [] [x]) | 9 => Some (Tensor [] [y]) | 14 => if two then Some (Tensor [] [y2]) else None | _ => None end.
Definition sp_V (two : bool) : list vid := if two then [7; 9; 14] else [7; 9].
Lemma sp_old d1 d2 e e2 a b c c2 : gives_old (sp_h d1 d2 e e2) (sp_rho a b c c2).
Proof. intros v. do 13 (destruct v as [|v]; [intros; try (by eexists); by destruct H|]). intros [? H]; done. Qed.
Lemma sp_given two x y y2 v : is_Some (sp_sigma two x y y2 v) <-> v ∈ sp_V two.
Proof.
  rewrite elem_of_list_In. split.
  - do 15 (destruct v as [|v]; [intros [? H]; destruct two; try discriminate H; cbn; tauto|]). intros [? H]; discriminate H.
  - destruct two; cbn; intuition subst; eexists; reflexivity.
Qed.
Lemma sp_prior d1 d2 e e2 : rv_full (sp_h d1 d2 e e2) 7 d1 1 2 [3; 4].
Proof. exists 20, (Node (ORV d1) [0; 1; 2; 3; 4] [6; 7]), 0. repeat split. Qed.
Lemma sp_obs d1 d2 e e2 : rv_full (sp_h d1 d2 e e2) 9 d2 1 2 (e ++ [7]).
Proof. exists 21, (Node (ORV d2) ([8; 1; 2] ++ e ++ [7]) [10; 9]), 8. repeat split. Qed.
Lemma sp_obs2 d1 d2 e e2 : rv_full (sp_h d1 d2 e e2) 14 d2 1 2 (e2 ++ [7]).
Proof. exists 22, (Node (ORV d2) ([11; 1; 2] ++ e2 ++ [7]) [13; 14]), 11. repeat split. Qed.
Lemma leaf_roots h V us v : (forall u, u ∈ us -> owner h u = None) -> cut_reachable h V us v -> v ∈ us.
Proof.
  intros Hl H. induction H as [u Hu|w u Hw IH Hv Hi]; [done|]. unfold input_of, parents in Hi. rewrite (Hl w IH) in Hi. by apply elem_of_nil in Hi.
Qed.
Lemma sp_leaves d1 d2 e e2 us : (forall u, u ∈ us -> u ∈ [0; 1; 2; 3; 4; 5; 8; 11; 12]) -> forall V, ~ cut_reachable (sp_h d1 d2 e e2) V us 7.
Proof.
  intros Hus V H. apply leaf_roots in H.
  - apply Hus in H. rewrite elem_of_list_In in H. cbn in H. intuition lia.
  - intros u Hu. apply Hus in Hu. rewrite elem_of_list_In in Hu. cbn in Hu. intuition (subst; reflexivity).
Qed.
Lemma sp_only d1 d2 e e2 : (e = [] \/ e = [5]) -> only_used_by (sp_h d1 d2 e e2) (sp_V false) 7 9.
Proof.
  intros He. split.
  - intros rv Hrv Hne. rewrite elem_of_list_In in Hrv. cbn in Hrv. destruct Hrv as [<-|[<-|[]]]; [|by destruct Hne].
    rewrite (eq_refl : parents (sp_h d1 d2 e e2) 7 = [0; 1; 2; 3; 4]). apply sp_leaves. intros u. rewrite !elem_of_list_In. cbn. tauto.
  - intros n i nd l Ho Hn Hi. destruct (sp_obs d1 d2 e e2) as (n' & nd' & r & Ho' & Hn' & _ & Hi' & _).
    assert (Hr : r = 8).
    { pose proof (eq_trans (eq_sym Ho') (eq_refl : owner (sp_h d1 d2 e e2) 9 = Some (21, 1))) as E. injection E as ->.
      pose proof (eq_trans (eq_sym Hn') (eq_refl : hn (sp_h d1 d2 e e2) 21 = Some (Node (ORV d2) ([8; 1; 2] ++ e ++ [7]) [10; 9]))) as E.
      injection E as ->. by injection Hi'. }
    rewrite Ho in Ho'. injection Ho' as -> ->. rewrite Hn in Hn'. injection Hn' as ->. rewrite Hi' in Hi.
    change (r :: 1 :: 2 :: e ++ [7]) with ((r :: 1 :: 2 :: e) ++ [7]) in Hi. apply app_inj_tail in Hi as [<- _]. rewrite Hr.
    apply sp_leaves. intros u. rewrite !elem_of_list_In. destruct He as [-> | ->]; cbn; tauto.
Qed.
Section sp_values.
  Context (d1 d2 : nat) (e e2 : list vid) (He : e = [] \/ e = [5]) (He2 : e2 = [] \/ e2 = [12]) (two : bool) (a b c c2 x y y2 : R).
  Notation ev := (evals (tensor_base sp_scalar (fun _ _ => None)) sp_cval (sp_h d1 d2 e e2) (over (sp_sigma two x y y2) (sp_rho a b c c2))).
  Lemma sp_value v t : over (sp_sigma two x y y2) (sp_rho a b c c2) v = Some t -> t_shape t = [] ->
    a_ndim sp_B (ty_def (sp_h d1 d2 e e2) v) = 0 ->
    has_value sp_B sp_scalar (fun _ _ => None) sp_cval (sp_h d1 d2 e e2) (over (sp_sigma two x y y2) (sp_rho a b c c2)) v t.
  Proof. intros H Hs Hr. split; [by apply ev_given|]. unfold rank. by rewrite Hs, Hr. Qed.
  Lemma sp_const1 : ev 1 (sp_cval 1).
  Proof. eapply ev_const; reflexivity. Qed.
  Lemma sp_const2 : ev 2 (sp_cval 2).
  Proof. eapply ev_const; reflexivity. Qed.
  Lemma sp_joint : exists l, joint (tensor_base sp_scalar (fun _ _ => None)) sp_cval sp_ld (sp_h d1 d2 e e2) (sp_rho a b c c2) (sp_sigma two x y y2) (sp_V two) l.
  Proof.
    set (J := factor (tensor_base sp_scalar (fun _ _ => None)) sp_cval sp_ld (sp_h d1 d2 e e2) (sp_rho a b c c2) (sp_sigma two x y y2)).
    assert (F7 : exists l, J 7 l).
    { eexists. eapply factor_given; [apply sp_prior|reflexivity| |reflexivity]. apply evals_list_Forall2.
      constructor; [apply sp_const1|]. constructor; [apply sp_const2|]. do 2 (constructor; [apply ev_given; reflexivity|]). constructor. }
    assert (F9 : exists l, J 9 l).
    { destruct He as [E | E]; (eexists; eapply factor_given; [apply sp_obs|reflexivity| |reflexivity]; apply evals_list_Forall2;
        constructor; [apply sp_const1|]; constructor; [apply sp_const2|]; rewrite E; cbn [app]; repeat (apply Forall2_cons; split; [apply ev_given; reflexivity|]); apply Forall2_nil; done). }
    assert (F14 : two = true -> exists l, J 14 l).
    { intros Ht. destruct He2 as [E | E]; (eexists; eapply factor_given; [apply sp_obs2|rewrite Ht; reflexivity| |reflexivity]; apply evals_list_Forall2;
        constructor; [apply sp_const1|]; constructor; [apply sp_const2|]; rewrite E; cbn [app]; repeat (apply Forall2_cons; split; [apply ev_given; reflexivity|]); apply Forall2_nil; done). }
    destruct F7 as [l7 F7], F9 as [l9 F9]. destruct two eqn:Et.
    - destruct (F14 eq_refl) as [l14 F]. eexists. exists [l7; l9; l14]. split; [|reflexivity]. by repeat constructor.
    - eexists. exists [l7; l9]. split; [|reflexivity]. by repeat constructor.
  Qed.
End sp_values.

(** One use of the latent variable: Beta(1, 1) prior, two successes in five trials.  The
    hypotheses of the first theorem hold, and the step is the full conditional. *)
Example C53_example :
  exists h' post a' b', local_beta_binomial_posterior sp_B (sp_h RV_beta RV_binomial [5] [12]) 21 = (h', Ok [(7, post, [])]) /\
    rv_full h' post RV_beta 1 2 [a'; b'] /\
    exists Av Bv, let rho := sp_rho 1 1 5 3 in let sigma := sp_sigma false (/ 2) (INR 2) (INR 1) in
      has_value sp_B sp_scalar (fun _ _ => None) sp_cval h' (over sigma rho) a' Av /\
      has_value sp_B sp_scalar (fun _ _ => None) sp_cval h' (over sigma rho) b' Bv /\
      full_conditional sp_scalar (fun _ _ => None) sp_cval sp_ld (sp_h RV_beta RV_binomial [5] [12]) rho (sp_V false) sigma 7
        (array_in unit_interval []) (fun x => beta_array [] Av Bv (bval x)).
Proof.
  set (h := sp_h RV_beta RV_binomial [5] [12]). assert (Hg : good_heap h) by (apply sp_good; by right).
  destruct (C53_beta_binomial_iff_partial sp_B h 21 _ 9 5 7 1 2 1 2 3 4 sp_builder Hg eq_refl eq_refl (sp_obs _ _ [5] [12]) (sp_prior _ _ [5] [12]))
    as (h' & post & a' & b' & H1 & _ & H3 & H4).
  exists h', post, a', b'. split; [exact H1|]. split; [exact H3|].
  destruct (sp_joint RV_beta RV_binomial [5] [12] (or_intror eq_refl) (or_intror eq_refl) false 1 1 5 3 (/ 2) (INR 2) (INR 1)) as [l0 Hj].
  destruct (H4 sp_scalar (fun _ _ => None) sp_cval sp_ld (sp_rho 1 1 5 3) (sp_sigma false (/ 2) (INR 2) (INR 1)) (sp_V false) [] l0 []
    (Tensor [] [1%R]) (Tensor [] [1%R]) (Tensor [] [5%R]) (Tensor [] [INR 2]) (fun _ => 5) (fun _ => 2)
    sp_ops sp_densities (sp_old _ _ _ _ _ _ _ _) (sp_given _ _ _ _)) as (Av & Bv & W1 & W2 & _ & W3).
  - reflexivity.
  - apply NoDup_cons. split; [rewrite elem_of_list_singleton; lia|]. apply NoDup_singleton.
  - exact Hj.
  - apply sp_leaves. intros u. rewrite !elem_of_list_In. cbn. tauto.
  - apply sp_value; reflexivity.
  - apply fits_scalar.
  - apply sp_value; reflexivity.
  - apply fits_scalar.
  - apply sp_value; reflexivity.
  - apply fits_scalar.
  - intros i _. rewrite bget_scalar. f_equal. cbn. lra.
  - apply sp_value; reflexivity.
  - reflexivity.
  - reflexivity.
  - intros i _. by rewrite bget_scalar.
  - intros i _. lia.
  - exists Av, Bv. split; [exact W1|]. split; [exact W2|]. apply W3. apply sp_only. by right.
Qed.

(** Two observations of one p: Y1 ~ Binomial(5, p) is 2 and Y2 ~ Binomial(3, p) is 1.  The
    finder accepts both, and neither step is the full conditional of p. *)
Lemma sp_not_constant n1 y1 : (n1 = 5 /\ y1 = 2) \/ (n1 = 3 /\ y1 = 1) ->
  binomial_pmf n1 (/ 2) y1 <> binomial_pmf n1 (/ 4) y1.
Proof. intros [[-> ->]|[-> ->]]; unfold binomial_pmf; cbn -[C]; unfold C; cbn; lra. Qed.
Theorem C53_shared_latent_refuted :
  exists (B : builder) h p y1 y2 V scalar other cval ld rho sigma l0,
    builder_ok B /\ good_heap h /\ real_ops B scalar cval /\ log_densities ld /\ gives_old h rho /\
    (forall v, is_Some (sigma v) <-> v ∈ V) /\ V = [p; y1; y2] /\ NoDup V /\
    rv_full h p RV_beta 1 2 [3; 4] /\ rv_full h y1 RV_binomial 1 2 [5; p] /\ rv_full h y2 RV_binomial 1 2 [12; p] /\
    joint (tensor_base scalar other) cval ld h rho sigma V l0 /\
    forall n, n ∈ [21; 22] -> exists h' post a' b' Av Bv,
      local_beta_binomial_posterior B h n = (h', Ok [(p, post, [])]) /\ rv_full h' post RV_beta 1 2 [a'; b'] /\
      has_value B scalar other cval h' (over sigma rho) a' Av /\ has_value B scalar other cval h' (over sigma rho) b' Bv /\
      ~ full_conditional scalar other cval ld h rho V sigma p (array_in unit_interval []) (fun x => beta_array [] Av Bv (bval x)).
Proof.
  set (h := sp_h RV_beta RV_binomial [5] [12]). assert (Hg : good_heap h) by (apply sp_good; by right).
  destruct (sp_joint RV_beta RV_binomial [5] [12] (or_intror eq_refl) (or_intror eq_refl) true 1 1 5 3 (/ 2) (INR 2) (INR 1)) as [l0 Hj].
  exists sp_B, h, 7, 9, 14, (sp_V true), sp_scalar, (fun _ _ => None), sp_cval, sp_ld, (sp_rho 1 1 5 3), (sp_sigma true (/ 2) (INR 2) (INR 1)), l0.
  assert (Hnd : NoDup (sp_V true)).
  { apply NoDup_cons. split; [rewrite elem_of_list_In; cbn; lia|]. apply NoDup_cons. split; [rewrite elem_of_list_singleton; lia|]. apply NoDup_singleton. }
  split; [apply sp_builder|]. split; [exact Hg|]. split; [apply sp_ops|]. split; [apply sp_densities|]. split; [apply sp_old|].
  split; [apply sp_given|]. split; [reflexivity|]. split; [exact Hnd|].
  split; [apply sp_prior|]. split; [apply (sp_obs _ _ [5] [12])|]. split; [apply (sp_obs2 _ _ [5] [12])|]. split; [exact Hj|].
  (* the two values of p that tell the difference *)
  assert (Hx : forall t, (0 < t < 1)%R -> array_in unit_interval [] (Tensor [] [t])).
  { intros t Ht. split; [reflexivity|]. split; [reflexivity|]. intros i _. unfold bval. rewrite bget_scalar. exact Ht. }
  assert (Hpos : forall k j t, j <= k -> (0 < t < 1)%R -> (0 < binomial_pmf k t j)%R).
  { intros k j t Hle Ht. pose proof (binomial_likelihood_pos [] (fun _ => k) (fun _ => j) (fun _ => t) (fun _ _ => Hle) (fun _ _ => Ht)) as H.
    unfold binomial_likelihood, product_over in H. cbn -[binomial_pmf] in H. lra. }
  assert (Hval : forall rv ns nv k j t m, rv_full h rv RV_binomial 1 2 [ns; 7] -> rv <> 7 ->
    sp_sigma true (/ 2) (INR 2) (INR 1) rv = Some (Tensor [] [INR j]) ->
    sp_sigma true (/ 2) (INR 2) (INR 1) ns = None -> ns <> 7 -> sp_rho 1 1 5 3 ns = Some nv -> nv = Tensor [] [INR k] ->
    j <= k -> (0 < t < 1)%R -> m = ln (binomial_pmf k t j) ->
    joint_at sp_scalar (fun _ _ => None) sp_cval sp_ld h (sp_rho 1 1 5 3) (sp_sigma true (/ 2) (INR 2) (INR 1)) 7 [rv] (Tensor [] [t]) (m + 0)).
  { intros rv ns nv k j t m Hrv Hne Hs Hns Hne2 Hr -> Hle Ht ->. exists [ln (binomial_pmf k t j)]. split; [|reflexivity]. constructor; [|constructor].
    eapply factor_given; [exact Hrv|unfold upd; rewrite decide_False by done; exact Hs| |].
    - apply evals_list_Forall2. constructor; [eapply ev_const; reflexivity|]. constructor; [eapply ev_const; reflexivity|].
      constructor; [apply ev_given; unfold over, upd; rewrite decide_False by done; rewrite Hns; exact Hr|].
      constructor; [apply ev_given; unfold over, upd; rewrite decide_True by done; reflexivity|constructor].
    - rewrite (ld_binomial sp_ld sp_densities [] _ _ _ _ _ (fun _ => k) (fun _ => j)).
      + unfold binomial_likelihood, product_over. change (indices []) with [[] : list nat]. cbn [map fold_right]. unfold bval. rewrite bget_scalar. unfold default. cbn [from_option]. unfold id. rewrite Rmult_1_r. reflexivity.
      + apply fits_scalar.
      + intros i _. by rewrite bget_scalar.
      + apply Hx, Ht.
      + reflexivity.
      + reflexivity.
      + intros i _. by rewrite bget_scalar.
      + intros i _. exact Hle. }
  intros n Hn. rewrite elem_of_list_In in Hn. destruct Hn as [<-|[<-|[]]].
  - destruct (C53_beta_binomial_iff_partial sp_B h 21 _ 9 5 7 1 2 1 2 3 4 sp_builder Hg eq_refl eq_refl (sp_obs _ _ [5] [12]) (sp_prior _ _ [5] [12]))
      as (h' & post & a' & b' & H1 & _ & H3 & H4).
    destruct (H4 sp_scalar (fun _ _ => None) sp_cval sp_ld (sp_rho 1 1 5 3) (sp_sigma true (/ 2) (INR 2) (INR 1)) (sp_V true) [14] l0 []
      (Tensor [] [1%R]) (Tensor [] [1%R]) (Tensor [] [5%R]) (Tensor [] [INR 2]) (fun _ => 5) (fun _ => 2)
      sp_ops sp_densities (sp_old _ _ _ _ _ _ _ _) (sp_given _ _ _ _)) as (Av & Bv & W1 & W2 & W3 & _);
      [reflexivity|exact Hnd|exact Hj|apply sp_leaves; intros u; rewrite !elem_of_list_In; cbn; tauto
      |apply sp_value; reflexivity|apply fits_scalar|apply sp_value; reflexivity|apply fits_scalar|apply sp_value; reflexivity|apply fits_scalar
      |intros i _; rewrite bget_scalar; f_equal; cbn; lra|apply sp_value; reflexivity|reflexivity|reflexivity|intros i _; by rewrite bget_scalar|intros i _; lia|].
    exists h', post, a', b', Av, Bv. split; [exact H1|]. split; [exact H3|]. split; [exact W1|]. split; [exact W2|].
    intros Hfc. pose proof (proj1 W3 Hfc (Tensor [] [(/ 2)%R]) (Tensor [] [(/ 4)%R]) _ _ (Hx (/ 2)%R ltac:(lra)) (Hx (/ 4)%R ltac:(lra))
      (Hval 14 12 _ 3 1 (/ 2)%R _ (sp_obs2 _ _ [5] [12]) ltac:(lia) eq_refl eq_refl ltac:(lia) eq_refl ltac:(repeat f_equal; cbn; lra) ltac:(lia) ltac:(lra) eq_refl)
      (Hval 14 12 _ 3 1 (/ 4)%R _ (sp_obs2 _ _ [5] [12]) ltac:(lia) eq_refl eq_refl ltac:(lia) eq_refl ltac:(repeat f_equal; cbn; lra) ltac:(lia) ltac:(lra) eq_refl)) as E.
    apply (sp_not_constant 3 1); [by right|]. apply ln_inv; [apply Hpos; [lia|lra]|apply Hpos; [lia|lra]|]. lra.
  - destruct (C53_beta_binomial_iff_partial sp_B h 22 _ 14 12 7 1 2 1 2 3 4 sp_builder Hg eq_refl eq_refl (sp_obs2 _ _ [5] [12]) (sp_prior _ _ [5] [12]))
      as (h' & post & a' & b' & H1 & _ & H3 & H4).
    destruct (H4 sp_scalar (fun _ _ => None) sp_cval sp_ld (sp_rho 1 1 5 3) (sp_sigma true (/ 2) (INR 2) (INR 1)) (sp_V true) [9] l0 []
      (Tensor [] [1%R]) (Tensor [] [1%R]) (Tensor [] [3%R]) (Tensor [] [INR 1]) (fun _ => 3) (fun _ => 1)
      sp_ops sp_densities (sp_old _ _ _ _ _ _ _ _) (sp_given _ _ _ _)) as (Av & Bv & W1 & W2 & W3 & _);
      [apply perm_skip, perm_swap|exact Hnd|exact Hj|apply sp_leaves; intros u; rewrite !elem_of_list_In; cbn; tauto
      |apply sp_value; reflexivity|apply fits_scalar|apply sp_value; reflexivity|apply fits_scalar|apply sp_value; reflexivity|apply fits_scalar
      |intros i _; rewrite bget_scalar; f_equal; cbn; lra|apply sp_value; reflexivity|reflexivity|reflexivity|intros i _; by rewrite bget_scalar|intros i _; lia|].
    exists h', post, a', b', Av, Bv. split; [exact H1|]. split; [exact H3|]. split; [exact W1|]. split; [exact W2|].
    intros Hfc. pose proof (proj1 W3 Hfc (Tensor [] [(/ 2)%R]) (Tensor [] [(/ 4)%R]) _ _ (Hx (/ 2)%R ltac:(lra)) (Hx (/ 4)%R ltac:(lra))
      (Hval 9 5 _ 5 2 (/ 2)%R _ (sp_obs _ _ [5] [12]) ltac:(lia) eq_refl eq_refl ltac:(lia) eq_refl ltac:(repeat f_equal; cbn; lra) ltac:(lia) ltac:(lra) eq_refl)
      (Hval 9 5 _ 5 2 (/ 4)%R _ (sp_obs _ _ [5] [12]) ltac:(lia) eq_refl eq_refl ltac:(lia) eq_refl ltac:(repeat f_equal; cbn; lra) ltac:(lia) ltac:(lra) eq_refl)) as E.
    apply (sp_not_constant 5 2); [by left|]. apply ln_inv; [apply Hpos; [lia|lra]|apply Hpos; [lia|lra]|]. lra.
Qed.
Print Assumptions C53_shared_latent_refuted.

(** The hypotheses of the other two theorems can be met: Gamma(1, scale) with one Poisson
    observation 2, where the step is the full conditional for scale 1 and not for scale 2 ... *)
Example C53_gamma_poisson_example (scale : R) : (0 < scale)%R ->
  let h := sp_h RV_gamma RV_poisson [] [] in let rho := sp_rho 1 scale 5 3 in let sigma := sp_sigma false 1 (INR 2) (INR 1) in
  exists h' post a' sc' Av Sv, local_gamma_poisson_posterior sp_B h 21 = (h', Ok [(7, post, [])]) /\
    rv_full h' post RV_gamma 1 2 [a'; sc'] /\
    has_value sp_B sp_scalar (fun _ _ => None) sp_cval h' (over sigma rho) a' Av /\
    has_value sp_B sp_scalar (fun _ _ => None) sp_cval h' (over sigma rho) sc' Sv /\
    (full_conditional sp_scalar (fun _ _ => None) sp_cval sp_ld h rho (sp_V false) sigma 7
       (array_in pos_reals []) (fun x => gamma_array [] Av Sv (bval x)) <-> scale = 1%R).
Proof.
  intros Hsc h rho sigma. assert (Hg : good_heap h) by (apply sp_good; by left).
  destruct (C53_gamma_poisson_iff_partial sp_B h 21 _ 9 7 1 2 1 2 3 4 sp_builder Hg eq_refl eq_refl (sp_obs _ _ [] []) (sp_prior _ _ [] []))
    as (h' & post & a' & sc' & H1 & _ & H3 & H4).
  destruct (sp_joint RV_gamma RV_poisson [] [] (or_introl eq_refl) (or_introl eq_refl) false 1 scale 5 3 1 (INR 2) (INR 1)) as [l0 Hj].
  destruct (H4 sp_scalar (fun _ _ => None) sp_cval sp_ld rho sigma (sp_V false) [] l0 []
    (Tensor [] [1%R]) (Tensor [] [scale]) (Tensor [] [INR 2]) (fun _ => 2)
    sp_ops sp_densities (sp_old _ _ _ _ _ _ _ _) (sp_given _ _ _ _)) as (Av & Sv & W1 & W2 & W3).
  - reflexivity.
  - apply NoDup_cons. split; [rewrite elem_of_list_singleton; lia|]. apply NoDup_singleton.
  - exact Hj.
  - apply sp_only. by left.
  - apply sp_value; reflexivity.
  - apply fits_scalar.
  - apply sp_value; reflexivity.
  - apply fits_scalar.
  - intros i _. unfold bval. rewrite bget_scalar. exact Hsc.
  - apply sp_value; reflexivity.
  - reflexivity.
  - reflexivity.
  - intros i _. by rewrite bget_scalar.
  - exists h', post, a', sc', Av, Sv. split; [exact H1|]. split; [exact H3|]. split; [exact W1|]. split; [exact W2|]. rewrite W3. split.
    + intros H. specialize (H [] ltac:(constructor)). unfold bval in H. rewrite bget_scalar in H. exact H.
    + intros -> i _. unfold bval. by rewrite bget_scalar.
Qed.
(** ... and Beta(1, 1) with one observation [k] of NB(3, p) *)
Example C53_beta_nb_example (k : nat) :
  let h := sp_h RV_beta RV_nbinom [5] [12] in let rho := sp_rho 1 1 3 3 in let sigma := sp_sigma false (/ 2) (INR k) (INR 1) in
  exists h' post a' b' Av Bv, local_beta_negative_binomial_posterior sp_B h 21 = (h', Ok [(7, post, [])]) /\
    rv_full h' post RV_beta 1 2 [a'; b'] /\
    has_value sp_B sp_scalar (fun _ _ => None) sp_cval h' (over sigma rho) a' Av /\
    has_value sp_B sp_scalar (fun _ _ => None) sp_cval h' (over sigma rho) b' Bv /\
    (full_conditional sp_scalar (fun _ _ => None) sp_cval sp_ld h rho (sp_V false) sigma 7
       (array_in unit_interval []) (fun x => beta_array [] Av Bv (bval x)) <-> k = 3).
Proof.
  intros h rho sigma. assert (Hg : good_heap h) by (apply sp_good; by right).
  destruct (C53_beta_nb_iff_partial sp_B h 21 _ 9 5 7 1 2 1 2 3 4 sp_builder Hg eq_refl eq_refl (sp_obs _ _ [5] [12]) (sp_prior _ _ [5] [12]))
    as (h' & post & a' & b' & H1 & _ & H3 & H4).
  destruct (sp_joint RV_beta RV_nbinom [5] [12] (or_intror eq_refl) (or_intror eq_refl) false 1 1 3 3 (/ 2) (INR k) (INR 1)) as [l0 Hj].
  destruct (H4 sp_scalar (fun _ _ => None) sp_cval sp_ld rho sigma (sp_V false) [] l0 []
    (Tensor [] [1%R]) (Tensor [] [1%R]) (Tensor [] [3%R]) (Tensor [] [INR k]) (fun _ => k)
    sp_ops sp_densities (sp_old _ _ _ _ _ _ _ _) (sp_given _ _ _ _)) as (Av & Bv & W1 & W2 & W3).
  - reflexivity.
  - apply NoDup_cons. split; [rewrite elem_of_list_singleton; lia|]. apply NoDup_singleton.
  - exact Hj.
  - apply sp_only. by right.
  - apply sp_value; reflexivity.
  - apply fits_scalar.
  - apply sp_value; reflexivity.
  - apply fits_scalar.
  - apply sp_value; reflexivity.
  - apply fits_scalar.
  - intros i _. unfold bval. rewrite bget_scalar. unfold default. cbn [from_option]. unfold id. apply (IZR_lt 0 3). lia.
  - apply sp_value; reflexivity.
  - reflexivity.
  - reflexivity.
  - intros i _. by rewrite bget_scalar.
  - exists h', post, a', b', Av, Bv. split; [exact H1|]. split; [exact H3|]. split; [exact W1|]. split; [exact W2|]. rewrite W3.
    assert (E3 : 3%R = INR 3) by (cbn; lra). split.
    + intros H. specialize (H [] ltac:(constructor)). unfold bval in H. rewrite !bget_scalar in H. unfold default in H. cbn [from_option] in H. unfold id in H.
      rewrite E3 in H. symmetry. by apply INR_eq.
    + intros -> i _. unfold bval. rewrite !bget_scalar. exact E3.
Qed.
