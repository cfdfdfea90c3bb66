(** C30-C33: the closed-form steps of conjugates.py. *)
From Verif Require Import L_conjugates L_discover.

(** ** C30: p ~ Beta(a, b), Y ~ Binomial(n, p), one observation per component of p.  The
    step is a Beta draw with the size and dtype of the prior, and its density is
    proportional to prior times likelihood. *)
Theorem C30_beta_binomial_posterior :
  forall (B : builder) h n nd y nn p size dtype a b,
    builder_ok B -> good_heap h -> hn h n = Some nd -> n_outs nd !! 1 = Some y ->
    rv_node h y RV_binomial [nn; p] -> rv_full h p RV_beta size dtype [a; b] ->
    exists h' post a' b',
      local_beta_binomial_posterior B h n = (h', Ok [(p, post, [])]) /\
      extends h h' /\ rv_full h' post RV_beta size dtype [a'; b'] /\
      forall scalar other cval rho s Av Bv Nv Yv cn cy,
        real_ops B scalar cval -> gives_old h rho ->
        has_value B scalar other cval h rho a Av -> fits s Av ->
        has_value B scalar other cval h rho b Bv -> fits s Bv ->
        has_value B scalar other cval h rho nn Nv -> fits s Nv -> counts s Nv cn ->
        has_value B scalar other cval h rho y Yv -> tensor_ok Yv -> t_shape Yv = s -> counts s Yv cy ->
        (forall i, in_range s i -> cy i <= cn i) ->
        exists Av' Bv', has_value B scalar other cval h' rho a' Av' /\ has_value B scalar other cval h' rho b' Bv' /\
          t_shape Av' = s /\ t_shape Bv' = s /\
          is_posterior unit_interval s (beta_array s Av' Bv') (beta_array s Av Bv) (binomial_likelihood s cn cy).
Proof.
  intros B h n nd y nn p size dtype a b HB Hg Hn Hy Hrv Hf.
  destruct (beta_binomial_built B HB h n nd y nn p size dtype a b Hg Hn Hy Hrv Hf) as (h' & post & a' & b' & H1 & H2 & _ & H4 & H5).
  exists h', post, a', b'. split; [exact H1|]. split; [exact H2|]. split; [exact H4|].
  intros scalar other cval rho s Av Bv Nv Yv cn cy Hops Hold HA FA HBv FB HN FN CN HY Yok Ys CY Hle.
  destruct (H5 scalar other cval rho s Av Bv Nv Yv Hops Hold HA HBv HN HY FA FB FN Yok Ys) as (Av' & Bv' & V1 & V2 & _ & _ & S1 & S2 & V3).
  exists Av', Bv'. split; [done|]. split; [done|]. split; [done|]. split; [done|].
  by apply (beta_binomial_posterior_array s Av Bv Av' Bv' Nv Yv).
Qed.
Print Assumptions C30_beta_binomial_posterior.

(** ** C31: z ~ Gamma(a, scale), Y ~ Poisson(z).  The code adds 1 to the scale as if it were
    the rate: the step is the posterior exactly when every scale (so every rate) is 1. *)
Theorem C31_gamma_poisson_iff_partial :
  forall (B : builder) h n nd y z size dtype a sc,
    builder_ok B -> good_heap h -> hn h n = Some nd -> n_outs nd !! 1 = Some y ->
    rv_node h y RV_poisson [z] -> rv_full h z RV_gamma size dtype [a; sc] ->
    exists h' post a' sc',
      local_gamma_poisson_posterior B h n = (h', Ok [(z, post, [])]) /\
      extends h h' /\ rv_full h' post RV_gamma size dtype [a'; sc'] /\
      forall scalar other cval rho s Av Sv Yv cy,
        real_ops B scalar cval -> gives_old h rho ->
        has_value B scalar other cval h rho a Av -> fits s Av ->
        has_value B scalar other cval h rho sc Sv -> fits s Sv -> (forall i, in_range s i -> (0 < bval Sv i)%R) ->
        has_value B scalar other cval h rho y Yv -> tensor_ok Yv -> t_shape Yv = s -> counts s Yv cy ->
        exists Av' Sv', has_value B scalar other cval h' rho a' Av' /\ has_value B scalar other cval h' rho sc' Sv' /\
          t_shape Av' = s /\ fits s Sv' /\
          (is_posterior pos_reals s (gamma_array s Av' Sv') (gamma_array s Av Sv) (poisson_likelihood s cy) <->
           forall i, in_range s i -> bval Sv i = 1%R).
Proof.
  intros B h n nd y z size dtype a sc HB Hg Hn Hy Hrv Hf.
  destruct (gamma_poisson_built B HB h n nd y z size dtype a sc Hg Hn Hy Hrv Hf) as (h' & post & a' & sc' & H1 & H2 & _ & H4 & H5).
  exists h', post, a', sc'. split; [exact H1|]. split; [exact H2|]. split; [exact H4|].
  intros scalar other cval rho s Av Sv Yv cy Hops Hold HA FA HS FS Spos HY Yok Ys CY.
  destruct (H5 scalar other cval rho s Av Sv Yv Hops Hold HA HS HY FA FS Yok Ys) as (Av' & Sv' & V1 & V2 & _ & F2 & S1 & V3).
  exists Av', Sv'. split; [done|]. split; [done|]. split; [done|]. split; [done|].
  by apply (gamma_poisson_posterior_array s Av Sv Av' Sv' Yv).
Qed.
Print Assumptions C31_gamma_poisson_iff_partial.

(** ** C32: p ~ Beta(a, b), Y ~ NB(n, p).  The posterior is Beta(a + n, b + y); the code gives
    Beta(a + y, b + n), which is the posterior exactly when every y equals its n. *)
Theorem C32_beta_nb_iff_partial :
  forall (B : builder) h n nd y nn p size dtype a b,
    builder_ok B -> good_heap h -> hn h n = Some nd -> n_outs nd !! 1 = Some y ->
    rv_node h y RV_nbinom [nn; p] -> rv_full h p RV_beta size dtype [a; b] ->
    exists h' post a' b',
      local_beta_negative_binomial_posterior B h n = (h', Ok [(p, post, [])]) /\
      extends h h' /\ rv_full h' post RV_beta size dtype [a'; b'] /\
      forall scalar other cval rho s Av Bv Nv Yv cy,
        real_ops B scalar cval -> gives_old h rho ->
        has_value B scalar other cval h rho a Av -> fits s Av ->
        has_value B scalar other cval h rho b Bv -> fits s Bv ->
        has_value B scalar other cval h rho nn Nv -> fits s Nv -> (forall i, in_range s i -> (0 < bval Nv i)%R) ->
        has_value B scalar other cval h rho y Yv -> tensor_ok Yv -> t_shape Yv = s -> counts s Yv cy ->
        exists Av' Bv', has_value B scalar other cval h' rho a' Av' /\ has_value B scalar other cval h' rho b' Bv' /\
          t_shape Av' = s /\ fits s Bv' /\
          (is_posterior unit_interval s (beta_array s Av' Bv') (beta_array s Av Bv) (nb_likelihood s (bval Nv) cy) <->
           forall i, in_range s i -> bval Nv i = bval Yv i).
Proof.
  intros B h n nd y nn p size dtype a b HB Hg Hn Hy Hrv Hf.
  destruct (beta_nb_built B HB h n nd y nn p size dtype a b Hg Hn Hy Hrv Hf) as (h' & post & a' & b' & H1 & H2 & _ & H4 & H5).
  exists h', post, a', b'. split; [exact H1|]. split; [exact H2|]. split; [exact H4|].
  intros scalar other cval rho s Av Bv Nv Yv cy Hops Hold HA FA HBv FB HN FN Npos HY Yok Ys CY.
  destruct (H5 scalar other cval rho s Av Bv Nv Yv Hops Hold HA HBv HN HY FA FB FN Yok Ys) as (Av' & Bv' & V1 & V2 & _ & F2 & S1 & V3).
  exists Av', Bv'. split; [done|]. split; [done|]. split; [done|]. split; [done|].
  by apply (beta_nb_posterior_array s Av Bv Av' Bv' Nv Yv).
Qed.
Print Assumptions C32_beta_nb_iff_partial.

(** ** C33: the step has the shape of the latent variable exactly when the observation has
    that shape, that is, when no two observations share a component of it.  [sz] is the
    value of [size], [sp] the shape of the latent variable, [s] that of the observation. *)
Theorem C33_beta_binomial_shape_partial :
  forall (B : builder) h n nd y nn p size dtype a b,
    builder_ok B -> good_heap h -> hn h n = Some nd -> n_outs nd !! 1 = Some y ->
    rv_node h y RV_binomial [nn; p] -> rv_full h p RV_beta size dtype [a; b] ->
    exists h' post a' b',
      local_beta_binomial_posterior B h n = (h', Ok [(p, post, [])]) /\
      extends h h' /\ rv_full h' post RV_beta size dtype [a'; b'] /\
      forall scalar other cval rho s sp sz Av Bv Nv Yv,
        real_ops B scalar cval -> gives_old h rho ->
        has_value B scalar other cval h rho a Av -> fits s Av ->
        has_value B scalar other cval h rho b Bv -> fits s Bv ->
        has_value B scalar other cval h rho nn Nv -> fits s Nv ->
        has_value B scalar other cval h rho y Yv -> tensor_ok Yv -> t_shape Yv = s ->
        draw_shape sz [t_shape Av; t_shape Bv] sp -> fits_shape s sp ->
        exists Av' Bv', has_value B scalar other cval h' rho a' Av' /\ has_value B scalar other cval h' rho b' Bv' /\
          (draw_shape sz [t_shape Av'; t_shape Bv'] sp <-> sp = s).
Proof.
  intros B h n nd y nn p size dtype a b HB Hg Hn Hy Hrv Hf.
  destruct (beta_binomial_built B HB h n nd y nn p size dtype a b Hg Hn Hy Hrv Hf) as (h' & post & a' & b' & H1 & H2 & _ & H4 & H5).
  exists h', post, a', b'. split; [exact H1|]. split; [exact H2|]. split; [exact H4|].
  intros scalar other cval rho s sp sz Av Bv Nv Yv Hops Hold HA FA HBv FB HN FN HY Yok Ys Hsp Hfs.
  destruct (H5 scalar other cval rho s Av Bv Nv Yv Hops Hold HA HBv HN HY FA FB FN Yok Ys) as (Av' & Bv' & V1 & V2 & _ & F2 & S1 & S2 & V3).
  exists Av', Bv'. split; [done|]. split; [done|]. by apply (step_shape_iff sz Av Bv Av' Bv' sp s).
Qed.
Print Assumptions C33_beta_binomial_shape_partial.

Theorem C33_gamma_poisson_shape_partial :
  forall (B : builder) h n nd y z size dtype a sc,
    builder_ok B -> good_heap h -> hn h n = Some nd -> n_outs nd !! 1 = Some y ->
    rv_node h y RV_poisson [z] -> rv_full h z RV_gamma size dtype [a; sc] ->
    exists h' post a' sc',
      local_gamma_poisson_posterior B h n = (h', Ok [(z, post, [])]) /\
      extends h h' /\ rv_full h' post RV_gamma size dtype [a'; sc'] /\
      forall scalar other cval rho s sp sz Av Sv Yv,
        real_ops B scalar cval -> gives_old h rho ->
        has_value B scalar other cval h rho a Av -> fits s Av ->
        has_value B scalar other cval h rho sc Sv -> fits s Sv ->
        has_value B scalar other cval h rho y Yv -> tensor_ok Yv -> t_shape Yv = s ->
        draw_shape sz [t_shape Av; t_shape Sv] sp -> fits_shape s sp ->
        exists Av' Sv', has_value B scalar other cval h' rho a' Av' /\ has_value B scalar other cval h' rho sc' Sv' /\
          (draw_shape sz [t_shape Av'; t_shape Sv'] sp <-> sp = s).
Proof.
  intros B h n nd y z size dtype a sc HB Hg Hn Hy Hrv Hf.
  destruct (gamma_poisson_built B HB h n nd y z size dtype a sc Hg Hn Hy Hrv Hf) as (h' & post & a' & sc' & H1 & H2 & _ & H4 & H5).
  exists h', post, a', sc'. split; [exact H1|]. split; [exact H2|]. split; [exact H4|].
  intros scalar other cval rho s sp sz Av Sv Yv Hops Hold HA FA HS FS HY Yok Ys Hsp Hfs.
  destruct (H5 scalar other cval rho s Av Sv Yv Hops Hold HA HS HY FA FS Yok Ys) as (Av' & Sv' & V1 & V2 & _ & F2 & S1 & V3).
  exists Av', Sv'. split; [done|]. split; [done|]. by apply (step_shape_iff sz Av Sv Av' Sv' sp s).
Qed.
Print Assumptions C33_gamma_poisson_shape_partial.

Theorem C33_beta_nb_shape_partial :
  forall (B : builder) h n nd y nn p size dtype a b,
    builder_ok B -> good_heap h -> hn h n = Some nd -> n_outs nd !! 1 = Some y ->
    rv_node h y RV_nbinom [nn; p] -> rv_full h p RV_beta size dtype [a; b] ->
    exists h' post a' b',
      local_beta_negative_binomial_posterior B h n = (h', Ok [(p, post, [])]) /\
      extends h h' /\ rv_full h' post RV_beta size dtype [a'; b'] /\
      forall scalar other cval rho s sp sz Av Bv Nv Yv,
        real_ops B scalar cval -> gives_old h rho ->
        has_value B scalar other cval h rho a Av -> fits s Av ->
        has_value B scalar other cval h rho b Bv -> fits s Bv ->
        has_value B scalar other cval h rho nn Nv -> fits s Nv ->
        has_value B scalar other cval h rho y Yv -> tensor_ok Yv -> t_shape Yv = s ->
        draw_shape sz [t_shape Av; t_shape Bv] sp -> fits_shape s sp ->
        exists Av' Bv', has_value B scalar other cval h' rho a' Av' /\ has_value B scalar other cval h' rho b' Bv' /\
          (draw_shape sz [t_shape Av'; t_shape Bv'] sp <-> sp = s).
Proof.
  intros B h n nd y nn p size dtype a b HB Hg Hn Hy Hrv Hf.
  destruct (beta_nb_built B HB h n nd y nn p size dtype a b Hg Hn Hy Hrv Hf) as (h' & post & a' & b' & H1 & H2 & _ & H4 & H5).
  exists h', post, a', b'. split; [exact H1|]. split; [exact H2|]. split; [exact H4|].
  intros scalar other cval rho s sp sz Av Bv Nv Yv Hops Hold HA FA HBv FB HN FN HY Yok Ys Hsp Hfs.
  destruct (H5 scalar other cval rho s Av Bv Nv Yv Hops Hold HA HBv HN HY FA FB FN Yok Ys) as (Av' & Bv' & V1 & V2 & _ & F2 & S1 & V3).
  exists Av', Bv'. split; [done|]. split; [done|]. by apply (step_shape_iff sz Av Bv Av' Bv' sp s).
Qed.
Print Assumptions C33_beta_nb_shape_partial.

(** ** Concrete models.  [cj_h prior obs extra k]: the latent variable 7 with parameters 3, 4
    (rank 0) drawn by node 20, and the observed variable 9 of rank [k] drawn by node 21 with
    parameters [extra ++ [7]]; 5 is a scalar (the n of the binomial). *)
Definition cj_ty (k : nat) : vtype := VType false k.
Definition cj_h (prior obs : nat) (extra : list vid) (k : nat) : heap :=
  Heap (list_to_map [(0, Var None (VType true 20) (KShared None) None); (1, Var None (cj_ty 1) (KConst 1) None);
                     (2, Var None (cj_ty 0) (KConst 2) None); (3, Var None (cj_ty 0) KPlain None);
                     (4, Var None (cj_ty 0) KPlain None); (5, Var None (cj_ty 0) KPlain None);
                     (6, Var None (VType true 20) KPlain (Some (20, 0))); (7, Var None (cj_ty 0) KPlain (Some (20, 1)));
                     (8, Var None (VType true 20) (KShared None) None); (9, Var None (cj_ty k) KPlain (Some (21, 1)));
                     (10, Var None (VType true 20) KPlain (Some (21, 0)))])
       (list_to_map [(20, Node (ORV prior) [0; 1; 2; 3; 4] [6; 7]);
                     (21, Node (ORV obs) ([8; 1; 2] ++ extra ++ [7]) [10; 9])]).
Definition cj_T : typing := Typing ty_tag (fun ty => replicate (ty_tag ty) None) (fun _ => NScalar 0).
Definition cj_B : builder := Builder cj_T
  (fun _ tys => cj_ty (foldr Nat.max 0 (ty_tag <$> tys))) (fun o _ => cj_ty (length o)) (fun _ _ => cj_ty 1) (VType true 20)
  (fun _ _ _ => cj_ty 0)
  (fun z => (encode_nat z, cj_ty 0)) (fun z => (encode_nat z, cj_ty 0)) (1, cj_ty 0) (2, cj_ty 1) (3, cj_ty 0).
Lemma cj_builder : builder_ok cj_B.
Proof. constructor; done. Qed.
Definition cj_scalar (s : nat) (xs : list R) : option R :=
  match s, xs with
  | 0, [a; b] => Some (a + b)%R | 2, [a; b] => Some (a - b)%R | 4, [a; b] => Some (a / b)%R
  | _, _ => None
  end.
Definition cj_cval (c : nat) : tensor R := Tensor [] [IZR (default 0%Z (decode_nat c))].
Lemma cj_ops : real_ops cj_B cj_scalar cj_cval.
Proof. constructor; try done; intros z; cbn; unfold cj_cval; by rewrite decode_encode_nat. Qed.
Definition cj_rho (a b c : R) (y : tensor R) (v : vid) : option (tensor R) :=
  match v with 3 => Some (Tensor [] [a]) | 4 => Some (Tensor [] [b]) | 5 => Some (Tensor [] [c]) | 9 => Some y | _ => None end.
Lemma cj_good d1 d2 extra k : (extra = [] \/ extra = [5]) -> good_heap (cj_h d1 d2 extra k).
Proof. intros [-> | ->]; apply heap_check_good; vm_compute; reflexivity. Qed.
Lemma cj_old d1 d2 extra k a b c y : gives_old (cj_h d1 d2 extra k) (cj_rho a b c y).
Proof. intros v. do 10 (destruct v as [|v]; [intros; try (by eexists); by destruct H|]). intros [? H]; done. Qed.
Lemma cj_prior d1 d2 extra k : rv_full (cj_h d1 d2 extra k) 7 d1 1 2 [3; 4].
Proof. exists 20, (Node (ORV d1) [0; 1; 2; 3; 4] [6; 7]), 0. repeat split. Qed.
Lemma cj_obs d1 d2 extra k : rv_node (cj_h d1 d2 extra k) 9 d2 (extra ++ [7]).
Proof. exists 21, 1, (Node (ORV d2) ([8; 1; 2] ++ extra ++ [7]) [10; 9]), 8, 1, 2. repeat split. Qed.
Lemma cj_values d1 d2 extra k a b c y : rank y = k ->
  let has v x := has_value cj_B cj_scalar (fun _ _ => None) cj_cval (cj_h d1 d2 extra k) (cj_rho a b c y) v x in
  has 3 (Tensor [] [a]) /\ has 4 (Tensor [] [b]) /\ has 5 (Tensor [] [c]) /\ has 9 y.
Proof. intros Hk. cbv zeta. split_and!; (split; [apply ev_given; reflexivity|]); first [reflexivity|exact Hk]. Qed.

Ltac cj_side V :=
  lazymatch goal with
  | |- has_value _ _ _ _ _ _ _ _ => exact V
  | |- tensor_ok _ => reflexivity
  | |- t_shape _ = _ => reflexivity
  | |- counts _ _ _ => intros i _; rewrite bget_scalar; f_equal; cbn; lra
  end.
(** two successes in five trials, Beta(1, 2) prior: the step is Beta(3, 5) *)
Example C30_example :
  exists h' post a' b', local_beta_binomial_posterior cj_B (cj_h RV_beta RV_binomial [5] 0) 21 = (h', Ok [(7, post, [])]) /\
    rv_full h' post RV_beta 1 2 [a'; b'] /\
    exists Av Bv, has_value cj_B cj_scalar (fun _ _ => None) cj_cval h' (cj_rho 1 2 5 (Tensor [] [2%R])) a' Av /\
      has_value cj_B cj_scalar (fun _ _ => None) cj_cval h' (cj_rho 1 2 5 (Tensor [] [2%R])) b' Bv /\
      is_posterior unit_interval [] (beta_array [] Av Bv) (beta_array [] (Tensor [] [1%R]) (Tensor [] [2%R])) (binomial_likelihood [] (fun _ => 5) (fun _ => 2)).
Proof.
  destruct (C30_beta_binomial_posterior cj_B (cj_h RV_beta RV_binomial [5] 0) 21 _ 9 5 7 1 2 3 4 cj_builder
    (cj_good _ _ _ _ (or_intror eq_refl)) eq_refl eq_refl (cj_obs _ _ [5] 0) (cj_prior _ _ [5] 0)) as (h' & post & a' & b' & H1 & _ & H3 & H4).
  exists h', post, a', b'. split; [exact H1|]. split; [exact H3|].
  destruct (cj_values RV_beta RV_binomial [5] 0 1 2 5 (Tensor [] [2%R]) eq_refl) as (V1 & V2 & V3 & V4).
  destruct (H4 cj_scalar (fun _ _ => None) cj_cval _ [] _ _ _ (Tensor [] [2%R]) (fun _ => 5) (fun _ => 2) cj_ops (cj_old _ _ _ _ _ _ _ _)
    V1 (fits_scalar [] 1) V2 (fits_scalar [] 2) V3 (fits_scalar [] 5)) as (Av & Bv & W1 & W2 & _ & _ & W3); try cj_side V4.
  - intros i _. intros. lia.
  - exists Av, Bv. split; [exact W1|]. split; [exact W2|exact W3].
Qed.

(** C31: prior Gamma(shape 1, scale 2), one observation 0 *)
Theorem C31_gamma_poisson_refuted :
  exists (B : builder) h n z post h' a' sc' scalar other cval rho Av Sv Av' Sv',
    builder_ok B /\ good_heap h /\ real_ops B scalar cval /\ gives_old h rho /\
    rv_full h z RV_gamma 1 2 [3; 4] /\ rv_node h 9 RV_poisson [z] /\
    local_gamma_poisson_posterior B h n = (h', Ok [(z, post, [])]) /\
    rv_full h' post RV_gamma 1 2 [a'; sc'] /\
    has_value B scalar other cval h rho 3 Av /\ has_value B scalar other cval h rho 4 Sv /\ rho 9 = Some (Tensor [] [INR 0]) /\
    has_value B scalar other cval h' rho a' Av' /\ has_value B scalar other cval h' rho sc' Sv' /\
    ~ is_posterior pos_reals [] (gamma_array [] Av' Sv') (gamma_array [] Av Sv) (poisson_likelihood [] (fun _ => 0)).
Proof.
  destruct (C31_gamma_poisson_iff_partial cj_B (cj_h RV_gamma RV_poisson [] 0) 21 _ 9 7 1 2 3 4 cj_builder
    (cj_good _ _ _ _ (or_introl eq_refl)) eq_refl eq_refl (cj_obs _ _ [] 0) (cj_prior _ _ [] 0)) as (h' & post & a' & sc' & H1 & _ & H3 & H4).
  destruct (cj_values RV_gamma RV_poisson [] 0 1 2 5 (Tensor [] [INR 0]) eq_refl) as (V1 & V2 & V3 & V4).
  destruct (H4 cj_scalar (fun _ _ => None) cj_cval _ [] _ _ (Tensor [] [INR 0]) (fun _ => 0) cj_ops (cj_old _ _ _ _ _ _ _ _)
    V1 (fits_scalar [] 1) V2 (fits_scalar [] 2)) as (Av & Sv & W1 & W2 & _ & _ & W3); try cj_side V4.
  { intros i _. unfold bval. rewrite bget_scalar. cbn. lra. }
  exists cj_B, (cj_h RV_gamma RV_poisson [] 0), 21, 7, post, h', a', sc', cj_scalar, (fun _ _ => None), cj_cval, (cj_rho 1 2 5 (Tensor [] [INR 0])),
    (Tensor [] [1%R]), (Tensor [] [2%R]), Av, Sv.
  split; [apply cj_builder|]. split; [apply cj_good; by left|]. split; [apply cj_ops|]. split; [apply cj_old|].
  split; [apply (cj_prior _ _ [] 0)|]. split; [apply (cj_obs _ _ [] 0)|]. split; [exact H1|]. split; [exact H3|].
  split; [exact V1|]. split; [exact V2|]. split; [reflexivity|]. split; [exact W1|]. split; [exact W2|].
  rewrite W3. intros H. assert (Hr : in_range [] []) by constructor. specialize (H [] Hr). unfold bval in H. rewrite bget_scalar in H. cbn in H. lra.
Qed.
Print Assumptions C31_gamma_poisson_refuted.
(** with scale 1 the step is right: the hypotheses of C31 and its condition can be met *)
Example C31_example :
  exists h' post, local_gamma_poisson_posterior cj_B (cj_h RV_gamma RV_poisson [] 0) 21 = (h', Ok [(7, post, [])]) /\
    exists a' sc' Av Sv, rv_full h' post RV_gamma 1 2 [a'; sc'] /\
      has_value cj_B cj_scalar (fun _ _ => None) cj_cval h' (cj_rho 3 1 0 (Tensor [] [INR 2])) a' Av /\
      has_value cj_B cj_scalar (fun _ _ => None) cj_cval h' (cj_rho 3 1 0 (Tensor [] [INR 2])) sc' Sv /\
      is_posterior pos_reals [] (gamma_array [] Av Sv) (gamma_array [] (Tensor [] [3%R]) (Tensor [] [1%R])) (poisson_likelihood [] (fun _ => 2)).
Proof.
  destruct (C31_gamma_poisson_iff_partial cj_B (cj_h RV_gamma RV_poisson [] 0) 21 _ 9 7 1 2 3 4 cj_builder
    (cj_good _ _ _ _ (or_introl eq_refl)) eq_refl eq_refl (cj_obs _ _ [] 0) (cj_prior _ _ [] 0)) as (h' & post & a' & sc' & H1 & _ & H3 & H4).
  destruct (cj_values RV_gamma RV_poisson [] 0 3 1 0 (Tensor [] [INR 2]) eq_refl) as (V1 & V2 & V3 & V4).
  destruct (H4 cj_scalar (fun _ _ => None) cj_cval _ [] _ _ (Tensor [] [INR 2]) (fun _ => 2) cj_ops (cj_old _ _ _ _ _ _ _ _)
    V1 (fits_scalar [] 3) V2 (fits_scalar [] 1)) as (Av & Sv & W1 & W2 & _ & _ & W3); try cj_side V4.
  { intros i _. unfold bval. rewrite bget_scalar. cbn. lra. }
  exists h', post. split; [exact H1|]. exists a', sc', Av, Sv. split; [exact H3|]. split; [exact W1|]. split; [exact W2|].
  apply W3. intros i _. unfold bval. by rewrite bget_scalar.
Qed.

(** C32: Beta(1, 1) prior, NB(3, p), observation 1 *)
Theorem C32_beta_nb_refuted :
  exists (B : builder) h n p post h' a' b' scalar other cval rho Av Bv Nv Av' Bv',
    builder_ok B /\ good_heap h /\ real_ops B scalar cval /\ gives_old h rho /\
    rv_full h p RV_beta 1 2 [3; 4] /\ rv_node h 9 RV_nbinom [5; p] /\
    local_beta_negative_binomial_posterior B h n = (h', Ok [(p, post, [])]) /\
    rv_full h' post RV_beta 1 2 [a'; b'] /\
    has_value B scalar other cval h rho 3 Av /\ has_value B scalar other cval h rho 4 Bv /\
    has_value B scalar other cval h rho 5 Nv /\ (0 < bval Nv [])%R /\ rho 9 = Some (Tensor [] [INR 1]) /\
    has_value B scalar other cval h' rho a' Av' /\ has_value B scalar other cval h' rho b' Bv' /\
    ~ is_posterior unit_interval [] (beta_array [] Av' Bv') (beta_array [] Av Bv) (nb_likelihood [] (bval Nv) (fun _ => 1)).
Proof.
  destruct (C32_beta_nb_iff_partial cj_B (cj_h RV_beta RV_nbinom [5] 0) 21 _ 9 5 7 1 2 3 4 cj_builder
    (cj_good _ _ _ _ (or_intror eq_refl)) eq_refl eq_refl (cj_obs _ _ [5] 0) (cj_prior _ _ [5] 0)) as (h' & post & a' & b' & H1 & _ & H3 & H4).
  destruct (cj_values RV_beta RV_nbinom [5] 0 1 1 3 (Tensor [] [INR 1]) eq_refl) as (V1 & V2 & V3 & V4).
  destruct (H4 cj_scalar (fun _ _ => None) cj_cval _ [] _ _ _ (Tensor [] [INR 1]) (fun _ => 1) cj_ops (cj_old _ _ _ _ _ _ _ _)
    V1 (fits_scalar [] 1) V2 (fits_scalar [] 1) V3 (fits_scalar [] 3)) as (Av & Bv & W1 & W2 & _ & _ & W3); try cj_side V4.
  { intros i _. unfold bval. rewrite bget_scalar. cbn. lra. }
  exists cj_B, (cj_h RV_beta RV_nbinom [5] 0), 21, 7, post, h', a', b', cj_scalar, (fun _ _ => None), cj_cval, (cj_rho 1 1 3 (Tensor [] [INR 1])),
    (Tensor [] [1%R]), (Tensor [] [1%R]), (Tensor [] [3%R]), Av, Bv.
  split; [apply cj_builder|]. split; [apply cj_good; by right|]. split; [apply cj_ops|]. split; [apply cj_old|].
  split; [apply (cj_prior _ _ [5] 0)|]. split; [apply (cj_obs _ _ [5] 0)|]. split; [exact H1|]. split; [exact H3|].
  split; [exact V1|]. split; [exact V2|]. split; [exact V3|]. split; [unfold bval; rewrite bget_scalar; cbn; lra|]. split; [reflexivity|].
  split; [exact W1|]. split; [exact W2|].
  rewrite W3. intros H. assert (Hr : in_range [] []) by constructor. specialize (H [] Hr). unfold bval in H. rewrite !bget_scalar in H. cbn in H. lra.
Qed.
Print Assumptions C32_beta_nb_refuted.
Example C32_example :
  exists h' post, local_beta_negative_binomial_posterior cj_B (cj_h RV_beta RV_nbinom [5] 0) 21 = (h', Ok [(7, post, [])]) /\
    exists a' b' Av Bv, rv_full h' post RV_beta 1 2 [a'; b'] /\
      has_value cj_B cj_scalar (fun _ _ => None) cj_cval h' (cj_rho 1 1 2 (Tensor [] [INR 2])) a' Av /\
      has_value cj_B cj_scalar (fun _ _ => None) cj_cval h' (cj_rho 1 1 2 (Tensor [] [INR 2])) b' Bv /\
      is_posterior unit_interval [] (beta_array [] Av Bv) (beta_array [] (Tensor [] [1%R]) (Tensor [] [1%R])) (nb_likelihood [] (bval (Tensor [] [2%R])) (fun _ => 2)).
Proof.
  destruct (C32_beta_nb_iff_partial cj_B (cj_h RV_beta RV_nbinom [5] 0) 21 _ 9 5 7 1 2 3 4 cj_builder
    (cj_good _ _ _ _ (or_intror eq_refl)) eq_refl eq_refl (cj_obs _ _ [5] 0) (cj_prior _ _ [5] 0)) as (h' & post & a' & b' & H1 & _ & H3 & H4).
  destruct (cj_values RV_beta RV_nbinom [5] 0 1 1 2 (Tensor [] [INR 2]) eq_refl) as (V1 & V2 & V3 & V4).
  destruct (H4 cj_scalar (fun _ _ => None) cj_cval _ [] _ _ _ (Tensor [] [INR 2]) (fun _ => 2) cj_ops (cj_old _ _ _ _ _ _ _ _)
    V1 (fits_scalar [] 1) V2 (fits_scalar [] 1) V3 (fits_scalar [] 2)) as (Av & Bv & W1 & W2 & _ & _ & W3); try cj_side V4.
  { intros i _. unfold bval. rewrite bget_scalar. cbn. lra. }
  exists h', post. split; [exact H1|]. exists a', b', Av, Bv. split; [exact H3|]. split; [exact W1|]. split; [exact W2|].
  apply W3. intros i _. unfold bval. by rewrite !bget_scalar.
Qed.

(** C33: one p shared by [k] observations, for any [k]: the step draws [k] values instead of
    the one value of p *)
Lemma vector_fits (l : list R) : tensor_ok (Tensor [length l] l).
Proof. unfold tensor_ok. cbn. lia. Qed.
Theorem C33_shared_latent_refuted :
  forall k, exists (B : builder) h n p post h' a' b' scalar other cval rho Av Bv Nv Yv Av' Bv',
    builder_ok B /\ good_heap h /\ real_ops B scalar cval /\ gives_old h rho /\
    rv_full h p RV_beta 1 2 [3; 4] /\ rv_node h 9 RV_binomial [5; p] /\
    local_beta_binomial_posterior B h n = (h', Ok [(p, post, [])]) /\
    rv_full h' post RV_beta 1 2 [a'; b'] /\
    has_value B scalar other cval h rho 3 Av /\ has_value B scalar other cval h rho 4 Bv /\
    has_value B scalar other cval h rho 5 Nv /\ has_value B scalar other cval h rho 9 Yv /\ t_shape Yv = [k] /\
    has_value B scalar other cval h' rho a' Av' /\ has_value B scalar other cval h' rho b' Bv' /\
    draw_shape [] [t_shape Av; t_shape Bv] [] /\ draw_shape [] [t_shape Av'; t_shape Bv'] [k] /\
    ~ draw_shape [] [t_shape Av'; t_shape Bv'] [].
Proof.
  intros k. set (Yv := Tensor [k] (replicate k 0%R)).
  assert (Yok : tensor_ok Yv) by (unfold tensor_ok, Yv; cbn; rewrite replicate_length; lia).
  destruct (beta_binomial_built cj_B cj_builder (cj_h RV_beta RV_binomial [5] 1) 21 _ 9 5 7 1 2 3 4
    (cj_good _ _ _ _ (or_intror eq_refl)) eq_refl eq_refl (cj_obs _ _ [5] 1) (cj_prior _ _ [5] 1)) as (h' & post & a' & b' & H1 & _ & _ & H3 & H4).
  destruct (cj_values RV_beta RV_binomial [5] 1 1 1 2 Yv eq_refl) as (V1 & V2 & V3 & V4).
  destruct (H4 cj_scalar (fun _ _ => None) cj_cval _ [k] _ _ _ _ cj_ops (cj_old _ _ _ _ _ _ _ _) V1 V2 V3 V4
    (fits_scalar [k] 1) (fits_scalar [k] 1) (fits_scalar [k] 2) Yok eq_refl) as (Av & Bv & W1 & W2 & F1 & F2 & S1 & S2 & _).
  assert (Hk : draw_shape [] [t_shape Av; t_shape Bv] [k]) by (by apply draw_shape_full).
  exists cj_B, (cj_h RV_beta RV_binomial [5] 1), 21, 7, post, h', a', b', cj_scalar, (fun _ _ => None), cj_cval, (cj_rho 1 1 2 Yv),
    (Tensor [] [1%R]), (Tensor [] [1%R]), (Tensor [] [2%R]), Yv, Av, Bv.
  split; [apply cj_builder|]. split; [apply cj_good; by right|]. split; [apply cj_ops|]. split; [apply cj_old|].
  split; [apply (cj_prior _ _ [5] 1)|]. split; [apply (cj_obs _ _ [5] 1)|]. split; [exact H1|]. split; [exact H3|].
  split; [exact V1|]. split; [exact V2|]. split; [exact V3|]. split; [exact V4|]. split; [reflexivity|]. split; [exact W1|]. split; [exact W2|].
  split; [apply (draw_shape_full [] (Tensor [] [1%R]) (Tensor [] [1%R])); [done|apply fits_scalar]|].
  split; [exact Hk|]. intros H. pose proof (draw_shape_unique _ _ _ _ H Hk). done.
Qed.
Print Assumptions C33_shared_latent_refuted.
(** the shape condition can be met: scalar latent variable, scalar observation *)
Example C33_example : draw_shape [] [[]; []] [] /\ fits_shape [] [] /\ fits_shape [3] [] /\ draw_shape [3] [[]; []] [3].
Proof.
  split; [|split; [|split]].
  - apply (draw_shape_full [] (Tensor [] [1%R]) (Tensor [] [1%R])); [done|apply fits_scalar].
  - apply fits_shape_refl.
  - split; [cbn; lia|]. cbn. constructor.
  - unfold draw_shape. rewrite decide_False by done. split; [done|]. repeat (apply Forall_cons_2; [split; [cbn; lia|cbn; constructor]|]). apply Forall_nil_2.
Qed.
