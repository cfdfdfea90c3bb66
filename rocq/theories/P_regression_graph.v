(** Property C52. *)
From Coq Require Import Reals Lra ssrfun ssrbool.
From mathcomp Require Import eqtype choice fintype ssralg zmodp matrix.
From Verif Require M_gauss S_gauss S_regression M_regression.
From Verif Require Import S_gibbs L_kernel_runs L_match L_gibbs L_horseshoe_graph L_regression_step E_basic E_code E_linalg.
Import L_linalg_mx.
Global Open Scope nat_scope.

(** On every graph with a negative-binomial (Bernoulli) variable [y] of the matched form
    whose factor passes the test, the finder builds one kernel for the coefficients, with
    the coefficients, their prior scale, the design, the dispersion and [y] as inputs unless
    they are constants.  Whatever their values (an n x p design, n counts, p positive prior
    scales, a positive dispersion in an array of at most one dimension), the kernel runs a
    program that draws Polya-Gamma variables with parameters [y_i + h] (1) and [(X beta)_i],
    then normal variables, each draw with a generator of its own that is advanced.  Its
    result is a draw from the conditional of the coefficients given the data and the
    Polya-Gamma variables exactly when all prior scales are one; in the Bernoulli case that
    is for the model with the opposite sign, and for the matched one [X' (y - 1/2)] has to
    vanish in addition. *)
Section kernel.
  Context (B : builder) (h : heap) (n : nid) (nd : node) (y c X beta std : vid).
  Context (Hg : good_heap h) (Hleaf : forall v, shared_var h v -> owner h v = None) (Hcl : constant_leaves h).
  Context (Hn : hn h n = Some nd) (Hy : n_outs nd !! 1 = Some y) (HB : builder_ok B).
  Context (Hpass : passes B h c) (Hf : fifth_input h beta std).

  Theorem C52_nbinom_kernel_partial hh : nbinom_form h y hh c X beta -> buildable B h beta X [hh; y] -> gamma_params_plain h hh ->
    exists h' m beta' ins inner rest,
      nbinom_logistic_finder B h n = (h', Ok ((beta, beta', []) :: rest)) /\ extends h h' /\ hv h beta' = None /\
      kernel_node h' m ins inner [beta'] /\
      (forall v, v ∈ ins <-> v ∈ [beta; std; X; hh; y] /\ is_constant h v = false) /\
      forall scalar other cval cholesky, ranks_ok B other -> constants_ok B cval -> arithmetic_ok scalar -> sums_ok other -> linalg_ok cholesky other ->
      forall rho, gives_old h rho -> no_constants h rho ->
      forall n p (bv sd : 'cV[R]_p) (Xv : 'M[R]_(n, p)) o hval (yv : 'I_n -> nat),
        has_value B scalar other cval h rho beta (varr bv) -> has_value B scalar other cval h rho std (varr sd) ->
        has_value B scalar other cval h rho X (marr Xv) -> has_value B scalar other cval h rho hh (mkt o (fun _ => hval)) ->
        has_value B scalar other cval h rho y (varr (\col_i INR (yv i))%Rg) ->
        Forall (eq 1) o -> length o <= 1 -> (forall j, Rlt 0 (sd j 0%Rg)) -> Rlt 0 hval ->
        exists P, kernel_runs scalar other cval h' rho ins inner P /\
          forall g, (forall b v, Rlt 0 b -> Rlt 0 v -> Rlt 0 (g b v)) ->
          augmentation_step (fun i => INR (yv i) + hval)%R (fun i => (Xv *m bv)%Rg i 0%Rg)
            (fun w => S_regression.nb_joint g sd Xv w hval yv) P
          <-> forall j, sd j 0%Rg = 1%R.
  Proof using All.
    intros Hform Hbl Hpl. destruct (nbinom_kernel B h Hg Hleaf Hcl HB n nd y Hn Hy hh c X beta std Hform Hpass Hf Hbl Hpl)
      as (h' & beta' & m & inner & rest & H1 & H2 & H3 & H4 & H5).
    exists h', m, beta', (remove_constants h (PVar <$> [beta; std; X; hh; y])), inner, rest. split; [exact H1|]. split; [exact H2|]. split; [exact H3|]. split; [exact H4|].
    split; [intros v; apply remove_constants_elem|].
    intros scalar other cval cholesky HR HC HA HF HL rho Hold Hnc nn p bv sd Xv o hval yv V1 V2 V3 V4 V5 Ho Hlen Psd Ph.
    rewrite (all_ones o Ho) in V4. set (k := length o) in *.
    exists (reg_prog nn p (varr (\col_i (INR (yv i) + hval)%R)%Rg) (varr (Xv *m bv)%Rg) (M_regression.nbinom_normal_posterior cholesky sd Xv hval yv)).
    split.
    - eapply H5; [exact HR|exact HC|exact Hold|exact Hnc| |].
      + apply Forall2_cons_2; [exact V1|]. apply Forall2_cons_2; [exact V2|]. apply Forall2_cons_2; [exact V3|].
        apply Forall2_cons_2; [exact V4|]. apply Forall2_cons_2; [exact V5|apply Forall2_nil_2].
      + eapply nbinom_runs; eassumption.
    - intros g Hgp. eapply nb_step_iff; [exact HL|exact Hgp| | |exact Psd|exact Ph].
      + apply varr_components. intros i. by rewrite col_at.
      + by apply varr_components.
  Qed.

  Theorem C52_bernoulli_kernel_partial : bern_form h y c X beta -> buildable B h beta X [y] ->
    exists h' m beta' ins inner,
      bern_logistic_finder B h n = (h', Ok [(beta, beta', [])]) /\ extends h h' /\ hv h beta' = None /\
      kernel_node h' m ins inner [beta'] /\
      (forall v, v ∈ ins <-> v ∈ [beta; std; X; y] /\ is_constant h v = false) /\
      forall scalar other cval cholesky, ranks_ok B other -> constants_ok B cval -> arithmetic_ok scalar -> sums_ok other -> linalg_ok cholesky other ->
      forall rho, gives_old h rho -> no_constants h rho ->
      forall n p (bv sd : 'cV[R]_p) (Xv : 'M[R]_(n, p)) (yv : 'I_n -> bool),
        has_value B scalar other cval h rho beta (varr bv) -> has_value B scalar other cval h rho std (varr sd) ->
        has_value B scalar other cval h rho X (marr Xv) ->
        has_value B scalar other cval h rho y (varr (\col_i (if yv i then 1 else 0)%R)%Rg) ->
        (forall j, Rlt 0 (sd j 0%Rg)) ->
        exists P, kernel_runs scalar other cval h' rho ins inner P /\
          forall g, (forall b v, Rlt 0 b -> Rlt 0 v -> Rlt 0 (g b v)) ->
          (augmentation_step (fun _ : 'I_n => 1)%R (fun i => (Xv *m bv)%Rg i 0%Rg)
             (fun w => S_regression.bern_joint g sd Xv w (-1)%R yv) P
           <-> (forall j, sd j 0%Rg = 1%R) /\ mulmx (trmx Xv) (\col_i ((ssrnat.nat_of_bool (yv i))%:R - 2%:R^-1))%Rg = 0%Rg) /\
          (augmentation_step (fun _ : 'I_n => 1)%R (fun i => (Xv *m bv)%Rg i 0%Rg)
             (fun w => S_regression.bern_joint g sd Xv w 1%R yv) P
           <-> forall j, sd j 0%Rg = 1%R).
  Proof using All.
    intros Hform Hbl. destruct (bern_kernel B h Hg Hleaf Hcl HB n nd y Hn Hy c X beta std Hform Hpass Hf Hbl)
      as (h' & beta' & m & inner & H1 & H2 & H3 & H4 & H5).
    exists h', m, beta', (remove_constants h (PVar <$> [beta; std; X; y])), inner. split; [exact H1|]. split; [exact H2|]. split; [exact H3|]. split; [exact H4|].
    split; [intros v; apply remove_constants_elem|].
    intros scalar other cval cholesky HR HC HA HF HL rho Hold Hnc nn p bv sd Xv yv V1 V2 V3 V4 Psd.
    exists (reg_prog nn p (number 1) (varr (Xv *m bv)%Rg) (M_regression.bern_normal_posterior cholesky sd Xv yv)).
    split.
    - eapply H5; [exact HR|exact HC|exact Hold|exact Hnc| |].
      + apply Forall2_cons_2; [exact V1|]. apply Forall2_cons_2; [exact V2|]. apply Forall2_cons_2; [exact V3|].
        apply Forall2_cons_2; [exact V4|apply Forall2_nil_2].
      + eapply bern_runs; eassumption.
    - intros g Hgp. eapply bern_step_iff; [exact HL|exact Hgp| | |exact Psd].
      + apply one_components.
      + by apply varr_components.
  Qed.
End kernel.
Print Assumptions C52_nbinom_kernel_partial.
Print Assumptions C52_bernoulli_kernel_partial.

(** ** A graph that meets the hypotheses: coefficients (9) with prior scale 6 and design 5, and
    the observation (16), negative-binomial with dispersion 14 or Bernoulli *)
Definition rg_h (bern : bool) : heap :=
  Heap (list_to_map [(0, Var None (VType true 20) (KShared None) None); (1, Var None (ge_ty 1) (KConst 1) None);
                     (2, Var None (ge_ty 0) (KConst 3) None); (3, Var None (ge_ty 0) (KConst 3) None);
                     (4, Var None (ge_ty 1) (KConst 2) None); (5, Var None (ge_ty 2) KPlain None);
                     (6, Var None (ge_ty 1) KPlain None); (7, Var None (ge_ty 0) KPlain None);
                     (8, Var None (VType true 20) KPlain (Some (20, 0))); (9, Var (Some "beta"%string) (ge_ty 1) KPlain (Some (20, 1)));
                     (10, Var None (ge_ty 1) KPlain (Some (21, 0))); (11, Var None (ge_ty 1) KPlain (Some (22, 0)));
                     (12, Var None (ge_ty 1) KPlain (Some (23, 0)));
                     (13, Var None (VType true 20) KPlain (Some (24, 0))); (14, Var (Some "h"%string) (ge_ty 0) KPlain (Some (24, 1)));
                     (15, Var None (VType true 20) KPlain (Some (25, 0))); (16, Var None (ge_ty 1) KPlain (Some (25, 1)))])
       (list_to_map [(20, Node (ORV RV_normal) [0; 1; 2; 3; 6] [8; 9]);
                     (21, Node (OOther K_dot) [5; 9] [10]);
                     (22, Node (OElem E_mul) [4; 10] [11]);
                     (23, Node (OElem E_sigmoid) [11] [12]);
                     (24, Node (ORV RV_gamma) [0; 1; 2; 7; 7] [13; 14]);
                     (25, if bern then Node (ORV RV_bernoulli) [0; 1; 2; 12] [15; 16] else Node (ORV RV_nbinom) [0; 1; 2; 14; 12] [15; 16])]).
Lemma rg_good b : good_heap (rg_h b).
Proof. apply heap_check_good. destruct b; vm_compute; reflexivity. Qed.
Lemma rg_leaf b v : shared_var (rg_h b) v -> owner (rg_h b) v = None.
Proof. apply leaf_check_ok. vm_compute. reflexivity. Qed.
Lemma rg_const b : constant_leaves (rg_h b).
Proof.
  intros v nm ty c ow. unfold rg_h, hv. cbn [h_vars]. intros H. apply elem_of_list_to_map_2 in H.
  repeat (apply elem_of_cons in H as [H|H]; [injection H as -> -> -> ?; subst; try done|]); try (by apply elem_of_nil in H).
Qed.
Lemma rg_nbinom : nbinom_form (rg_h false) 16 14 4 5 9.
Proof. exists 12. split; [do 6 eexists; split_and!; reflexivity|]. exists 11, 10. split_and!; do 3 eexists; split_and!; reflexivity. Qed.
Lemma rg_bern : bern_form (rg_h true) 16 4 5 9.
Proof. exists 12. split; [do 6 eexists; split_and!; reflexivity|]. exists 11, 10. split_and!; do 3 eexists; split_and!; reflexivity. Qed.
Lemma rg_passes b : passes le_B (rg_h b) 4.
Proof. exists 2, [], (NScalar (-1)), []. split; [do 2 eexists; reflexivity|]. split; [reflexivity|]. split; [constructor|by right]. Qed.
Lemma rg_fifth b : fifth_input (rg_h b) 9 6.
Proof. do 3 eexists. split_and!; reflexivity. Qed.
Lemma rg_buildable b vs : (forall v, v ∈ vs -> v ∈ [14; 16]) -> buildable le_B (rg_h b) 9 5 vs.
Proof.
  intros Hvs. exists 6. split; [apply rg_fifth|]. split; [eexists; split; [reflexivity|cbn; lia]|]. split; [eexists; split; [reflexivity|cbn; lia]|].
  intros v Hv (nm & ty & u & ow & Hs). assert (Hin : v ∈ [9; 6; 5; 14; 16]) by (repeat (apply elem_of_cons in Hv as [->|Hv]; [set_solver|]); apply Hvs in Hv; set_solver).
  clear Hv. repeat (apply elem_of_cons in Hin as [->|Hin]; [vm_compute in Hs; done|]). by apply elem_of_nil in Hin.
Qed.
Lemma rg_plain b : gamma_params_plain (rg_h b) 14.
Proof.
  intros x z (m & k & nd & rng & size & dtype & H1 & H2 & H3 & H4). vm_compute in H1. injection H1 as <- <-.
  vm_compute in H2. injection H2 as <-. cbn in H4. injection H4 as _ _ _ <- <-.
  split; intros (nm & ty & u & ow & Hs); vm_compute in Hs; done.
Qed.
Definition rg_rho n p (bv sd : 'cV[R]_p) (Xv : 'M[R]_(n, p)) (hv : R) (yv : 'cV[R]_n) : vid -> option (tensor R) :=
  given [9; 6; 5; 14; 16] [varr bv; varr sd; marr Xv; number hv; varr yv].
Lemma rg_values b n p (bv sd : 'cV[R]_p) (Xv : 'M[R]_(n, p)) hv yv :
  let rho := rg_rho n p bv sd Xv hv yv in let has v x := has_value le_B ge_scalar le_other ge_cval (rg_h b) rho v x in
  gives_old (rg_h b) rho /\ no_constants (rg_h b) rho /\
  has 9 (varr bv) /\ has 6 (varr sd) /\ has 5 (marr Xv) /\ has 14 (mkt [] (fun _ => hv)) /\ has 16 (varr yv).
Proof.
  cbv zeta. assert (Hin : forall v x, rg_rho n p bv sd Xv hv yv v = Some x -> v ∈ [9; 6; 5; 14; 16]).
  { intros v x Hv. apply (given_elem [9; 6; 5; 14; 16] [varr bv; varr sd; marr Xv; number hv; varr yv]). eauto. }
  split; [|split; [|split_and!; (split; [by apply ev_given|reflexivity])]].
  - intros v [x Hv]. apply Hin in Hv. repeat (apply elem_of_cons in Hv as [->|Hv]; [by eexists|]). by apply elem_of_nil in Hv.
  - intros v Hc. destruct (rg_rho n p bv sd Xv hv yv v) as [x|] eqn:Hv; [|done]. apply Hin in Hv.
    repeat (apply elem_of_cons in Hv as [->|Hv]; [vm_compute in Hc; done|]). by apply elem_of_nil in Hv.
Qed.

(** unit prior scales, any design, dispersion and counts: the step is right *)
Example C52_example n p (bv : 'cV[R]_p) (Xv : 'M[R]_(n, p)) hval (yv : 'I_n -> nat) g : Rlt 0 hval ->
  (forall b v, Rlt 0 b -> Rlt 0 v -> Rlt 0 (g b v)) ->
  let sd := (\col_j 1%R : 'cV[R]_p)%Rg in
  exists h' m beta' ins inner rest P, nbinom_logistic_finder le_B (rg_h false) 25 = (h', Ok ((9, beta', []) :: rest)) /\
    kernel_node h' m ins inner [beta'] /\
    kernel_runs ge_scalar le_other ge_cval h' (rg_rho n p bv sd Xv hval (\col_i INR (yv i))%Rg) ins inner P /\
    augmentation_step (fun i => INR (yv i) + hval)%R (fun i => (Xv *m bv)%Rg i 0%Rg)
      (fun w => S_regression.nb_joint g sd Xv w hval yv) P.
Proof.
  intros Hh Hgp sd.
  destruct (C52_nbinom_kernel_partial le_B (rg_h false) 25 _ 16 4 5 9 6 (rg_good _) (rg_leaf _) (rg_const _) ltac:(reflexivity) ltac:(reflexivity)
    le_builder (rg_passes _) (rg_fifth _) 14 rg_nbinom (rg_buildable _ _ (fun v H => H)) (rg_plain _))
    as (h' & m & beta' & ins & inner & rest & Hf & _ & _ & Hk & _ & H).
  destruct (rg_values false n p bv sd Xv hval (\col_i INR (yv i))%Rg) as (V1 & V2 & V3 & V4 & V5 & V6 & V7).
  destruct (H ge_scalar le_other ge_cval the_chol le_ranks le_constants ge_arithmetic le_sums le_linalg _ V1 V2 n p bv sd Xv [] hval yv V3 V4 V5 V6 V7)
    as (P & HP & Hs); [constructor|cbn; lia|intros j; unfold sd; rewrite col_at; apply Rlt_0_1|exact Hh|].
  exists h', m, beta', ins, inner, rest, P. split; [exact Hf|]. split; [exact Hk|]. split; [exact HP|]. apply (Hs g Hgp). intros j. apply col_at.
Qed.

(** two coefficients with prior scales 2: the step is wrong, whatever the data *)
Theorem C52_nbinom_kernel_refuted :
  exists B h n nd y hh c X beta std h' m beta' ins inner rest scalar other cval cholesky rho,
    good_heap h /\ (forall v, shared_var h v -> owner h v = None) /\ constant_leaves h /\
    hn h n = Some nd /\ n_outs nd !! 1 = Some y /\ builder_ok B /\ passes B h c /\ fifth_input h beta std /\
    nbinom_form h y hh c X beta /\
    nbinom_logistic_finder B h n = (h', Ok ((beta, beta', []) :: rest)) /\ kernel_node h' m ins inner [beta'] /\
    ranks_ok B other /\ constants_ok B cval /\ arithmetic_ok scalar /\ sums_ok other /\ linalg_ok cholesky other /\
    exists (bv sd : 'cV[R]_2) (Xv : 'M[R]_(3, 2)) (yv : 'I_3 -> nat) P,
      has_value B scalar other cval h rho beta (varr bv) /\ has_value B scalar other cval h rho std (varr sd) /\
      has_value B scalar other cval h rho X (marr Xv) /\ has_value B scalar other cval h rho hh (number 1) /\
      has_value B scalar other cval h rho y (varr (\col_i INR (yv i))%Rg) /\
      kernel_runs scalar other cval h' rho ins inner P /\
      forall g, (forall b v, Rlt 0 b -> Rlt 0 v -> Rlt 0 (g b v)) ->
      ~ augmentation_step (fun i => INR (yv i) + 1)%R (fun i => (Xv *m bv)%Rg i 0%Rg)
          (fun w => S_regression.nb_joint g sd Xv w 1%R yv) P.
Proof.
  set (bv := (\col_j 0%R : 'cV[R]_2)%Rg). set (sd := (\col_j 2%R : 'cV[R]_2)%Rg). set (Xv := (\matrix_(i, j) 1%R : 'M[R]_(3, 2))%Rg).
  set (yv := fun _ : 'I_3 => 4). set (rho := rg_rho 3 2 bv sd Xv 1%R (\col_i INR (yv i))%Rg).
  destruct (C52_nbinom_kernel_partial le_B (rg_h false) 25 _ 16 4 5 9 6 (rg_good _) (rg_leaf _) (rg_const _) ltac:(reflexivity) ltac:(reflexivity)
    le_builder (rg_passes _) (rg_fifth _) 14 rg_nbinom (rg_buildable _ _ (fun v H => H)) (rg_plain _))
    as (h' & m & beta' & ins & inner & rest & Hf & _ & _ & Hk & _ & H).
  destruct (rg_values false 3 2 bv sd Xv 1%R (\col_i INR (yv i))%Rg) as (V1 & V2 & V3 & V4 & V5 & V6 & V7).
  destruct (H ge_scalar le_other ge_cval the_chol le_ranks le_constants ge_arithmetic le_sums le_linalg _ V1 V2 3 2 bv sd Xv [] 1%R yv V3 V4 V5 V6 V7)
    as (P & HP & Hs); [constructor|cbn; lia|intros j; unfold sd; rewrite col_at; apply Rlt_0_2|apply Rlt_0_1|].
  exists le_B, (rg_h false), 25, (Node (ORV RV_nbinom) [0; 1; 2; 14; 12] [15; 16]), 16, 14, 4, 5, 9, 6, h', m, beta', ins, inner, rest, ge_scalar, le_other, ge_cval, the_chol, rho.
  split; [apply rg_good|]. split; [apply rg_leaf|]. split; [apply rg_const|]. split; [reflexivity|]. split; [reflexivity|]. split; [apply le_builder|].
  split; [apply rg_passes|]. split; [apply rg_fifth|]. split; [apply rg_nbinom|]. split; [exact Hf|]. split; [exact Hk|].
  split; [apply le_ranks|]. split; [apply le_constants|]. split; [apply ge_arithmetic|]. split; [apply le_sums|]. split; [apply le_linalg|].
  exists bv, sd, Xv, yv, P. split; [exact V3|]. split; [exact V4|]. split; [exact V5|]. split; [exact V6|]. split; [exact V7|]. split; [exact HP|].
  intros g Hgp Hst. pose proof (proj1 (Hs g Hgp) Hst) as Hst'. clear Hst. rename Hst' into Hst. specialize (Hst ord0). unfold sd in Hst. rewrite col_at in Hst. lra.
Qed.
Print Assumptions C52_nbinom_kernel_refuted.

(** one coefficient with prior scale 1 and one success: the step is wrong for the matched model
    and right for the model with the opposite sign *)
Theorem C52_bernoulli_kernel_refuted :
  exists B h n nd y c X beta std h' m beta' ins inner scalar other cval cholesky rho,
    good_heap h /\ (forall v, shared_var h v -> owner h v = None) /\ constant_leaves h /\
    hn h n = Some nd /\ n_outs nd !! 1 = Some y /\ builder_ok B /\ passes B h c /\ fifth_input h beta std /\
    bern_form h y c X beta /\
    bern_logistic_finder B h n = (h', Ok [(beta, beta', [])]) /\ kernel_node h' m ins inner [beta'] /\
    ranks_ok B other /\ constants_ok B cval /\ arithmetic_ok scalar /\ sums_ok other /\ linalg_ok cholesky other /\
    exists (bv sd : 'cV[R]_1) (Xv : 'M[R]_(1, 1)) (yv : 'I_1 -> bool) P,
      (forall j, sd j 0%Rg = 1%R) /\
      has_value B scalar other cval h rho beta (varr bv) /\ has_value B scalar other cval h rho std (varr sd) /\
      has_value B scalar other cval h rho X (marr Xv) /\
      has_value B scalar other cval h rho y (varr (\col_i (if yv i then 1 else 0)%R)%Rg) /\
      kernel_runs scalar other cval h' rho ins inner P /\
      forall g, (forall b v, Rlt 0 b -> Rlt 0 v -> Rlt 0 (g b v)) ->
      ~ augmentation_step (fun _ : 'I_1 => 1)%R (fun i => (Xv *m bv)%Rg i 0%Rg)
          (fun w => S_regression.bern_joint g sd Xv w (-1)%R yv) P /\
      augmentation_step (fun _ : 'I_1 => 1)%R (fun i => (Xv *m bv)%Rg i 0%Rg)
          (fun w => S_regression.bern_joint g sd Xv w 1%R yv) P.
Proof.
  set (bv := (\col_j 0%R : 'cV[R]_1)%Rg). set (sd := (\col_j 1%R : 'cV[R]_1)%Rg). set (Xv := (\matrix_(i, j) 1%R : 'M[R]_(1, 1))%Rg).
  set (yv := fun _ : 'I_1 => true). set (rho := rg_rho 1 1 bv sd Xv 1%R (\col_i (if yv i then 1 else 0)%R)%Rg).
  destruct (C52_bernoulli_kernel_partial le_B (rg_h true) 25 _ 16 4 5 9 6 (rg_good _) (rg_leaf _) (rg_const _) ltac:(reflexivity) ltac:(reflexivity)
    le_builder (rg_passes _) (rg_fifth _) rg_bern (rg_buildable _ _ (fun v H => elem_of_list_further v 14 [16] H)))
    as (h' & m & beta' & ins & inner & Hf & _ & _ & Hk & _ & H).
  destruct (rg_values true 1 1 bv sd Xv 1%R (\col_i (if yv i then 1 else 0)%R)%Rg) as (V1 & V2 & V3 & V4 & V5 & V6 & V7).
  destruct (H ge_scalar le_other ge_cval the_chol le_ranks le_constants ge_arithmetic le_sums le_linalg _ V1 V2 1 1 bv sd Xv yv V3 V4 V5 V7)
    as (P & HP & Hs); [intros j; unfold sd; rewrite col_at; apply Rlt_0_1|].
  exists le_B, (rg_h true), 25, (Node (ORV RV_bernoulli) [0; 1; 2; 12] [15; 16]), 16, 4, 5, 9, 6, h', m, beta', ins, inner, ge_scalar, le_other, ge_cval, the_chol, rho.
  split; [apply rg_good|]. split; [apply rg_leaf|]. split; [apply rg_const|]. split; [reflexivity|]. split; [reflexivity|]. split; [apply le_builder|].
  split; [apply rg_passes|]. split; [apply rg_fifth|]. split; [apply rg_bern|]. split; [exact Hf|]. split; [exact Hk|].
  split; [apply le_ranks|]. split; [apply le_constants|]. split; [apply ge_arithmetic|]. split; [apply le_sums|]. split; [apply le_linalg|].
  assert (Hsd : forall j, sd j 0%Rg = 1%R) by (intros j; apply col_at).
  exists bv, sd, Xv, yv, P. split; [exact Hsd|]. split; [exact V3|]. split; [exact V4|]. split; [exact V5|]. split; [exact V7|]. split; [exact HP|].
  intros g Hgp. destruct (Hs g Hgp) as [H1 H2]. split; [|by apply H2].
  intros Hst. apply H1 in Hst as [_ Hst]. exact (@one_one_nonzero yv Hst).
Qed.
Print Assumptions C52_bernoulli_kernel_refuted.
