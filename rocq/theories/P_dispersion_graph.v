(** Property C55. *)
From Coq Require Import Reals Lra ssrfun ssrbool.
From mathcomp Require Import eqtype choice fintype ssralg zmodp matrix.
From Verif Require M_gauss S_gauss S_regression M_regression.
From Verif Require Import S_gibbs S_dispersion_graph L_kernel_runs L_dispersion_graph L_match L_gibbs L_horseshoe_graph L_linalg L_regression_step E_basic E_code E_linalg P_regression_graph.
Import L_linalg_mx.
Global Open Scope nat_scope.

Lemma neg_marr scalar n p (Xv : 'M[R]_(n, p)) : (forall a, scalar E_neg [a] = Some (- a)%R) ->
  numpy_elemwise (scalar E_neg) [marr Xv] = Some (marr (- Xv)%Rg).
Proof.
  intros Hn. change (marr Xv) with (mkt [n; p] (mf Xv)). rewrite (elem_vec1 scalar E_neg [n; p] (mf Xv) (fun k => - mf Xv k)%R (fun j _ => Hn _)).
  f_equal. apply marr_mkt. intros i j. rewrite mf_at. rewrite mat_neg_at. done.
Qed.
Lemma neg_predictor n p (Xv : 'M[R]_(n, p)) (bv : 'cV[R]_p) j :
  (- at_ord (fun i => ((- Xv)%Rg *m bv)%Rg i 0%Rg) j = at_ord (fun i => (Xv *m bv)%Rg i 0%Rg) j)%R.
Proof.
  unfold at_ord. destruct (insub j) as [k|]; [|apply Ropp_0]. rewrite neg_mul_at. apply Ropp_involutive.
Qed.
Lemma sum_opp (f g : nat -> R) l : (forall j, - f j = g j)%R -> (foldr Rplus 0 (g <$> l) = - sum_of (f <$> l))%R.
Proof.
  intros H. induction l as [|j l IH]; [cbn; lra|]. cbn [fmap list_fmap foldr sum_of]. rewrite IH, <- (H j).
  match goal with |- (_ + - ?A = - (_ + ?B))%R => change B with A; set (a := A) end. lra.
Qed.

(** On every graph with a negative-binomial variable [y] of the matched form whose factor passes
    the test and whose dispersion has a gamma prior, the finder builds a second step, for the
    dispersion, from a kernel whose inputs are the dispersion, the success probabilities computed
    from the design and from the coefficients that the first step draws, the arguments of the
    prior and [y], unless they are constants.  Whatever their values (an n x p design, n counts,
    prior arguments with a positive scale), the kernel draws table counts by a scan over [y] for
    the present dispersion, and then the dispersion, each with a generator of its own whose next state is an
    output of the kernel.  For all counts that the scan can return, the second draw is from the conditional
    of the dispersion given the coefficients, the data and the counts exactly when the linear
    predictors sum to zero. *)
Section kernel.
  Context (B : builder) (h : heap) (n : nid) (nd : node) (y hh c X beta std a b : vid).
  Context (Hg : good_heap h) (Hleaf : forall v, shared_var h v -> owner h v = None) (Hcl : constant_leaves h).
  Context (Hn : hn h n = Some nd) (Hy : n_outs nd !! 1 = Some y) (HB : builder_ok B).
  Context (Hpass : passes B h c) (Hf : fifth_input h beta std).

  Theorem C55_dispersion_kernel_partial : nbinom_form h y hh c X beta -> buildable B h beta X [hh; y] -> gamma_params_plain h hh ->
    rv_node h hh RV_gamma [a; b] ->
    exists h' beta' m p ins inner hp u1 u2 upd,
      nbinom_logistic_finder B h n = (h', Ok [(beta, beta', []); (hh, hp, upd)]) /\ extends h h' /\
      hv h beta' = None /\ hv h hp = None /\ hv h p = None /\ kernel_node h' m ins inner [hp; u1; u2] /\
      (forall v, v ∈ ins <-> v ∈ [hh; p; a; b; y] /\ is_constant h' v = false) /\
      forall scalar other cval cholesky, ranks_ok B other -> constants_ok B cval -> arithmetic_ok scalar -> sums_ok other ->
      linalg_ok cholesky other -> tables_ok B scalar other ->
      forall rho, gives_old h rho -> no_constants h rho ->
      forall n p (Xv : 'M[R]_(n, p)) (bv : 'cV[R]_p) t av sv yv,
        declared B h' beta' = 1 -> has_value B scalar other cval h rho X (marr Xv) ->
        has_value B scalar other cval h rho hh t -> has_value B scalar other cval h rho y (count_vector yv) ->
        has_value B scalar other cval h rho a (number av) -> has_value B scalar other cval h rho b (number sv) ->
        (0 < sv)%R -> length yv = n ->
        let eta := at_ord (fun i => (Xv *m bv)%Rg i 0%Rg) in
        let ps := (fun j => / (1 + exp (eta j)))%R <$> seq 0 n in
        exists P, table_kernel_runs scalar other cval h' (assign rho beta' (varr bv)) ins inner yv t P /\
          forall ls, possible_tables yv ls ->
            (draws_gamma (dispersion_joint (GammaNode av sv) ps yv ls) (P ls) <-> foldr Rplus 0%R (eta <$> seq 0 n) = 0%R).
  Proof using All.
    intros Hform Hbl Hpl Hgm.
    destruct (nbinom_dispersion B h Hg Hleaf Hcl HB n nd y Hn Hy hh c X beta std a b Hform Hpass Hf Hbl Hpl Hgm)
      as (h' & beta' & m & p & ins & inner & hp & u1 & u2 & upd & H1 & H2 & H3 & H4 & H5 & H6 & H7 & H8).
    exists h', beta', m, p, ins, inner, hp, u1, u2, upd. split; [exact H1|]. split; [exact H2|]. split; [exact H3|]. split; [exact H4|].
    split; [exact H5|]. split; [exact H6|]. split; [exact H7|].
    intros scalar other cval cholesky HR HC HA HF HL HT rho Hold Hnc nn q Xv bv t av sv yv Hrk V1 V2 V3 V4 V5 Ps Hlen eta ps.
    set (psi := at_ord (fun i => ((- Xv)%Rg *m bv)%Rg i 0%Rg)).
    exists (tail_prog av sv nn (fun j => / (1 + exp (- psi j)))%R). split.
    - eapply H8; [exact HR|exact HC|exact HA|exact HF|exact HT|exact Hold|exact Hnc|exact V1| |exact Hrk| |exact V2|exact V3|exact V4|exact V5|exact Ps].
      + apply neg_marr. apply (tb_neg _ _ _ HT).
      + rewrite (la_dot_mv HL). reflexivity.
    - intros ls Hls. pose proof (tail_iff av sv nn psi ls yv Ps Hlen Hls) as Hiff. cbv zeta in Hiff.
      assert (Eps : ((fun j => / (1 + exp (- psi j)))%R <$> seq 0 nn) = ps).
      { apply list_fmap_ext. intros i j _. unfold psi. rewrite neg_predictor. reflexivity. }
      rewrite Eps in Hiff. rewrite Hiff. rewrite (sum_opp psi eta (seq 0 nn) (fun j => neg_predictor nn q Xv bv j)).
      match goal with |- (?A = 0 <-> - ?A = 0)%R => set (s := A) end. clear. split; lra.
  Qed.
End kernel.
Print Assumptions C55_dispersion_kernel_partial.

(** ** The graph of P_regression_graph meets the hypotheses: design 5, dispersion 14 with gamma
    prior, and observation 16 *)
Lemma le_tables : tables_ok le_B ge_scalar le_other.
Proof.
  constructor.
  - done.
  - done.
  - done.
  - intros x. rewrite le_fun. done.
  - intros x y H. rewrite le_fun. done.
  - intros h k vs. cbn [b_draw le_B le_draw]. rewrite decide_True; [done|]. rewrite Nat.add_comm, Nat.mul_comm, Nat.mod_add by done. done.
Qed.
Definition dg_rho n p (Xv : 'M[R]_(n, p)) (hv av : R) (yv : list nat) : vid -> option (tensor R) :=
  given [5; 14; 16; 7] [marr Xv; number hv; count_vector yv; number av].
Lemma dg_values n p (Xv : 'M[R]_(n, p)) hv av yv :
  let rho := dg_rho n p Xv hv av yv in let has v x := has_value le_B ge_scalar le_other ge_cval (rg_h false) rho v x in
  gives_old (rg_h false) rho /\ no_constants (rg_h false) rho /\
  has 5 (marr Xv) /\ has 14 (number hv) /\ has 16 (count_vector yv) /\ has 7 (number av).
Proof.
  cbv zeta. assert (Hin : forall v x, dg_rho n p Xv hv av yv v = Some x -> v ∈ [5; 14; 16; 7]).
  { intros v x Hv. apply (given_elem [5; 14; 16; 7] [marr Xv; number hv; count_vector yv; number av]). eauto. }
  split; [|split; [|split_and!; (split; [by apply ev_given|reflexivity])]].
  - intros v [x Hv]. apply Hin in Hv. repeat (apply elem_of_cons in Hv as [->|Hv]; [by eexists|]). by apply elem_of_nil in Hv.
  - intros v Hc. destruct (dg_rho n p Xv hv av yv v) as [x|] eqn:Hv; [|done]. apply Hin in Hv.
    repeat (apply elem_of_cons in Hv as [->|Hv]; [vm_compute in Hc; done|]). by apply elem_of_nil in Hv.
Qed.
Lemma dg_gamma : rv_node (rg_h false) 14 RV_gamma [7; 7].
Proof. do 6 eexists. split_and!; reflexivity. Qed.
Definition new_rank {A} (r : heap * result (list (vid * vid * A))) : option nat :=
  match r with (h, Ok ((_, b, _) :: _)) => Some (declared le_B h b) | _ => None end.
Lemma dg_rank h' beta' upd rest : nbinom_logistic_finder le_B (rg_h false) 25 = (h', Ok ((9, beta', upd) :: rest)) -> declared le_B h' beta' = 1.
Proof.
  intros H. assert (E : new_rank (nbinom_logistic_finder le_B (rg_h false) 25) = Some 1) by (vm_compute; reflexivity).
  rewrite H in E. by injection E.
Qed.

Lemma two_predictors (Xv : 'M[R]_(2, 1)) (bv : 'cV[R]_1) (i0 i1 : 'I_2) : nat_of_ord i0 = 0 -> nat_of_ord i1 = 1 ->
  foldr Rplus 0%R (at_ord (fun i => (Xv *m bv)%Rg i 0%Rg) <$> seq 0 2) = ((Xv i0 0%Rg + Xv i1 0%Rg) * bv 0%Rg 0%Rg)%R.
Proof.
  intros H0 H1. set (f := fun i : 'I_2 => (Xv *m bv)%Rg i 0%Rg). change (at_ord f 0 + (at_ord f 1 + 0) = (Xv i0 0%Rg + Xv i1 0%Rg) * bv 0%Rg 0%Rg)%R.
  assert (E0 : at_ord f 0 = f i0) by (transitivity (at_ord f (nat_of_ord i0)); [by rewrite H0|apply at_ord_val]).
  assert (E1' : at_ord f 1 = f i1) by (transitivity (at_ord f (nat_of_ord i1)); [by rewrite H1|apply at_ord_val]).
  rewrite E0, E1'. unfold f. rewrite !col_mul_at.
  set (u := Xv i0 0%Rg). set (v := Xv i1 0%Rg). set (w := bv 0%Rg 0%Rg). change (u * w + (v * w + 0) = (u + v) * w)%R. clearbody u v w. ring.
Qed.

(** two observations whose design values are opposite: the step is right, for all counts *)
Example C55_example (x : R) (bv : 'cV[R]_1) hval y0 y1 : (0 < hval)%R ->
  let Xv := (\matrix_(i, j) match nat_of_ord i with 0 => x | _ => (- x)%R end : 'M[R]_(2, 1))%Rg in
  let eta := at_ord (fun i => (Xv *m bv)%Rg i 0%Rg) in
  exists h' beta' m ins inner hp u1 u2 upd P,
    nbinom_logistic_finder le_B (rg_h false) 25 = (h', Ok [(9, beta', []); (14, hp, upd)]) /\
    kernel_node h' m ins inner [hp; u1; u2] /\
    table_kernel_runs ge_scalar le_other ge_cval h' (assign (dg_rho 2 1 Xv hval 2 [y0; y1]) beta' (varr bv)) ins inner [y0; y1] (number hval) P /\
    forall ls, possible_tables [y0; y1] ls ->
      draws_gamma (dispersion_joint (GammaNode 2 2) ((fun j => / (1 + exp (eta j)))%R <$> seq 0 2) [y0; y1] ls) (P ls).
Proof.
  intros Ph Xv eta.
  destruct (C55_dispersion_kernel_partial le_B (rg_h false) 25 _ 16 14 4 5 9 6 7 7 (rg_good _) (rg_leaf _) (rg_const _) ltac:(reflexivity) ltac:(reflexivity)
    le_builder (rg_passes _) (rg_fifth _) rg_nbinom (rg_buildable _ _ (fun v H => H)) (rg_plain _) dg_gamma)
    as (h' & beta' & m & p & ins & inner & hp & u1 & u2 & upd & Hf & _ & _ & _ & _ & Hk & _ & H).
  destruct (dg_values 2 1 Xv hval 2 [y0; y1]) as (V1 & V2 & V3 & V4 & V5 & V6).
  destruct (H ge_scalar le_other ge_cval the_chol le_ranks le_constants ge_arithmetic le_sums le_linalg le_tables _ V1 V2 2 1 Xv bv (number hval) 2%R 2%R [y0; y1]
    (dg_rank _ _ _ _ Hf) V3 V4 V5 V6 V6 ltac:(lra) ltac:(reflexivity)) as (P & HP & Hs).
  exists h', beta', m, ins, inner, hp, u1, u2, upd, P. split; [exact Hf|]. split; [exact Hk|]. split; [exact HP|].
  intros ls Hls. apply (Hs ls Hls). destruct (ord_of 2 0 ltac:(lia)) as [i0 H0]. destruct (ord_of 2 1 ltac:(lia)) as [i1 H1].
  rewrite (two_predictors Xv bv i0 i1 H0 H1). unfold Xv. rewrite !mat_at, H0, H1. ring.
Qed.

(** two observations with design value 1 and coefficient 1: the step is wrong, for all counts *)
Theorem C55_dispersion_kernel_refuted :
  exists B h n nd y hh c X beta std a b h' beta' m ins inner hp u1 u2 upd scalar other cval cholesky rho,
    good_heap h /\ (forall v, shared_var h v -> owner h v = None) /\ constant_leaves h /\
    hn h n = Some nd /\ n_outs nd !! 1 = Some y /\ builder_ok B /\ passes B h c /\ fifth_input h beta std /\
    nbinom_form h y hh c X beta /\ rv_node h hh RV_gamma [a; b] /\
    nbinom_logistic_finder B h n = (h', Ok [(beta, beta', []); (hh, hp, upd)]) /\ kernel_node h' m ins inner [hp; u1; u2] /\
    ranks_ok B other /\ constants_ok B cval /\ arithmetic_ok scalar /\ sums_ok other /\ linalg_ok cholesky other /\ tables_ok B scalar other /\
    exists (Xv : 'M[R]_(2, 1)) (bv : 'cV[R]_1) yv P,
      has_value B scalar other cval h rho X (marr Xv) /\ has_value B scalar other cval h rho hh (number 1) /\
      has_value B scalar other cval h rho y (count_vector yv) /\
      has_value B scalar other cval h rho a (number 2) /\ has_value B scalar other cval h rho b (number 2) /\ length yv = 2 /\
      let eta := at_ord (fun i => (Xv *m bv)%Rg i 0%Rg) in
      table_kernel_runs scalar other cval h' (assign rho beta' (varr bv)) ins inner yv (number 1) P /\
      (exists ls, possible_tables yv ls) /\
      forall ls, possible_tables yv ls ->
      ~ draws_gamma (dispersion_joint (GammaNode 2 2) ((fun j => / (1 + exp (eta j)))%R <$> seq 0 2) yv ls) (P ls).
Proof.
  set (Xv := (\matrix_(i, j) 1%R : 'M[R]_(2, 1))%Rg). set (bv := (\col_j 1%R : 'cV[R]_1)%Rg). set (yv := [3; 4]).
  set (rho := dg_rho 2 1 Xv 1%R 2%R yv).
  destruct (C55_dispersion_kernel_partial le_B (rg_h false) 25 _ 16 14 4 5 9 6 7 7 (rg_good _) (rg_leaf _) (rg_const _) ltac:(reflexivity) ltac:(reflexivity)
    le_builder (rg_passes _) (rg_fifth _) rg_nbinom (rg_buildable _ _ (fun v H => H)) (rg_plain _) dg_gamma)
    as (h' & beta' & m & p & ins & inner & hp & u1 & u2 & upd & Hf & _ & _ & _ & _ & Hk & _ & H).
  destruct (dg_values 2 1 Xv 1%R 2%R yv) as (V1 & V2 & V3 & V4 & V5 & V6).
  destruct (H ge_scalar le_other ge_cval the_chol le_ranks le_constants ge_arithmetic le_sums le_linalg le_tables _ V1 V2 2 1 Xv bv (number 1) 2%R 2%R yv
    (dg_rank _ _ _ _ Hf) V3 V4 V5 V6 V6 ltac:(lra) ltac:(reflexivity)) as (P & HP & Hs).
  exists le_B, (rg_h false), 25, (Node (ORV RV_nbinom) [0; 1; 2; 14; 12] [15; 16]), 16, 14, 4, 5, 9, 6, 7, 7, h', beta', m, ins, inner, hp, u1, u2, upd, ge_scalar, le_other, ge_cval, the_chol, rho.
  split; [apply rg_good|]. split; [apply rg_leaf|]. split; [apply rg_const|]. split; [reflexivity|]. split; [reflexivity|]. split; [apply le_builder|].
  split; [apply rg_passes|]. split; [apply rg_fifth|]. split; [apply rg_nbinom|]. split; [apply dg_gamma|]. split; [exact Hf|]. split; [exact Hk|].
  split; [apply le_ranks|]. split; [apply le_constants|]. split; [apply ge_arithmetic|]. split; [apply le_sums|]. split; [apply le_linalg|]. split; [apply le_tables|].
  exists Xv, bv, yv, P. split; [exact V3|]. split; [exact V4|]. split; [exact V5|]. split; [exact V6|]. split; [exact V6|]. split; [reflexivity|]. cbv zeta.
  split; [exact HP|]. split; [exists [1; 2]; repeat constructor; right; lia|]. intros ls Hls Hd. pose proof (proj1 (Hs ls Hls) Hd) as Hz.
  destruct (ord_of 2 0 ltac:(lia)) as [i0 H0]. destruct (ord_of 2 1 ltac:(lia)) as [i1 H1]. rewrite (two_predictors Xv bv i0 i1 H0 H1) in Hz.
  unfold Xv, bv in Hz. rewrite !mat_at in Hz. clear -Hz. lra.
Qed.
Print Assumptions C55_dispersion_kernel_refuted.
