(** The programs of the regression kernels and Gibbs steps. *)
From Coq Require Import Reals Lra ssrfun ssrbool FunctionalExtensionality.
From mathcomp Require Import eqtype choice fintype ssralg zmodp matrix.
From Verif Require M_gauss S_gauss L_linalg_mx M_regression P_regression.
From Verif Require Export L_regression_graph S_regression_graph.
From Verif Require Import L_array L_code_value L_horseshoe_graph L_horseshoe_sweep.
Import L_linalg_mx.
Global Open Scope nat_scope.

Lemma at_ord_ext n (f g : 'I_n -> R) : (forall i, f i = g i) -> at_ord f = at_ord g.
Proof. intros H. f_equal. by apply functional_extensionality. Qed.
Lemma varr_components n (v : 'cV[R]_n) f : (forall i, v i 0%Rg = f i) -> components [n] (varr v) (at_ord f).
Proof. intros H. rewrite (at_ord_ext n f (fun i => v i 0%Rg)) by done. apply (components_mkt [n]). Qed.
Lemma one_components n : components [n] (number 1) (at_ord (fun _ : 'I_n => 1%R)).
Proof.
  pose proof (components_ones [n] 0 1%R ltac:(cbn; lia)) as [H1 H2]. split; [exact H1|]. intros idx Hi. specialize (H2 idx Hi).
  etransitivity; [exact H2|]. f_equal. destruct (ord_of n (ravel [n] idx)) as [k <-]; [|by rewrite at_ord_val].
  pose proof (ravel_lt [n] idx Hi) as Hlt. by rewrite size1 in Hlt.
Qed.
Lemma unvec_varr n (v : 'cV[R]_n) : unvec n (varr v) = v.
Proof.
  apply col_ext. intros i. unfold unvec. rewrite col_at. unfold varr. rewrite entries_mkt; [|rewrite size1; apply ord_lt]. by rewrite at_ord_val.
Qed.
Lemma varr_inj n (u v : 'cV[R]_n) : varr u = varr v -> u = v.
Proof. intros H. rewrite <- (unvec_varr n u), H. apply unvec_varr. Qed.
Lemma normal_drawn m (e : 'cV[R]_m) : drawn RV_standard_normal [m] (varr e).
Proof. split; [apply mkt_ok|]. split; [done|]. intros [?|[?|?]]; done. Qed.

(** a program of the shape of the regression kernels is an augmentation step exactly if
    for all Polya-Gamma variables its result has the right density *)
Definition reg_prog n p (x1 x2 : tensor R) (f : 'cV[R]_n -> 'cV[R]_(p + n) -> 'cV[R]_p -> 'cV[R]_p) : tprog :=
  TDraw RV_polyagamma [x1; x2] [n] (fun w => TDraw RV_standard_normal [number 0; number 1] [p + n] (fun z1 =>
    TDraw RV_standard_normal [number 0; number 1] [p] (fun z2 => TRet [varr (f (unvec n w) (unvec (p + n) z1) (unvec p z2))]))).
Lemma reg_prog_step n p x1 x2 f (b c : 'I_n -> R) (law : 'cV[R]_n -> 'cV[R]_p -> R) :
  components [n] x1 (at_ord b) -> components [n] x2 (at_ord c) ->
  augmentation_step b c law (reg_prog n p x1 x2 f) <->
  forall w, drawn RV_polyagamma [n] w ->
    S_regression.draws_from_density (fun e : 'cV[R]_(p + n + p) => f (unvec n w) (usubmx e) (dsubmx e)) (law (unvec n w)).
Proof.
  intros H1 H2. split.
  - intros (y1 & y2 & k & E & _ & _ & H) w Hw. unfold reg_prog in E. injection E as <- <- <-. destruct (H w Hw) as (m1 & m2 & k' & g & E & Hk & Hd). cbv beta in E.
    injection E as <- E. pose proof (f_equal (fun F => F (number 0)) E) as E0. cbv beta in E0. injection E0 as <- _.
    assert (Eg : forall e1 e2, f (unvec n w) e1 e2 = g e1 e2).
    { intros e1 e2. apply varr_inj. pose proof (f_equal (fun F => F (varr e1)) E) as E1. cbv beta in E1. injection E1 as E1.
      pose proof (f_equal (fun F => F (varr e2)) E1) as E2. cbv beta in E2. rewrite (Hk _ _ (normal_drawn _ e1) (normal_drawn _ e2)) in E2.
      rewrite !unvec_varr in E2. exact (f_equal (fun P => match P with TRet (x :: _) => x | _ => number 0 end) E2). }
    replace (fun e : 'cV[R]_(p + n + p) => f (unvec n w) (usubmx e) (dsubmx e)) with (fun e : 'cV[R]_(p + n + p) => g (usubmx e) (dsubmx e)); [exact Hd|].
    apply functional_extensionality. intros e. by rewrite Eg.
  - intros H. exists x1, x2. eexists. split; [reflexivity|]. split; [done|]. split; [done|]. intros w Hw.
    exists (p + n), p. eexists. exists (f (unvec n w)). split; [reflexivity|]. split; [done|]. by apply H.
Qed.

Lemma pg_drawn_ones n : exists w, drawn RV_polyagamma [n] w.
Proof. exists (ones_of [n]). apply ones_drawn. Qed.
Lemma pg_vpos n w : drawn RV_polyagamma [n] w -> forall i, Rlt 0 (unvec n w i 0%Rg).
Proof. apply drawn_vpos. unfold positive_dist. tauto. Qed.

Lemma nb_step_iff cholesky other n p (x1 x2 : tensor R) (g : R -> R -> R) (sd beta : 'cV[R]_p) (X : 'M[R]_(n, p)) (hh : R) (y : 'I_n -> nat) :
  linalg_ok cholesky other -> (forall b v, Rlt 0 b -> Rlt 0 v -> Rlt 0 (g b v)) ->
  components [n] x1 (at_ord (fun i => INR (y i) + hh)%R) -> components [n] x2 (at_ord (fun i => (X *m beta)%Rg i 0%Rg)) ->
  (forall j, Rlt 0 (sd j 0%Rg)) -> Rlt 0 hh ->
  augmentation_step (fun i => INR (y i) + hh)%R (fun i => (X *m beta)%Rg i 0%Rg) (fun w => S_regression.nb_joint g sd X w hh y)
    (reg_prog n p x1 x2 (M_regression.nbinom_normal_posterior cholesky sd X hh y)) <->
  forall j, sd j 0%Rg = 1%R.
Proof.
  intros HL Hg H1 H2 Hsd Hh. rewrite reg_prog_step by done.
  assert (Hpos : forall i, Rlt 0 (INR (y i) + hh)) by (intros i; pose proof (pos_INR (y i)); lra).
  assert (K : forall w, drawn RV_polyagamma [n] w -> 
    S_regression.draws_from_density (fun e : 'cV[R]_(p + n + p) => M_regression.nbinom_normal_posterior cholesky sd X hh y (unvec n w) (usubmx e) (dsubmx e)) (S_regression.nb_joint g sd X (unvec n w) hh y) <-> forall j, sd j 0%Rg = 1%R).
  { intros w Hw. apply P_regression.C27_nb_regression_iff_partial; [|exact Hsd|by apply pg_vpos|exact Hh|].
    - intros m Q HQ. apply (la_cholesky HL HQ).
    - intros i. apply Hg; [apply Hpos|by apply pg_vpos]. }
  split.
  - intros H. destruct (pg_drawn_ones n) as [w Hw]. by apply (K w Hw), H.
  - intros H w Hw. by apply (K w Hw).
Qed.
Lemma bern_step_iff cholesky other n p (x1 x2 : tensor R) (g : R -> R -> R) (sd beta : 'cV[R]_p) (X : 'M[R]_(n, p)) (y : 'I_n -> bool) :
  linalg_ok cholesky other -> (forall b v, Rlt 0 b -> Rlt 0 v -> Rlt 0 (g b v)) ->
  components [n] x1 (at_ord (fun _ : 'I_n => 1)%R) -> components [n] x2 (at_ord (fun i => (X *m beta)%Rg i 0%Rg)) ->
  (forall j, Rlt 0 (sd j 0%Rg)) ->
  (augmentation_step (fun _ : 'I_n => 1)%R (fun i => (X *m beta)%Rg i 0%Rg) (fun w => S_regression.bern_joint g sd X w (-1)%R y)
    (reg_prog n p x1 x2 (M_regression.bern_normal_posterior cholesky sd X y)) <->
  (forall j, sd j 0%Rg = 1%R) /\ mulmx (trmx X) (\col_i ((ssrnat.nat_of_bool (y i))%:R - 2%:R^-1))%Rg = 0%Rg) /\
  (augmentation_step (fun _ : 'I_n => 1)%R (fun i => (X *m beta)%Rg i 0%Rg) (fun w => S_regression.bern_joint g sd X w 1%R y)
    (reg_prog n p x1 x2 (M_regression.bern_normal_posterior cholesky sd X y)) <->
  (forall j, sd j 0%Rg = 1%R)).
Proof.
  intros HL Hg H1 H2 Hsd. destruct (pg_drawn_ones n) as [w0 Hw0].
  assert (Hc : forall m Q, S_gauss.spd Q -> S_gauss.cholesky_factor Q (cholesky m Q)) by (intros m Q HQ; apply (la_cholesky HL HQ)).
  assert (Hp : forall w, drawn RV_polyagamma [n] w -> forall i, Rlt 0 (g (IZR 1) (unvec n w i 0%Rg))).
  { intros w Hw i. apply Hg; [lra|by apply pg_vpos]. }
  rewrite !reg_prog_step by done. split.
  - assert (K := fun w (Hw : drawn RV_polyagamma [n] w) => @P_regression.C26_bernoulli_matched_iff_partial cholesky Hc g n p sd X (unvec n w) y Hsd (pg_vpos n w Hw) (Hp w Hw)).
    split; [intros H; by apply (K w0 Hw0), H|intros H w Hw; by apply (K w Hw)].
  - assert (K := fun w (Hw : drawn RV_polyagamma [n] w) => @P_regression.C26_bernoulli_documented_iff_partial cholesky Hc g n p sd X (unvec n w) y Hsd (pg_vpos n w Hw) (Hp w Hw)).
    split; [intros H; by apply (K w0 Hw0), H|intros H w Hw; by apply (K w Hw)].
Qed.
