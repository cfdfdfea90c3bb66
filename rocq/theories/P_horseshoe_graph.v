(** Property C51. *)
From Coq Require Import Lra.
From Verif Require Import S_horseshoe_graph S_gibbs L_horseshoe L_horseshoe_graph L_horseshoe_sweep L_match L_match_fun L_gibbs E_basic E_code.
Global Open Scope nat_scope.

Lemma positive_mkt s x : positive_array s x -> x = mkt s (entries x) /\ forall j, j < size_of s -> (0 < entries x j)%R.
Proof.
  intros (Hok & <- & Hp). split; [by apply mkt_entries|]. intros j Hj. unfold entries.
  destruct (lookup_lt_is_Some_2 (t_data x) j) as [a Ha]; [by rewrite Hok|]. rewrite Ha. cbn. rewrite Forall_forall in Hp.
  apply Hp. by eapply elem_of_list_lookup_2.
Qed.

(** On every graph with a normal variable [y] whose scale is the product of two half-Cauchy
    variables, the finder builds one kernel for the local and the global scales.  Whatever the
    values of [y], [lam] and [tau] (positive, [lam] of the shape [p :: rest] of [y], [tau] of a
    shape of ones), the kernel runs a program that
    - is a Gibbs sweep of the horseshoe model, with the squares of the current scales and unit
      noise variance, when [y] is a vector and the argument of [exponential] is a rate;
    - is not a sweep in numpy's reading of that argument, whatever the shape of [y];
    - is not a sweep in any reading when [y] has not as many components as rows. *)
Section kernel.
  Context (B : builder) (h : heap) (n : nid) (nd : node) (y lam tau : vid).
  Context (Hg : good_heap h) (Hleaf : forall v, shared_var h v -> owner h v = None) (Hcl : constant_leaves h).
  Context (Hn : hn h n = Some nd) (Hy : n_outs nd !! 1 = Some y) (HB : builder_ok B) (Hp : horseshoe_prior B h y lam tau).

  Lemma kernel_all :
    exists h' m lam' tau' ins inner,
      normal_horseshoe_finder B h n = (h', Ok [(lam, lam', []); (tau, tau', [])]) /\ extends h h' /\
      kernel_node h' m ins inner [lam'; tau'] /\
      forall scalar other cval, ranks_ok B other -> constants_ok B cval -> arithmetic_ok scalar -> sums_ok other ->
      forall rho p rest o Yv Lv Tv, let s := p :: rest in
        gives_old h rho -> has_value B scalar other cval h rho y Yv -> tensor_ok Yv -> t_shape Yv = s ->
        has_value B scalar other cval h rho lam Lv -> positive_array s Lv ->
        has_value B scalar other cval h rho tau Tv -> positive_array o Tv -> Forall (eq 1) o -> length o <= length s ->
        let beta := entries Yv in let l2 := fun j => (entries Lv j * entries Lv j)%R in let t2 := (entries Tv 0 * entries Tv 0)%R in
        exists P, kernel_runs scalar other cval h' rho ins inner P /\
          (rest = [] -> exists prg, meets s o P prg /\ gibbs_sweep Rate p beta 1 l2 t2 prg) /\
          (forall prg, meets s o P prg -> ~ gibbs_sweep Scale (size_of s) beta 1 l2 t2 prg) /\
          (size_of s <> p -> forall prg cv, meets s o P prg -> ~ gibbs_sweep cv (size_of s) beta 1 l2 t2 prg).
  Proof using All.
    destruct (horseshoe_kernel B h n nd y lam tau Hg Hleaf Hcl Hn Hy HB) as (h' & m & lam' & tau' & v1 & v2 & inner & Hf & E & Hk & Hrun).
    { apply horseshoe_match_iff. destruct Hp as (mu & sc & a & b & H1 & (m & k & md & Ho & Hm & Hi & Hop) & H3). exists mu, sc, a, b.
      split; [done|]. split; [|done]. exists m, k, md. split; [done|]. split; [done|]. split; [|done].
      destruct Hop as [->|(args & -> & _)]; done. }
    exists h', m, lam', tau', [y; v1; v2], inner. split; [done|]. split; [done|]. split; [done|].
    intros scalar other cval HR HC HA HF rho p rest o Yv Lv Tv s Hold HyV Yok Ysh HlV Lp HtV Tp Ho Hlen beta l2 t2.
    set (k := length o). rewrite (all_ones o Ho) in Tp. fold k in Tp.
    destruct (positive_mkt _ _ Lp) as [EL PL]. destruct (positive_mkt _ _ Tp) as [ET PT].
    pose proof (mkt_entries Yv Yok) as EY. rewrite Ysh in EY.
    assert (PT0 : (0 < entries Tv 0)%R) by (apply PT; rewrite size_ones; lia).
    assert (ET' : Tv = mkt (ones k) (fun _ => entries Tv 0)).
    { etransitivity; [exact ET|]. apply mkt_ext. intros j Hj. rewrite size_ones in Hj. by replace j with 0 by lia. }
    assert (Hl2 : orthant (size_of s) l2) by (intros j Hj; unfold l2; apply Rsqr_pos_lt; pose proof (PL j Hj); lra).
    assert (Ht2 : (0 < t2)%R) by (unfold t2; apply Rsqr_pos_lt; lra).
    assert (Eo : o = ones k) by (by apply all_ones).
    destruct (Hrun scalar other cval HR HC HA HF rho p rest k beta (entries Lv) (entries Tv 0) Hlen Hold) as (V1 & V2 & Hre).
    { unfold beta. fold s. by rewrite <- EY. }
    { fold s. by rewrite <- EL. }
    { by rewrite <- ET'. }
    { intros j Hj. specialize (PL j Hj). lra. }
    { lra. }
    fold s l2 t2 in V1, V2, Hre. exists (hs_tprog s k p beta l2 t2). split.
    { exists [mkt s beta; mkt s l2; mkt (ones k) (fun _ => t2)]. split; [|exact Hre].
      apply Forall2_cons_2; [|apply Forall2_cons_2; [apply V1|apply Forall2_cons_2; [apply V2|apply Forall2_nil_2]]].
      apply (extends_evals_iff _ _ h h' rho y _ (proj1 Hg) E).
      - exact (y_some h Hg n nd y Hn Hy).
      - unfold beta. rewrite <- EY. apply HyV. }
    rewrite Eo. split; [|split].
    - intros ->. exists (hs_rows p (size_of s) beta 1 l2 t2). split; [by apply hs_meets|].
      assert (Hs : size_of s = p) by (unfold s, size_of; cbn; lia). rewrite Hs, hs_rows_posterior. rewrite Hs in Hl2. apply hs_sweep; [lra|done|done].
    - intros prg. by apply hs_not_scale.
    - intros Hne prg cv Hm. eapply hs_not_rows; [exact Hlen|exact Hl2|exact Ht2| |exact Hm]. congruence.
  Qed.

  Theorem C51_horseshoe_kernel_partial :
    exists h' m lam' tau' ins inner,
      normal_horseshoe_finder B h n = (h', Ok [(lam, lam', []); (tau, tau', [])]) /\ extends h h' /\
      kernel_node h' m ins inner [lam'; tau'] /\
      forall scalar other cval, ranks_ok B other -> constants_ok B cval -> arithmetic_ok scalar -> sums_ok other ->
      forall rho p o Yv Lv Tv,
        gives_old h rho -> has_value B scalar other cval h rho y Yv -> tensor_ok Yv -> t_shape Yv = [p] ->
        has_value B scalar other cval h rho lam Lv -> positive_array [p] Lv ->
        has_value B scalar other cval h rho tau Tv -> positive_array o Tv -> Forall (eq 1) o -> length o <= 1 ->
        exists P prg, kernel_runs scalar other cval h' rho ins inner P /\ meets [p] o P prg /\
          gibbs_sweep Rate p (entries Yv) 1 (fun j => entries Lv j * entries Lv j)%R (entries Tv 0 * entries Tv 0)%R prg.
  Proof using All.
    destruct kernel_all as (h' & m & lam' & tau' & ins & inner & Hf & E & Hk & H). exists h', m, lam', tau', ins, inner.
    split; [done|]. split; [done|]. split; [done|]. intros scalar other cval HR HC HA HF rho p o Yv Lv Tv H1 H2 H3 H4 H5 H6 H7 H8 H9 H10.
    destruct (H scalar other cval HR HC HA HF rho p [] o Yv Lv Tv) as (P & HP & HS & _); [done..|].
    destruct (HS eq_refl) as (prg & ? & ?). eauto.
  Qed.
  Theorem C51_horseshoe_kernel_refuted :
    exists h' m lam' tau' ins inner,
      normal_horseshoe_finder B h n = (h', Ok [(lam, lam', []); (tau, tau', [])]) /\
      kernel_node h' m ins inner [lam'; tau'] /\
      forall scalar other cval, ranks_ok B other -> constants_ok B cval -> arithmetic_ok scalar -> sums_ok other ->
      forall rho p rest o Yv Lv Tv, let s := p :: rest in
        gives_old h rho -> has_value B scalar other cval h rho y Yv -> tensor_ok Yv -> t_shape Yv = s ->
        has_value B scalar other cval h rho lam Lv -> positive_array s Lv ->
        has_value B scalar other cval h rho tau Tv -> positive_array o Tv -> Forall (eq 1) o -> length o <= length s ->
        let beta := entries Yv in let l2 := fun j => (entries Lv j * entries Lv j)%R in let t2 := (entries Tv 0 * entries Tv 0)%R in
        exists P, kernel_runs scalar other cval h' rho ins inner P /\
          (* numpy reads the argument of [exponential] as a scale *)
          (forall prg, meets s o P prg -> ~ gibbs_sweep Scale (size_of s) beta 1 l2 t2 prg) /\
          (* coefficients in a matrix *)
          (size_of s <> p -> forall prg cv, meets s o P prg -> ~ gibbs_sweep cv (size_of s) beta 1 l2 t2 prg).
  Proof using All.
    destruct kernel_all as (h' & m & lam' & tau' & ins & inner & Hf & E & Hk & H). exists h', m, lam', tau', ins, inner.
    split; [done|]. split; [done|]. intros scalar other cval HR HC HA HF rho p rest o Yv Lv Tv s H1 H2 H3 H4 H5 H6 H7 H8 H9 H10 beta l2 t2.
    destruct (H scalar other cval HR HC HA HF rho p rest o Yv Lv Tv) as (P & HP & _ & HS & HM); [done..|]. eauto.
  Qed.
End kernel.
Print Assumptions C51_horseshoe_kernel_partial.
Print Assumptions C51_horseshoe_kernel_refuted.

(** ** A graph and values that meet all hypotheses: coefficients of rank [r] with scale
    [tau * lambda], for a vector of two and for a matrix with one row *)
Definition hk_h (r : nat) : heap :=
  Heap (list_to_map [(0, Var None (VType true 20) (KShared None) None); (1, Var None (ge_ty 1) (KConst 1) None);
                     (2, Var None (ge_ty 0) (KConst 2) None); (3, Var None (ge_ty 0) (KConst 3) None);
                     (4, Var None (ge_ty r) KPlain None);
                     (5, Var None (VType true 20) KPlain (Some (10, 0))); (6, Var (Some "tau"%string) (ge_ty 0) KPlain (Some (10, 1)));
                     (7, Var None (VType true 20) KPlain (Some (11, 0))); (8, Var (Some "lambda"%string) (ge_ty r) KPlain (Some (11, 1)));
                     (9, Var None (ge_ty r) KPlain (Some (12, 0)));
                     (11, Var None (VType true 20) KPlain (Some (14, 0))); (12, Var (Some "beta"%string) (ge_ty r) KPlain (Some (14, 1)))])
       (list_to_map [(10, Node (ORV RV_halfcauchy) [0; 1; 2; 3; 3] [5; 6]);
                     (11, Node (ORV RV_halfcauchy) [0; 1; 2; 3; 4] [7; 8]);
                     (12, Node (OElem E_mul) [6; 8] [9]);
                     (14, Node (ORV RV_normal) [0; 1; 2; 3; 9] [11; 12])]).
Definition hk_rho (Yv Lv Tv : tensor R) : vid -> option (tensor R) := given [12; 8; 6] [Yv; Lv; Tv].
Lemma hk_good r : good_heap (hk_h r).
Proof. apply heap_check_good. vm_compute. reflexivity. Qed.
Lemma hk_leaf r v : shared_var (hk_h r) v -> owner (hk_h r) v = None.
Proof. apply leaf_check_ok. vm_compute. reflexivity. Qed.
Lemma hk_const r : constant_leaves (hk_h r).
Proof.
  intros v nm ty c ow. unfold hk_h, hv. cbn [h_vars]. intros H. apply elem_of_list_to_map_2 in H.
  repeat (apply elem_of_cons in H as [H|H]; [injection H as -> -> -> ?; subst; try done|]); try (by apply elem_of_nil in H).
Qed.
Lemma hk_prior r : horseshoe_prior ge_B (hk_h r) 12 8 6.
Proof.
  exists 3, 9, 6, 8. split_and!; [do 6 eexists; split_and!; reflexivity| |do 3 eexists; split_and!; reflexivity|do 3 eexists; split_and!; reflexivity|].
  - do 3 eexists. split_and!; [reflexivity..|by left].
  - left. split; [|done]. exists (ge_ty 0). split; [reflexivity|by left].
Qed.
Lemma hk_values s (Yv Lv Tv : tensor R) : t_shape Yv = s -> t_shape Lv = s -> t_shape Tv = [] ->
  let has v x := has_value ge_B ge_scalar ge_other ge_cval (hk_h (length s)) (hk_rho Yv Lv Tv) v x in
  gives_old (hk_h (length s)) (hk_rho Yv Lv Tv) /\ has 12 Yv /\ has 8 Lv /\ has 6 Tv.
Proof.
  intros HY HL HT. cbv zeta. split; [|split_and!; (split; [by apply ev_given|]); unfold rank; rewrite ?HY, ?HL, ?HT; done].
  intros v Hv. apply given_elem in Hv. apply elem_of_cons in Hv as [->|[->|[->|?%elem_of_nil]%elem_of_cons]%elem_of_cons]; [by eexists..|done].
Qed.

(** two coefficients *)
Example C51_example : let Yv := Tensor [2] [1; -3]%R in let Lv := Tensor [2] [2; / 2]%R in let Tv := Tensor [] [3]%R in
  good_heap (hk_h 1) /\ (forall v, shared_var (hk_h 1) v -> owner (hk_h 1) v = None) /\ constant_leaves (hk_h 1) /\
  hn (hk_h 1) 14 = Some (Node (ORV RV_normal) [0; 1; 2; 3; 9] [11; 12]) /\ builder_ok ge_B /\ horseshoe_prior ge_B (hk_h 1) 12 8 6 /\
  ranks_ok ge_B ge_other /\ constants_ok ge_B ge_cval /\ arithmetic_ok ge_scalar /\ sums_ok ge_other /\
  gives_old (hk_h 1) (hk_rho Yv Lv Tv) /\
  has_value ge_B ge_scalar ge_other ge_cval (hk_h 1) (hk_rho Yv Lv Tv) 12 Yv /\ tensor_ok Yv /\
  has_value ge_B ge_scalar ge_other ge_cval (hk_h 1) (hk_rho Yv Lv Tv) 8 Lv /\ positive_array [2] Lv /\
  has_value ge_B ge_scalar ge_other ge_cval (hk_h 1) (hk_rho Yv Lv Tv) 6 Tv /\ positive_array [] Tv /\ Forall (eq 1) ([] : list nat).
Proof.
  intros Yv Lv Tv. destruct (hk_values [2] Yv Lv Tv eq_refl eq_refl eq_refl) as (V1 & V2 & V3 & V4).
  split_and!; [apply hk_good|apply hk_leaf|apply hk_const|reflexivity|apply ge_builder|apply hk_prior|apply ge_ranks|apply ge_constants|
    apply ge_arithmetic|apply ge_sums|exact V1|exact V2|reflexivity|exact V3| |exact V4| |done].
  - split; [reflexivity|]. split; [done|]. repeat (apply Forall_cons; split; [lra|]). done.
  - split; [reflexivity|]. split; [done|]. repeat (apply Forall_cons; split; [lra|]). done.
Qed.
(** a matrix of one row and two columns *)
Example C51_example_matrix : let Yv := Tensor [1; 2] [1; -3]%R in let Lv := Tensor [1; 2] [2; / 2]%R in let Tv := Tensor [] [3]%R in
  exists h' m lam' tau' ins inner P,
    normal_horseshoe_finder ge_B (hk_h 2) 14 = (h', Ok [(8, lam', []); (6, tau', [])]) /\
    kernel_node h' m ins inner [lam'; tau'] /\
    kernel_runs ge_scalar ge_other ge_cval h' (hk_rho Yv Lv Tv) ins inner P /\
    forall prg cv, meets [1; 2] [] P prg ->
      ~ gibbs_sweep cv 2 (entries Yv) 1 (fun j => entries Lv j * entries Lv j)%R (entries Tv 0 * entries Tv 0)%R prg.
Proof.
  intros Yv Lv Tv. destruct (hk_values [1; 2] Yv Lv Tv eq_refl eq_refl eq_refl) as (V1 & V2 & V3 & V4).
  destruct (C51_horseshoe_kernel_refuted ge_B (hk_h 2) 14 _ 12 8 6 (hk_good 2) (hk_leaf 2) (hk_const 2) eq_refl eq_refl ge_builder (hk_prior 2))
    as (h' & m & lam' & tau' & ins & inner & Hf & Hk & H).
  destruct (H ge_scalar ge_other ge_cval ge_ranks ge_constants ge_arithmetic ge_sums (hk_rho Yv Lv Tv) 1 [2] [] Yv Lv Tv V1 V2 eq_refl eq_refl V3)
    as (P & HP & _ & HM).
  { split; [reflexivity|]. split; [done|]. repeat (apply Forall_cons; split; [lra|]). done. }
  { exact V4. }
  { split; [reflexivity|]. split; [done|]. repeat (apply Forall_cons; split; [lra|]). done. }
  { done. }
  { cbn. lia. }
  exists h', m, lam', tau', ins, inner, P. split; [exact Hf|]. split; [exact Hk|]. split; [exact HP|]. exact (HM ltac:(cbn; lia)).
Qed.
