(** Properties C40 and C41. *)
From Verif Require Import S_transforms L_transforms.

(** C40, exactly when it holds: given values [m] and [s] > 0 of the parameters, the related
    expression denotes a tensor with the same shape and joint law if and only if the size
    was given explicitly or there is at most one element. *)
Theorem C40_location_scale_iff_partial cv d rng size dt m s e' X :
  location_scale_transform (ERV d rng size dt [EConst m; EConst s]) e' ->
  (forall idx, In idx (indices (tshape s)) -> 0 < tdata s idx) ->
  eval cv (ERV d rng size dt [EConst m; EConst s]) = Some X ->
  (same_law_expr cv (fun _ => True) (ERV d rng size dt [EConst m; EConst s]) e' <->
   size <> [] \/ (length (indices (rshape X)) <= 1)%nat).
Proof.
  intros (rng' & size' & dt' & mu & sd & d' & E & -> & Hd) Hs HX.
  injection E as <- <- <- <- <- <-. split.
  - intros H. destruct size as [|a l]; [|left; discriminate]. right.
    destruct (le_gt_dec (length (indices (rshape X))) 1); auto.
    exfalso. eapply ls_large; eauto.
  - intros H. destruct size as [|a l] eqn:Es.
    + destruct H as [H|H]; [contradiction|]. eapply ls_small; eauto.
    + eapply ls_explicit; eauto. discriminate.
Qed.
Print Assumptions C40_location_scale_iff_partial.

(** C40 as stated is false: [normal([0, 0], 1)] without a size is related to
    [[0, 0] + 1 * normal(0, 1)], which has a single noise variable. *)
Theorem C40_location_scale_refuted : exists cv e e' X,
  location_scale_transform e e' /\ eval cv e = Some X /\ ~ same_law_expr cv (fun _ => True) e e'.
Proof.
  pose (m := mkTensor [2%nat] (fun _ => 0)).
  exists Rate, (ERV Normal 0 [] 0 [EConst m; EConst (scalar 1)]). eexists. eexists.
  assert (HT : location_scale_transform (ERV Normal 0 [] 0 [EConst m; EConst (scalar 1)])
     (EAdd (EConst m) (EMul (EConst (scalar 1)) (ERV Normal 0 [] 0 [EConst (scalar 0); EConst (scalar 1)])))).
  { exists 0%nat, [], 0%nat, (EConst m), (EConst (scalar 1)), Normal. simpl. auto 10. }
  split; [exact HT|]. split; [reflexivity|].
  intros H. eapply C40_location_scale_iff_partial in H; [|exact HT| |reflexivity].
  - destruct H as [H|H]; [contradiction|]. simpl in H. lia.
  - intros idx _. simpl. lra.
Qed.
Print Assumptions C40_location_scale_refuted.

(** The Student t distribution is in the relation's family but takes three parameters: no
    draw of it is related to anything. *)
Theorem C40_student_t_never_matches cv rng size dt params X e' :
  eval cv (ERV StudentT rng size dt params) = Some X ->
  ~ location_scale_transform (ERV StudentT rng size dt params) e'.
Proof.
  intros H (? & ? & ? & mu & sd & ? & E & _). injection E; intros; subst. simpl in H.
  destruct mu; try discriminate. destruct sd; discriminate.
Qed.

(** C41, for both readings of the argument of [exponential]: the related expression has
    the same shape and joint law if and only if the rate it is drawn with is [c]. *)
Theorem C41_invgamma_exponential_iff_partial cv rng size dt c e' X :
  invgamma_exponential (ERV Invgamma rng size dt [EConst (scalar 1); EConst c]) e' ->
  (forall idx, In idx (indices (tshape c)) -> 0 < tdata c idx) ->
  eval cv (ERV Invgamma rng size dt [EConst (scalar 1); EConst c]) = Some X ->
  (same_law_expr cv (fun x => 0 < x) (ERV Invgamma rng size dt [EConst (scalar 1); EConst c]) e' <->
   match cv with
   | Rate => True
   | Scale => forall idx, In idx (indices (rshape X)) -> at_idx c idx = 1
   end).
Proof.
  intros (c' & rng' & size' & dt' & E & ->) Hc HX. injection E as <- <- <- <-.
  rewrite (ig_iff cv rng size dt c Hc X HX). destruct cv; simpl; [tauto|].
  destruct (ig_eval Scale rng size dt c Hc X HX) as (_ & _ & _ & _ & _ & _ & _ & _ & _ & _ & _ & Hpos).
  split; intros H idx Hidx; specialize (H idx Hidx); specialize (Hpos idx Hidx).
  - assert (at_idx c idx * at_idx c idx = 1).
    { rewrite <- H at 1. field. lra. }
    nra.
  - rewrite H. apply Rinv_1.
Qed.
Print Assumptions C41_invgamma_exponential_iff_partial.

(** C41 is false when the argument of [exponential] is a scale, as in numpy. *)
Theorem C41_invgamma_exponential_refuted : exists e e' X,
  invgamma_exponential e e' /\ eval Scale e = Some X /\ ~ same_law_expr Scale (fun x => 0 < x) e e'.
Proof.
  exists (ERV Invgamma 0 [] 0 [EConst (scalar 1); EConst (scalar 2)]). eexists. eexists.
  assert (HT : invgamma_exponential (ERV Invgamma 0 [] 0 [EConst (scalar 1); EConst (scalar 2)])
     (EDiv (EConst (scalar 1)) (ERV Exponential 0 [] 0 [EConst (scalar 2)]))).
  { exists (EConst (scalar 2)), 0%nat, [], 0%nat. auto. }
  split; [exact HT|]. split; [reflexivity|]. intros H.
  eapply C41_invgamma_exponential_iff_partial in H; [|exact HT| |reflexivity].
  - specialize (H [] (or_introl eq_refl)). unfold at_idx in H. simpl in H. lra.
  - intros idx _. simpl. lra.
Qed.
Print Assumptions C41_invgamma_exponential_refuted.

(** The hypotheses are satisfiable: a 3-vector of logistic variables with an explicit size. *)
Example ex_location_scale :
  let m := mkTensor [3%nat] (fun idx => INR (hd 0%nat idx)) in
  let e := ERV Logistic 7 [3%nat] 0 [EConst m; EConst (scalar 2)] in
  exists e', location_scale_transform e e' /\ same_law_expr Scale (fun _ => True) e e'.
Proof.
  intros m e. eexists.
  assert (HT : location_scale_transform e
     (EAdd (EConst m) (EMul (EConst (scalar 2)) (ERV Logistic 7 [3%nat] 0 [EConst (scalar 0); EConst (scalar 1)])))).
  { exists 7%nat, [3%nat], 0%nat, (EConst m), (EConst (scalar 2)), Logistic. simpl. auto 10. }
  split; [exact HT|]. eapply C40_location_scale_iff_partial; [exact HT| |reflexivity|left; discriminate].
  intros idx _. simpl. lra.
Qed.

Example ex_invgamma :
  let c := mkTensor [2%nat] (fun idx => INR (hd 0%nat idx) + 1) in
  let e := ERV Invgamma 7 [] 0 [EConst (scalar 1); EConst c] in
  exists e', invgamma_exponential e e' /\ same_law_expr Rate (fun x => 0 < x) e e'.
Proof.
  intros c e. eexists.
  assert (HT : invgamma_exponential e (EDiv (EConst (scalar 1)) (ERV Exponential 7 [] 0 [EConst c]))).
  { exists (EConst c), 7%nat, [], 0%nat. auto. }
  split; [exact HT|]. eapply C41_invgamma_exponential_iff_partial; [exact HT| |reflexivity|exact I].
  intros idx _. simpl. pose proof (pos_INR (hd 0%nat idx)). lra.
Qed.
