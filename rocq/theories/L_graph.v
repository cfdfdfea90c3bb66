(** Facts about reachability, replacement, allocation and evaluation. *)
From Verif Require Export S_graph L_LibPy.

(** ** Reachability *)

Section iter.
  Context (f : gset nat -> gset nat).
  Hypothesis Hinf : forall X, X ⊆ f X.

  Lemma iter_fixed_mono k X : f (Nat.iter k f X) = Nat.iter k f X ->
    forall m, k <= m -> f (Nat.iter m f X) = Nat.iter m f X.
  Proof.
    intros Hk m Hm. induction Hm as [|m Hm IH]; [done|]. simpl. by rewrite IH.
  Qed.

  Lemma iter_size k X :
    f (Nat.iter k f X) = Nat.iter k f X \/ k <= size (Nat.iter k f X).
  Proof.
    induction k as [|k IH]; [right; lia|].
    destruct IH as [IH|IH].
    - left. apply (iter_fixed_mono k); [done|lia].
    - destruct (decide (f (Nat.iter k f X) = Nat.iter k f X)) as [He|Hne].
      + left. apply (iter_fixed_mono k); [done|lia].
      + right. change (Nat.iter (S k) f X) with (f (Nat.iter k f X)).
        set (Y := Nat.iter k f X) in *.
        assert (Y ⊂ f Y) as Hss.
        { split; [apply Hinf|]. intros Hsub. apply Hne. apply leibniz_equiv.
          apply set_equiv_subseteq. split; [done|apply Hinf]. }
        apply subset_size in Hss. lia.
  Qed.

  Lemma iter_fixpoint U X :
    (forall k, Nat.iter k f X ⊆ U) ->
    f (Nat.iter (S (size U)) f X) = Nat.iter (S (size U)) f X.
  Proof.
    intros HU. destruct (iter_size (S (size U)) X) as [H|H]; [done|].
    pose proof (subseteq_size _ _ (HU (S (size U)))). lia.
  Qed.
End iter.

Lemma elem_of_reach_step h X u :
  u ∈ reach_step h X <-> u ∈ X \/ exists v, v ∈ X /\ input_of h v u.
Proof.
  unfold reach_step, input_of. rewrite elem_of_union, elem_of_list_to_set, elem_of_list_bind.
  setoid_rewrite elem_of_elements. naive_solver.
Qed.

Lemma parents_all_inputs h v u : input_of h v u -> u ∈ all_inputs h.
Proof.
  unfold input_of, parents, all_inputs, hn. intros Hin.
  destruct (owner h v) as [[n i]|]; [|by apply elem_of_nil in Hin].
  destruct (h_nodes h !! n) as [nd|] eqn:Hn; [|by apply elem_of_nil in Hin].
  apply elem_of_list_to_set, elem_of_list_bind. exists nd. split; [done|].
  apply elem_of_list_fmap. exists (n, nd). split; [done|]. by apply elem_of_map_to_list.
Qed.

Lemma elem_of_reach_set h roots v : v ∈ reach_set h roots <-> reachable h roots v.
Proof.
  set (U := list_to_set roots ∪ all_inputs h : gset nat).
  set (X := list_to_set roots : gset nat).
  assert (Hinf : forall Y, Y ⊆ reach_step h Y).
  { intros Y y Hy. apply elem_of_reach_step. by left. }
  assert (Hsub : forall k, Nat.iter k (reach_step h) X ⊆ U).
  { induction k as [|k IH]; [set_solver|]. cbn [Nat.iter]. intros y Hy.
    apply elem_of_reach_step in Hy as [Hy|(w & _ & Hw)].
    - by apply IH.
    - apply parents_all_inputs in Hw. set_solver. }
  pose proof (iter_fixpoint (reach_step h) Hinf U X Hsub) as Hfix.
  change (reach_set h roots) with (Nat.iter (S (size U)) (reach_step h) X).
  split.
  - generalize (S (size U)) as k. intros k. revert v.
    induction k as [|k IH]; intros v Hv; cbn [Nat.iter] in Hv.
    + exists v. split; [set_solver|]. apply rtc_refl.
    + apply elem_of_reach_step in Hv as [Hv|(w & Hw & Hwv)]; [by apply IH|].
      apply IH in Hw as (r & Hr & Hrw). exists r. split; [done|]. by eapply rtc_r.
  - intros (r & Hr & Hrv).
    assert (r ∈ Nat.iter (S (size U)) (reach_step h) X) as Hin.
    { generalize (S (size U)) as k. induction k as [|k IH].
      - simpl. set_solver.
      - cbn [Nat.iter]. by apply Hinf. }
    clear Hr. induction Hrv as [r|r u v Hru Huv IH]; [done|].
    apply IH. rewrite <- Hfix. apply elem_of_reach_step. right. by exists r.
Qed.

Lemma elem_of_fg_nodes h roots n : n ∈ fg_nodes h roots <-> node_reachable h roots n.
Proof.
  unfold fg_nodes, node_reachable. rewrite elem_of_list_to_set, elem_of_list_omap.
  setoid_rewrite elem_of_elements. setoid_rewrite elem_of_reach_set.
  split.
  - intros (v & Hv & Ho). destruct (owner h v) as [[n' i]|] eqn:Hov; [|done].
    simpl in Ho. simplify_eq. eauto.
  - intros (v & i & Hv & Ho). exists v. split; [done|]. by rewrite Ho.
Qed.

Lemma reachable_root h roots v : v ∈ roots -> reachable h roots v.
Proof. intros. exists v. split; [done|]. apply rtc_refl. Qed.

Lemma reachable_step h roots v u :
  reachable h roots v -> input_of h v u -> reachable h roots u.
Proof. intros (r & Hr & Hrv) Hvu. exists r. split; [done|]. by eapply rtc_r. Qed.

Lemma reachable_nil h v : ~ reachable h [] v.
Proof. intros (r & Hr & _). by apply elem_of_nil in Hr. Qed.

Lemma reachable_app h r1 r2 v : reachable h (r1 ++ r2) v <-> reachable h r1 v \/ reachable h r2 v.
Proof.
  unfold reachable. setoid_rewrite elem_of_app. naive_solver.
Qed.

Lemma reachable_cons h r rs v : reachable h (r :: rs) v <-> reachable h [r] v \/ reachable h rs v.
Proof. apply (reachable_app h [r] rs). Qed.

Lemma reachable_mono h rs1 rs2 v : rs1 ⊆ rs2 -> reachable h rs1 v -> reachable h rs2 v.
Proof. intros Hs (r & Hr & Hrv). exists r. split; [by apply Hs|done]. Qed.

Lemma reachable_trans h rs1 rs2 v :
  (forall r, r ∈ rs1 -> reachable h rs2 r) -> reachable h rs1 v -> reachable h rs2 v.
Proof.
  intros Hs (r & Hr & Hrv). destruct (Hs _ Hr) as (r' & Hr' & Hr'r).
  exists r'. split; [done|]. by etrans.
Qed.

(** ** The result of mapping the inputs of a set of nodes *)

Lemma hn_map_nodes ns f h n :
  hn (map_nodes ns f h) n = (fun nd => if decide (n ∈ ns) then set_ins nd f else nd) <$> hn h n.
Proof.
  unfold hn, map_nodes. simpl. rewrite map_lookup_imap.
  by destruct (h_nodes h !! n).
Qed.

Lemma hv_map_nodes ns f h v : hv (map_nodes ns f h) v = hv h v.
Proof. done. Qed.

Lemma owner_map_nodes ns f h v : owner (map_nodes ns f h) v = owner h v.
Proof. done. Qed.

Lemma ty_of_map_nodes ns f h v : ty_of (map_nodes ns f h) v = ty_of h v.
Proof. done. Qed.

(** checking an enumeration of the ancestors by computation *)
Definition same_elements (l k : list nat) : bool :=
  forallb (fun v => bool_decide (v ∈ k)) l && forallb (fun v => bool_decide (v ∈ l)) k.

Lemma same_elements_spec l k : same_elements l k = true -> forall v, v ∈ l <-> v ∈ k.
Proof.
  unfold same_elements. rewrite andb_true_iff, !forallb_forall. intros [H1 H2] v. split; intros Hv.
  - specialize (H1 v). rewrite bool_decide_eq_true in H1. apply H1. by apply elem_of_list_In.
  - specialize (H2 v). rewrite bool_decide_eq_true in H2. apply H2. by apply elem_of_list_In.
Qed.

Lemma enumerates_compute h roots l :
  same_elements l (elements (reach_set h roots)) = true -> enumerates_ancestors h roots l.
Proof.
  intros H v. rewrite (same_elements_spec _ _ H v), elem_of_elements. apply elem_of_reach_set.
Qed.
