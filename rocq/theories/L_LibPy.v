(** Facts about insertion-ordered dictionaries. *)
From Verif Require Import LibPy.

Section dict.
  Context {K V : Type} `{EqDecision K}.
  Implicit Types (d e : dict K V) (k : K) (v : V).

  Lemma dget_None d k : dget d k = None <-> k ∉ dkeys d.
  Proof.
    induction d as [|[k' v] d IH]; simpl.
    - split; [intros _; apply not_elem_of_nil | done].
    - rewrite not_elem_of_cons. case_decide; split; naive_solver.
  Qed.

  Lemma dget_Some_in d k v : dget d k = Some v -> (k, v) ∈ d.
  Proof.
    induction d as [|[k' v'] d IH]; simpl; [done|].
    case_decide; intros Hg; simplify_eq; [constructor|]. constructor; auto.
  Qed.

  Lemma dget_in d k : k ∈ dkeys d <-> is_Some (dget d k).
  Proof.
    rewrite <- not_eq_None_Some. rewrite dget_None.
    destruct (decide (k ∈ dkeys d)); tauto.
  Qed.

  Lemma dget_of_in d k v : NoDup (dkeys d) -> (k, v) ∈ d -> dget d k = Some v.
  Proof.
    induction d as [|[k' v'] d IH]; simpl; intros Hnd Hin.
    - by apply elem_of_nil in Hin.
    - apply NoDup_cons in Hnd as [Hk Hnd].
      apply elem_of_cons in Hin as [Heq|Hin]; simplify_eq; [by rewrite decide_True|].
      case_decide; subst; [|auto].
      exfalso. apply Hk. unfold dkeys. apply elem_of_list_fmap. by exists (k', v).
  Qed.

  Lemma dget_dset d k v k' :
    dget (dset d k v) k' = if decide (k' = k) then Some v else dget d k'.
  Proof.
    induction d as [|[k0 v0] d IH]; simpl.
    - done.
    - destruct (decide (k = k0)) as [->|Hk]; simpl.
      + by destruct (decide (k' = k0)).
      + rewrite IH. destruct (decide (k' = k0)) as [->|]; [|done].
        by rewrite decide_False by congruence.
  Qed.

  Lemma dget_dset_eq d k v : dget (dset d k v) k = Some v.
  Proof. rewrite dget_dset. by rewrite decide_True. Qed.

  Lemma dget_dset_ne d k v k' : k' <> k -> dget (dset d k v) k' = dget d k'.
  Proof. intros. rewrite dget_dset. by rewrite decide_False. Qed.

  Lemma dkeys_dset d k v :
    dkeys (dset d k v) = if decide (k ∈ dkeys d) then dkeys d else dkeys d ++ [k].
  Proof.
    unfold dkeys. induction d as [|[k0 v0] d IH]; cbn [dset map fst].
    - by rewrite decide_False by apply not_elem_of_nil.
    - destruct (decide (k = k0)) as [->|Hk]; cbn [map fst].
      + rewrite decide_True by constructor. done.
      + rewrite IH. destruct (decide (k ∈ map fst d)).
        * by rewrite decide_True by (by constructor).
        * rewrite decide_False; [done|]. rewrite elem_of_cons. naive_solver.
  Qed.

  Lemma dkeys_dset_in d k v : k ∈ dkeys d -> dkeys (dset d k v) = dkeys d.
  Proof. intros. rewrite dkeys_dset. by rewrite decide_True. Qed.

  Lemma elem_of_dkeys_dset d k v k' : k' ∈ dkeys (dset d k v) <-> k' = k \/ k' ∈ dkeys d.
  Proof.
    rewrite dkeys_dset. case_decide; [|rewrite elem_of_app, elem_of_list_singleton]; naive_solver.
  Qed.

  Lemma NoDup_dkeys_dset d k v : NoDup (dkeys d) -> NoDup (dkeys (dset d k v)).
  Proof.
    intros. rewrite dkeys_dset. case_decide; [done|].
    apply NoDup_app. split_and!; [done| |apply NoDup_singleton].
    intros x Hx Hx'. apply elem_of_list_singleton in Hx' as ->. done.
  Qed.

  Lemma NoDup_dkeys_dupdate e d : NoDup (dkeys d) -> NoDup (dkeys (dupdate d e)).
  Proof.
    revert d. induction e as [|[k v] e IH]; simpl; intros d Hd; [done|].
    apply IH. by apply NoDup_dkeys_dset.
  Qed.

  Lemma NoDup_dkeys_dof e : NoDup (dkeys (dof e)).
  Proof. apply NoDup_dkeys_dupdate. constructor. Qed.

  Lemma elem_of_dkeys_dupdate e d k :
    k ∈ dkeys (dupdate d e) <-> k ∈ dkeys d \/ k ∈ map fst e.
  Proof.
    revert d. induction e as [|[k0 v0] e IH]; simpl; intros d.
    - rewrite elem_of_nil. tauto.
    - rewrite IH, elem_of_dkeys_dset, elem_of_cons. tauto.
  Qed.

  Lemma dget_dupdate_notin e d k : k ∉ map fst e -> dget (dupdate d e) k = dget d k.
  Proof.
    revert d. induction e as [|[k0 v0] e IH]; simpl; intros d Hk; [done|].
    apply not_elem_of_cons in Hk as [Hk Hk']. rewrite IH by done.
    by apply dget_dset_ne.
  Qed.

  Lemma dget_dupdate_nodup e d k v :
    NoDup (map fst e) -> (k, v) ∈ e -> dget (dupdate d e) k = Some v.
  Proof.
    revert d. induction e as [|[k0 v0] e IH]; simpl; intros d Hnd Hin.
    - by apply elem_of_nil in Hin.
    - apply NoDup_cons in Hnd as [Hk Hnd].
      apply elem_of_cons in Hin as [Heq|Hin]; simplify_eq.
      + rewrite dget_dupdate_notin by done. apply dget_dset_eq.
      + by apply IH.
  Qed.

  Lemma dkeys_dof_nodup e : NoDup (map fst e) -> dkeys (dof e) = map fst e.
  Proof.
    unfold dof. intros Hnd.
    cut (forall d, NoDup (dkeys d ++ map fst e) -> dkeys (dupdate d e) = dkeys d ++ map fst e).
    { intros Hc. apply (Hc []). done. }
    clear Hnd. induction e as [|[k v] e IH]; simpl; intros d Hnd; [by rewrite app_nil_r|].
    assert (k ∉ dkeys d) as Hk.
    { apply NoDup_app in Hnd as (_ & Hd & _). intros Hk. apply (Hd k Hk). constructor. }
    rewrite IH; rewrite dkeys_dset, decide_False by done; rewrite <- app_assoc; done.
  Qed.

  Lemma dof_nodup e : NoDup (map fst e) -> dof e = e.
  Proof.
    unfold dof. intros Hnd.
    cut (forall d, NoDup (dkeys d ++ map fst e) -> dupdate d e = d ++ e).
    { intros Hc. apply (Hc []). done. }
    clear Hnd. induction e as [|[k v] e IH]; simpl; intros d Hnd; [by rewrite app_nil_r|].
    assert (k ∉ dkeys d) as Hk.
    { apply NoDup_app in Hnd as (_ & Hd & _). intros Hk. apply (Hd k Hk). constructor. }
    assert (dset d k v = d ++ [(k, v)]) as Hds.
    { clear -Hk. induction d as [|[k0 v0] d IH]; simpl in *; [done|].
      apply not_elem_of_cons in Hk as [? ?]. rewrite decide_False by done. by rewrite IH. }
    rewrite Hds. rewrite IH; [by rewrite <- app_assoc|].
    unfold dkeys in *. rewrite map_app. simpl. by rewrite <- app_assoc.
  Qed.

  Lemma dget_dupdate_gen e d k :
    dget (dupdate d e) k = match dget (dof e) k with Some v => Some v | None => dget d k end.
  Proof.
    unfold dof. revert d.
    induction e as [|[k0 v0] e IH] using rev_ind; intros d; [done|].
    assert (forall d0, dupdate d0 (e ++ [(k0, v0)]) = dset (dupdate d0 e) k0 v0) as Happ.
    { clear. induction e as [|[k1 v1] e IH]; simpl; [done|]. intros. apply IH. }
    rewrite !Happ, !dget_dset. case_decide; [done|]. apply IH.
  Qed.

  Lemma dupdate_app d e1 e2 : dupdate d (e1 ++ e2) = dupdate (dupdate d e1) e2.
  Proof. revert d. induction e1 as [|[k v] e1 IH]; simpl; intros; [done|]. apply IH. Qed.

  Lemma dmem_true k d : dmem k d = true <-> k ∈ dkeys d.
  Proof. unfold dmem. apply bool_decide_eq_true. Qed.
End dict.
