(** Sums and finite distributions: basic facts. *)
From Verif Require Export LibDist.

Lemma lsum_app l1 l2 : lsum (l1 ++ l2) = lsum l1 + lsum l2.
Proof. induction l1; simpl; lra. Qed.

Lemma lsum_map_ext {A} (l : list A) f g : (forall x, In x l -> f x = g x) ->
  lsum (map f l) = lsum (map g l).
Proof.
  induction l as [|a l IH]; simpl; intros H; [lra|].
  rewrite (H a) by auto. rewrite IH; auto.
Qed.

Lemma lsum_map_plus {A} (l : list A) f g :
  lsum (map (fun x => f x + g x) l) = lsum (map f l) + lsum (map g l).
Proof. induction l; simpl; lra. Qed.

Lemma lsum_map_scal {A} c (l : list A) f : lsum (map (fun x => c * f x) l) = c * lsum (map f l).
Proof. induction l; simpl; lra. Qed.

Lemma lsum_map_scal_r {A} c (l : list A) f : lsum (map (fun x => f x * c) l) = lsum (map f l) * c.
Proof. induction l; simpl; lra. Qed.

Lemma lsum_map_zero {A} (l : list A) f : (forall x, In x l -> f x = 0) -> lsum (map f l) = 0.
Proof.
  induction l as [|a l IH]; simpl; intros H; [lra|].
  rewrite (H a) by auto. rewrite IH; auto. lra.
Qed.

Lemma lsum_swap {A B} (l : list A) (l' : list B) f :
  lsum (map (fun x => lsum (map (f x) l')) l) = lsum (map (fun y => lsum (map (fun x => f x y) l)) l').
Proof.
  induction l as [|a l IH]; simpl.
  - symmetry. apply lsum_map_zero. auto.
  - rewrite IH. rewrite <- lsum_map_plus. reflexivity.
Qed.

Lemma lsum_flat_map {A} (l : list A) (f : A -> list R) :
  lsum (flat_map f l) = lsum (map (fun x => lsum (f x)) l).
Proof. induction l; simpl; [lra|]. rewrite lsum_app. lra. Qed.

Lemma lsum_nonneg l : (forall x, In x l -> 0 <= x) -> 0 <= lsum l.
Proof.
  induction l as [|a l IH]; simpl; intros H; [lra|].
  pose proof (H a (or_introl eq_refl)). specialize (IH (fun x Hx => H x (or_intror Hx))). lra.
Qed.

Lemma lsum_le {A} (l : list A) f g : (forall x, In x l -> f x <= g x) ->
  lsum (map f l) <= lsum (map g l).
Proof.
  induction l as [|a l IH]; simpl; intros H; [lra|].
  pose proof (H a (or_introl eq_refl)). specialize (IH (fun x Hx => H x (or_intror Hx))). lra.
Qed.

Lemma lsum_zero_all l : (forall x, In x l -> 0 <= x) -> lsum l = 0 -> forall x, In x l -> x = 0.
Proof.
  induction l as [|a l IH]; simpl; intros H Hs x Hx; [tauto|].
  pose proof (H a (or_introl eq_refl)).
  pose proof (lsum_nonneg l (fun x Hx => H x (or_intror Hx))).
  destruct Hx as [->|Hx]; [lra|]. apply IH; auto. lra.
Qed.

Lemma lsum_mem_le l x : (forall x, In x l -> 0 <= x) -> In x l -> x <= lsum l.
Proof.
  induction l as [|a l IH]; simpl; intros H Hx; [tauto|].
  pose proof (H a (or_introl eq_refl)).
  pose proof (lsum_nonneg l (fun x Hx => H x (or_intror Hx))).
  destruct Hx as [->|Hx]; [lra|]. specialize (IH (fun x Hx => H x (or_intror Hx)) Hx). lra.
Qed.

Lemma nsum_ext n f g : (forall i, (i < n)%nat -> f i = g i) -> nsum n f = nsum n g.
Proof. intros H. apply lsum_map_ext. intros i Hi. apply in_seq in Hi. apply H. lia. Qed.

Lemma nsum_scal n c f : nsum n (fun i => c * f i) = c * nsum n f.
Proof. apply lsum_map_scal. Qed.

Lemma nsum_scal_r n c f : nsum n (fun i => f i * c) = nsum n f * c.
Proof. apply lsum_map_scal_r. Qed.

Lemma nsum_plus n f g : nsum n (fun i => f i + g i) = nsum n f + nsum n g.
Proof. apply lsum_map_plus. Qed.

Lemma nsum_swap n m f : nsum n (fun i => nsum m (f i)) = nsum m (fun j => nsum n (fun i => f i j)).
Proof. apply lsum_swap. Qed.

Lemma nsum_zero n f : (forall i, (i < n)%nat -> f i = 0) -> nsum n f = 0.
Proof. intros H. apply lsum_map_zero. intros i Hi. apply in_seq in Hi. apply H. lia. Qed.

Lemma nsum_nonneg n f : (forall i, (i < n)%nat -> 0 <= f i) -> 0 <= nsum n f.
Proof.
  intros H. apply lsum_nonneg. intros x Hx. apply in_map_iff in Hx as (i & <- & Hi).
  apply in_seq in Hi. apply H. lia.
Qed.

Lemma nsum_le n f g : (forall i, (i < n)%nat -> f i <= g i) -> nsum n f <= nsum n g.
Proof. intros H. apply lsum_le. intros i Hi. apply in_seq in Hi. apply H. lia. Qed.

Lemma nsum_zero_all n f : (forall i, (i < n)%nat -> 0 <= f i) -> nsum n f = 0 ->
  forall i, (i < n)%nat -> f i = 0.
Proof.
  intros H Hs i Hi. refine (lsum_zero_all _ _ Hs _ _).
  - intros x Hx. apply in_map_iff in Hx as (j & <- & Hj). apply in_seq in Hj. apply H. lia.
  - apply in_map_iff. exists i. split; [reflexivity|]. apply in_seq. lia.
Qed.

Lemma nsum_mem_le n f i : (forall i, (i < n)%nat -> 0 <= f i) -> (i < n)%nat -> f i <= nsum n f.
Proof.
  intros H Hi. apply lsum_mem_le.
  - intros x Hx. apply in_map_iff in Hx as (j & <- & Hj). apply in_seq in Hj. apply H. lia.
  - apply in_map_iff. exists i. split; [reflexivity|]. apply in_seq. lia.
Qed.

Lemma nsum_nonzero n f : nsum n f <> 0 -> exists i, (i < n)%nat /\ f i <> 0.
Proof.
  unfold nsum. intros H.
  assert (Hl : forall l, lsum (map f l) <> 0 -> exists i, In i l /\ f i <> 0).
  { induction l as [|a l IH]; simpl; intros Hs; [congruence|].
    destruct (Req_EM_T (f a) 0) as [E|E]; [|exists a; auto].
    destruct IH as (i & Hi & Hf); [lra|]. exists i. auto. }
  destruct (Hl _ H) as (i & Hi & Hf). apply in_seq in Hi. exists i. split; [lia|exact Hf].
Qed.

(** exactly one index contributes *)
Lemma nsum_single n f k : (k < n)%nat -> (forall i, (i < n)%nat -> i <> k -> f i = 0) ->
  nsum n f = f k.
Proof.
  unfold nsum. intros Hk H.
  assert (Hs : forall a m, (a <= k < a + m)%nat -> (a + m <= n)%nat -> lsum (map f (seq a m)) = f k).
  { intros a m. revert a. induction m as [|m IH]; intros a Ha Hm; [lia|]. simpl.
    destruct (Nat.eq_dec a k) as [->|Hne].
    - rewrite lsum_map_zero; [lra|]. intros i Hi. apply in_seq in Hi. apply H; lia.
    - rewrite IH by lia. rewrite H by lia. lra. }
  apply Hs; lia.
Qed.

Lemma nsum_S n f : nsum (S n) f = nsum n f + f n.
Proof. unfold nsum. rewrite seq_S, map_app, lsum_app. simpl. lra. Qed.

Lemma map_nth_seq (v : list R) d : map (fun i => nth i v d) (seq 0 (length v)) = v.
Proof.
  apply nth_ext with (d := d) (d' := d).
  - rewrite map_length, seq_length. reflexivity.
  - intros n Hn. rewrite map_length, seq_length in Hn.
    rewrite nth_indep with (d' := nth 0 v d) by (rewrite map_length, seq_length; auto).
    rewrite (map_nth (fun i => nth i v d) (seq 0 (length v)) 0%nat).
    rewrite seq_nth by auto. reflexivity.
Qed.

Lemma lsum_nsum v : lsum v = nsum (length v) (fun i => nth i v 0).
Proof. unfold nsum. rewrite map_nth_seq. reflexivity. Qed.

(** ** Expectations *)
Fixpoint dexp {A} (d : fdist A) (g : option A -> R) : R :=
  match d with
  | [] => 0
  | (x, w) :: d' => w * g x + dexp d' g
  end.

Lemma dprob_dexp {A} (d : fdist A) P : dprob d P = dexp d (fun o => if P o then 1 else 0).
Proof.
  induction d as [|[o w] d IH]; simpl; [reflexivity|]. rewrite IH. destruct (P o); lra.
Qed.

Lemma dexp_app {A} (d1 d2 : fdist A) g : dexp (d1 ++ d2) g = dexp d1 g + dexp d2 g.
Proof. induction d1 as [|[o w] d1 IH]; simpl; [lra|]. rewrite IH. lra. Qed.

Lemma dexp_scale {A} c (d : fdist A) g : dexp (dscale c d) g = c * dexp d g.
Proof. induction d as [|[o w] d IH]; simpl; [lra|]. rewrite IH. lra. Qed.

Lemma dexp_ret {A} (x : A) g : dexp (dret x) g = g (Some x).
Proof. simpl. lra. Qed.

Lemma dexp_fail {A} (g : option A -> R) : dexp dfail g = g None.
Proof. simpl. lra. Qed.

Lemma dexp_bind {A B} (d : fdist A) (f : A -> fdist B) g :
  dexp (dbind d f) g = dexp d (fun o => match o with Some x => dexp (f x) g | None => g None end).
Proof.
  induction d as [|[o w] d IH]; simpl; [reflexivity|].
  unfold dbind in *. simpl. rewrite dexp_app, dexp_scale, IH.
  destruct o; simpl; lra.
Qed.

Lemma dexp_ext {A} (d : fdist A) g g' : (forall o, g o = g' o) -> dexp d g = dexp d g'.
Proof. intros H. induction d as [|[o w] d IH]; simpl; [reflexivity|]. rewrite IH, H. reflexivity. Qed.

Lemma dexp_cat p g : dexp (dcat p) g = nsum (length p) (fun i => nth i p 0 * g (Some i)).
Proof.
  unfold dcat, nsum.
  assert (H : forall q a, dexp (map (fun q => (Some (fst q), snd q)) (combine (seq a (length q)) q)) g
             = lsum (map (fun i => nth (i - a) q 0 * g (Some i)) (seq a (length q)))).
  { induction q as [|x q IH]; intros a; simpl; [reflexivity|].
    rewrite IH. rewrite Nat.sub_diag. f_equal.
    apply lsum_map_ext. intros i Hi. apply in_seq in Hi.
    replace (i - a)%nat with (S (i - S a)) by lia. reflexivity. }
  rewrite H. apply lsum_map_ext. intros i _. rewrite Nat.sub_0_r. reflexivity.
Qed.
