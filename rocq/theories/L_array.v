(** Products over the components of an array. *)
From Verif Require Export S_conjugates L_density L_tensor.
Global Open Scope nat_scope.

Lemma indices_NoDup s : NoDup (indices s).
Proof.
  induction s as [|d s IH]; [apply NoDup_singleton|]. cbn [indices]. generalize 0 as k. induction d as [|d IHd]; intros k; [constructor|].
  cbn. apply NoDup_app. split; [|split].
  - apply (NoDup_fmap_2 (cons k)). exact IH.
  - intros x Hx Hx'. apply (elem_of_list_fmap_2 (cons k)) in Hx as (r & -> & _).
    apply elem_of_list_In, in_flat_map in Hx' as (j & Hj & Hr). apply in_map_iff in Hr as (r' & [= -> ->] & _).
    apply in_seq in Hj. lia.
  - apply IHd.
Qed.

Definition lp {A} (f : A -> R) (l : list A) : R := fold_right Rmult 1%R (map f l).

Section lp.
  Context {A : Type} `{EqDecision A}.
  Implicit Types (f g : A -> R) (l : list A).
  Local Open Scope R_scope.

  Lemma lp_ext f g l : (forall i, i ∈ l -> f i = g i) -> lp f l = lp g l.
  Proof.
    induction l as [|a l IH]; intros H; [done|]. unfold lp in *. cbn. rewrite (H a) by (by left). rewrite IH; [done|].
    intros i Hi. apply H. by right.
  Qed.
  Lemma lp_mult f g l : lp (fun i => f i * g i) l = lp f l * lp g l.
  Proof. induction l as [|a l IH]; unfold lp in *; cbn; [ring|]. rewrite IH. ring. Qed.
  Lemma lp_pos f l : (forall i, i ∈ l -> 0 < f i) -> 0 < lp f l.
  Proof.
    induction l as [|a l IH]; intros H; unfold lp in *; cbn; [lra|]. apply Rmult_lt_0_compat; [apply H; by left|].
    apply IH. intros i Hi. apply H. by right.
  Qed.
  (** take one factor out *)
  Lemma lp_split f l i : NoDup l -> i ∈ l -> lp f l = f i * lp f (filter (fun j => j <> i) l).
  Proof.
    induction l as [|a l IH]; intros Hnd Hi; [by apply elem_of_nil in Hi|]. apply NoDup_cons in Hnd as [Hni Hnd].
    destruct (decide (a = i)) as [->|Hne].
    - rewrite filter_cons_False by (by intros ?). unfold lp at 1. cbn. fold (lp f l). f_equal. f_equal.
      clear IH Hi Hnd. induction l as [|b l IH]; [done|]. apply not_elem_of_cons in Hni as [? ?].
      rewrite filter_cons_True by done. f_equal. by apply IH.
    - apply elem_of_cons in Hi as [->|Hi]; [done|]. rewrite filter_cons_True by done.
      unfold lp in *. cbn. rewrite (IH Hnd Hi). ring.
  Qed.
End lp.

Section posterior.
  Context (S : R -> Prop) (s : list nat) (post prior lik : list nat -> R -> R).
  Local Open Scope R_scope.
  Notation P f x := (product_over s (fun i => f i (x i))).

  Lemma posterior_components :
    (forall i, in_range s i -> proportional S (post i) (fun t => prior i t * lik i t)) ->
    is_posterior S s (fun x => P post x) (fun x => P prior x) (fun x => P lik x).
  Proof.
    intros H.
    assert (Hc : exists c : list nat -> R, forall i, in_range s i -> 0 < c i /\ forall t, S t -> post i t = c i * (prior i t * lik i t)).
    { assert (Hl : forall l : list (list nat), (forall i, i ∈ l -> in_range s i) -> exists c : list nat -> R, forall i, i ∈ l ->
        0 < c i /\ forall t, S t -> post i t = c i * (prior i t * lik i t)).
      { induction l as [|i l IH]; intros Hl; [exists (fun _ => 1); by intros ? ?%elem_of_nil|].
        destruct IH as [c Hc]; [intros; apply Hl; by right|]. destruct (H i) as (k & Hk & Hpk); [apply Hl; by left|].
        exists (fun j => if decide (j = i) then k else c j). intros j Hj. case_decide as Hd; [by subst j|].
        apply elem_of_cons in Hj as [->|Hj]; [done|]. by apply Hc. }
      destruct (Hl (indices s)) as [c Hc]; [intros i; apply elem_of_indices|]. exists c. intros i Hi. apply Hc. by apply elem_of_indices. }
    destruct Hc as [c Hc]. exists (lp c (indices s)). split; [apply lp_pos; intros i Hi; apply Hc; by apply elem_of_indices|].
    intros x Hx. unfold product_over. fold (lp (fun i => post i (x i)) (indices s)). fold (lp (fun i => prior i (x i)) (indices s)).
    fold (lp (fun i => lik i (x i)) (indices s)). rewrite <- !lp_mult. apply lp_ext. intros i Hi%elem_of_indices.
    apply Hc; [done|]. by apply Hx.
  Qed.

  Lemma posterior_components_inv t0 :
    S t0 -> (forall i t, in_range s i -> S t -> 0 < post i t /\ 0 < prior i t /\ 0 < lik i t) ->
    is_posterior S s (fun x => P post x) (fun x => P prior x) (fun x => P lik x) ->
    forall i, in_range s i -> proportional S (post i) (fun t => prior i t * lik i t).
  Proof.
    intros Ht0 Hpos (c & Hc & H) i Hi.
    set (rest := filter (fun j => j <> i) (indices s)).
    assert (Hin : i ∈ indices s) by (by apply elem_of_indices).
    set (K1 := lp (fun j => post j t0) rest). set (K2 := lp (fun j => prior j t0 * lik j t0) rest).
    assert (HK1 : 0 < K1). { apply lp_pos. intros j [_ Hj%elem_of_indices]%elem_of_list_filter. by apply Hpos. }
    assert (HK2 : 0 < K2).
    { apply lp_pos. intros j [_ Hj%elem_of_indices]%elem_of_list_filter. destruct (Hpos j t0 Hj Ht0) as (_ & ? & ?). by apply Rmult_lt_0_compat. }
    exists (c * K2 / K1). split. { apply Rdiv_lt_0_compat; [|done]. by apply Rmult_lt_0_compat. }
    intros t Ht. set (x := fun j => if decide (j = i) then t else t0).
    assert (Hx : forall j, in_range s j -> S (x j)) by (intros j _; unfold x; by case_decide).
    specialize (H x Hx). unfold product_over in H.
    change (lp (fun j => post j (x j)) (indices s) = c * (lp (fun j => prior j (x j)) (indices s) * lp (fun j => lik j (x j)) (indices s))) in H.
    rewrite <- lp_mult in H. cbv beta in H. rewrite (lp_split (fun j => post j (x j)) _ i), (lp_split (fun j => prior j (x j) * lik j (x j)) _ i) in H by (done || apply indices_NoDup). fold rest in H.
    assert (Hr1 : lp (fun j => post j (x j)) rest = K1).
    { apply lp_ext. intros j [Hj _]%elem_of_list_filter. unfold x. by rewrite decide_False. }
    assert (Hr2 : lp (fun j => prior j (x j) * lik j (x j)) rest = K2).
    { apply lp_ext. intros j [Hj _]%elem_of_list_filter. unfold x. by rewrite decide_False. }
    rewrite Hr1, Hr2 in H. assert (Hxi : x i = t) by (unfold x; by rewrite decide_True). rewrite Hxi in H.
    apply (Rmult_eq_reg_r K1); [|lra]. rewrite H. field. lra.
  Qed.
End posterior.
