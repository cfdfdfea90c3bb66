(** The traversal of M_walk.v. *)
From Verif Require Export M_walk L_alloc.

Lemma filter_all {A} (P : A -> Prop) `{forall x, Decision (P x)} (l : list A) :
  (forall x, x ∈ l -> P x) -> filter P l = l.
Proof.
  induction l as [|x l IH]; intros Hl; [done|]. rewrite filter_cons_True by (apply Hl; by left).
  f_equal. apply IH. intros y Hy. apply Hl. by right.
Qed.

Section walk.
  Context (h : heap) (bl : list vid).

  (** going through the stack, having seen [seen], lists [o] *)
  Inductive visits : list vid -> list vid -> list vid -> Prop :=
    | vis_nil seen : visits [] seen []
    | vis_skip v st seen o : v ∈ seen -> visits st seen o -> visits (v :: st) seen o
    | vis_new v st seen o : v ∉ seen -> visits (expand h bl v ++ st) (v :: seen) o ->
        visits (v :: st) seen (v :: o).

  Lemma visits_det st seen o : visits st seen o -> forall o', visits st seen o' -> o = o'.
  Proof.
    induction 1; intros o' H'; inversion H'; subst; try done; [by apply IHvisits|].
    f_equal. by apply IHvisits.
  Qed.

  (** only membership in [seen] matters *)
  Lemma visits_seen st seen o : visits st seen o -> forall seen', (forall v, v ∈ seen <-> v ∈ seen') -> visits st seen' o.
  Proof.
    induction 1 as [|v st seen o Hv H IH|v st seen o Hv H IH]; intros seen' Hs; [constructor|..].
    - apply vis_skip; [by apply Hs|by apply IH].
    - apply vis_new; [by rewrite <- Hs|]. apply IH. intros u. rewrite !elem_of_cons. by rewrite Hs.
  Qed.

  Lemma visits_app st1 st2 seen o1 o2 : visits st1 seen o1 -> visits st2 (o1 ++ seen) o2 -> visits (st1 ++ st2) seen (o1 ++ o2).
  Proof.
    intros H1. revert st2 o2. induction H1 as [|v st seen o Hv H IH|v st seen o Hv H IH]; intros st2 o2 H2; cbn.
    - done.
    - apply vis_skip; [done|]. by apply IH.
    - apply vis_new; [done|]. rewrite app_assoc. apply IH. eapply visits_seen; [exact H2|].
      intros u. set_solver.
  Qed.

  Lemma visits_new st seen o u : visits st seen o -> u ∈ o -> u ∉ seen.
  Proof.
    induction 1 as [|v st seen o Hv H IH|v st seen o Hv H IH]; intros Hu.
    - by apply elem_of_nil in Hu.
    - by apply IH.
    - apply elem_of_cons in Hu as [->|Hu]; [done|]. specialize (IH Hu). set_solver.
  Qed.
  Lemma visits_NoDup st seen o : visits st seen o -> NoDup o.
  Proof.
    induction 1 as [|v st seen o Hv H IH|v st seen o Hv H IH]; [constructor|done|].
    apply NoDup_cons. split; [|done]. intros Hv'. pose proof (visits_new _ _ _ _ H Hv') as Hn. apply Hn. by left.
  Qed.

  Lemma elem_of_expand v u : u ∈ expand h bl v <-> v ∉ bl /\ input_of h v u.
  Proof. unfold expand, input_of. case_decide; set_solver. Qed.

  Lemma visits_sound st seen o u : visits st seen o -> u ∈ o -> cut_reachable h bl st u.
  Proof.
    induction 1 as [|v st seen o Hv H IH|v st seen o Hv H IH]; intros Hu.
    - by apply elem_of_nil in Hu.
    - specialize (IH Hu). clear -IH. induction IH as [r Hr|w u Hw IHw Hb Hi]; [apply cut_root; by right|by eapply cut_step].
    - apply elem_of_cons in Hu as [->|Hu]; [apply cut_root; by left|]. specialize (IH Hu). clear -IH.
      induction IH as [r Hr|w u Hw IHw Hb Hi]; [|by eapply cut_step].
      apply elem_of_app in Hr as [Hr|Hr]; [|apply cut_root; by right].
      apply elem_of_expand in Hr as [Hb Hi]. eapply cut_step; [apply cut_root; by left|done|done].
  Qed.

  Lemma visits_closed st seen o : visits st seen o ->
    (forall v u, v ∈ seen -> u ∈ expand h bl v -> u ∈ seen \/ u ∈ st) ->
    (forall v, v ∈ st -> v ∈ seen \/ v ∈ o) /\
    (forall v u, v ∈ seen \/ v ∈ o -> u ∈ expand h bl v -> u ∈ seen \/ u ∈ o).
  Proof.
    induction 1 as [|v st seen o Hv H IH|v st seen o Hv H IH]; intros Hc.
    - split; [intros v Hv; by apply elem_of_nil in Hv|]. intros v u [Hs|Hs] Hu; [|by apply elem_of_nil in Hs].
      destruct (Hc v u Hs Hu) as [?|Hn]; [by left|by apply elem_of_nil in Hn].
    - destruct IH as [I1 I2].
      { intros w u Hw Hu. destruct (Hc w u Hw Hu) as [?|Hs]; [by left|]. apply elem_of_cons in Hs as [->|Hs]; [by left|by right]. }
      split; [|done]. intros w Hw. apply elem_of_cons in Hw as [->|Hw]; [by left|by apply I1].
    - destruct IH as [I1 I2].
      { intros w u Hw Hu. apply elem_of_cons in Hw as [->|Hw]; [right; set_solver|].
        destruct (Hc w u Hw Hu) as [?|Hs]; [left; set_solver|]. apply elem_of_cons in Hs as [->|Hs]; [left; set_solver|right; set_solver]. }
      split.
      + intros w Hw. apply elem_of_cons in Hw as [->|Hw]; [right; set_solver|].
        destruct (I1 w) as [Hs|Hs]; [set_solver| |right; set_solver]. apply elem_of_cons in Hs as [->|Hs]; [right; set_solver|by left].
      + intros w u Hw Hu. destruct (I2 w u) as [Hs|Hs]; [set_solver|done| |right; set_solver].
        apply elem_of_cons in Hs as [->|Hs]; [right; set_solver|by left].
  Qed.
  Lemma visits_complete st o u : visits st [] o -> cut_reachable h bl st u -> u ∈ o.
  Proof.
    intros H Hu. destruct (visits_closed _ _ _ H) as [I1 I2]; [intros v w Hv; by apply elem_of_nil in Hv|].
    induction Hu as [r Hr|v u Hv IH Hb Hi].
    - destruct (I1 r Hr) as [Hn|?]; [by apply elem_of_nil in Hn|done].
    - destruct (I2 v u) as [Hn|?]; [by right|by apply elem_of_expand|by apply elem_of_nil in Hn|done].
  Qed.

  (** the fuel is enough *)
  Definition cost (l : list vid) : nat := foldr Nat.add 0 ((fun v => length (parents h v)) <$> l).
  Lemma cost_perm l l' : l ≡ₚ l' -> cost l = cost l'.
  Proof. unfold cost. induction 1; cbn; lia. Qed.
  Lemma cost_filter l v : NoDup l -> v ∈ l -> cost l = length (parents h v) + cost (filter (fun u => u <> v) l).
  Proof.
    intros Hnd Hv. apply elem_of_list_split in Hv as (l1 & l2 & ->).
    apply NoDup_app in Hnd as (N1 & N2 & N3). apply NoDup_cons in N3 as [N3 N4].
    assert (Hf : filter (fun u => u <> v) (l1 ++ v :: l2) = l1 ++ l2).
    { rewrite filter_app, filter_cons_False by (by intros []). rewrite !filter_all; [done|..]; intros u Hu ->; [done|].
      apply (N2 v); [done|by left]. }
    rewrite Hf, (cost_perm (l1 ++ v :: l2) (v :: l1 ++ l2)) by (by rewrite Permutation_middle). done.
  Qed.
  Lemma parents_none v : hv h v = None -> parents h v = [].
  Proof. unfold parents, owner. by intros ->. Qed.
  Lemma expand_length v : length (expand h bl v) <= length (parents h v).
  Proof. unfold expand. case_decide; cbn; lia. Qed.

  (** [todo]: the variables of the heap not yet seen *)
  Lemma walk_visits fuel : forall st seen todo, NoDup todo ->
    (forall v, is_Some (hv h v) -> v ∈ todo \/ v ∈ seen) -> length st + cost todo <= fuel ->
    visits st seen (walk fuel h bl st seen).
  Proof.
    induction fuel as [|fuel IH]; intros st seen todo Hnd Hd Hf.
    - destruct st; [constructor|cbn in Hf; lia].
    - destruct st as [|v st]; [constructor|]. cbn [walk]. case_decide as Hv.
      + apply vis_skip; [done|]. apply (IH _ _ todo); [done|done|]. cbn in Hf. lia.
      + apply vis_new; [done|]. destruct (decide (v ∈ todo)) as [Ht|Ht].
        * apply (IH _ _ (filter (fun u => u <> v) todo)).
          -- by apply NoDup_filter.
          -- intros u Hu. rewrite elem_of_cons. destruct (decide (u = v)) as [->|Hne]; [by right; left|].
             destruct (Hd u Hu); [left; by apply elem_of_list_filter|by right; right].
          -- rewrite app_length. pose proof (expand_length v). rewrite (cost_filter todo v) in Hf by done. cbn in Hf. lia.
        * assert (Hp : parents h v = []).
          { apply parents_none. destruct (hv h v) eqn:E; [|done]. exfalso. destruct (Hd v); [by eauto|done|done]. }
          apply (IH _ _ todo); [done|..].
          -- intros u Hu. destruct (Hd u Hu); [by left|right; by right].
          -- rewrite app_length. pose proof (expand_length v) as He. rewrite Hp in He. cbn in Hf, He |- *. lia.
  Qed.
  Lemma walk_enough outs : visits (rev outs) [] (walk (walk_fuel h outs) h bl (rev outs) []).
  Proof.
    apply (walk_visits _ _ _ (elements (dom (h_vars h)))); [apply NoDup_elements|..].
    - intros v Hv. left. apply elem_of_elements, elem_of_dom, Hv.
    - unfold walk_fuel. rewrite rev_length. unfold cost. lia.
  Qed.
End walk.

(** [graph_inputs] lists each variable without owner that is reachable without going
    through a blocker, once *)
Lemma cut_rev h bl outs u : cut_reachable h bl (rev outs) u <-> cut_reachable h bl outs u.
Proof.
  split; (induction 1 as [r Hr|v u Hv IH Hb Hi]; [apply cut_root|by eapply cut_step]).
  - by rewrite elem_of_list_In, <- in_rev, <- elem_of_list_In in Hr.
  - by rewrite elem_of_list_In, <- in_rev, <- elem_of_list_In.
Qed.
Lemma graph_inputs_spec h bl outs u :
  u ∈ graph_inputs h outs bl <-> owner h u = None /\ cut_reachable h bl outs u.
Proof.
  unfold graph_inputs. rewrite elem_of_list_filter. pose proof (walk_enough h bl outs) as H. rewrite <- cut_rev.
  split; intros [Ho Hu]; (split; [done|]); [by eapply visits_sound|by eapply visits_complete].
Qed.
Lemma graph_inputs_NoDup h bl outs : NoDup (graph_inputs h outs bl).
Proof. apply NoDup_filter. eapply visits_NoDup, walk_enough. Qed.
Lemma graph_inputs_visits h bl outs o : visits h bl (rev outs) [] o ->
  graph_inputs h outs bl = filter (fun v => owner h v = None) o.
Proof. intros H. unfold graph_inputs. f_equal. eapply visits_det; [apply walk_enough|exact H]. Qed.

(** without blockers *)
Lemma cut_nil h outs u : cut_reachable h [] outs u <-> reachable h outs u.
Proof.
  split.
  - induction 1 as [r Hr|v u Hv (r & Hr & IH) Hb Hi]; [by exists r; split; [|apply rtc_refl]|].
    exists r. split; [done|]. eapply rtc_r; [exact IH|exact Hi].
  - intros (r & Hr & Hp). assert (Hc : cut_reachable h [] outs r) by by apply cut_root. clear Hr.
    induction Hp as [|x y z Hxy Hp IH]; [done|]. apply IH. eapply cut_step; [exact Hc|apply not_elem_of_nil|exact Hxy].
Qed.
