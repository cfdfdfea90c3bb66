(** Heap extension: allocation keeps existing graphs, their reachability and
    their values. *)
From Verif Require Export L_replace S_basic.

Global Arguments alloc_var : simpl never.
Global Arguments alloc_node : simpl never.
Global Arguments replace : simpl never.

Lemma extends_refl h : extends h h.
Proof. done. Qed.
Lemma extends_trans h1 h2 h3 : extends h1 h2 -> extends h2 h3 -> extends h1 h3.
Proof. intros [A B] [C E]. split; auto. Qed.

Lemma extends_owner h h' v n i : extends h h' -> owner h v = Some (n, i) -> owner h' v = Some (n, i).
Proof.
  intros [Hv _]. unfold owner. destruct (hv h v) as [x|] eqn:Hx; [|done].
  by rewrite (Hv _ _ Hx).
Qed.

Lemma extends_owner_old h h' v : extends h h' -> is_Some (hv h v) -> owner h' v = owner h v.
Proof. intros [Hv _] [x Hx]. unfold owner. by rewrite Hx, (Hv _ _ Hx). Qed.

Lemma extends_ty h h' v : extends h h' -> is_Some (hv h v) -> ty_of h' v = ty_of h v.
Proof. intros [Hv _] [x Hx]. unfold ty_of. by rewrite Hx, (Hv _ _ Hx). Qed.

Lemma extends_some h h' v : extends h h' -> is_Some (hv h v) -> is_Some (hv h' v).
Proof. intros [Hv _] [x Hx]. eauto. Qed.

Lemma wf_parent h v u : wf_heap h -> input_of h v u -> is_Some (hv h u).
Proof.
  intros Hwf. unfold input_of, parents.
  destruct (owner h v) as [[n i]|]; [|by intros ?%elem_of_nil].
  destruct (hn h n) as [nd|] eqn:Hn; [|by intros ?%elem_of_nil].
  by eapply (wf_ins h Hwf).
Qed.

Lemma wf_reachable h roots u :
  wf_heap h -> (forall r, r ∈ roots -> is_Some (hv h r)) -> reachable h roots u -> is_Some (hv h u).
Proof.
  intros Hwf Hr (r & Hin & Hru). apply rtc_inv_r in Hru as [->|(w & _ & Hwu)]; [by apply Hr|].
  by eapply wf_parent.
Qed.

Lemma extends_agree h h' x :
  wf_heap h -> extends h h' -> is_Some (hv h x) -> agree_on (reachable h [x]) h h'.
Proof.
  intros Hwf Hex Hx. split.
  - intros v Hv. destruct (wf_reachable h [x] v Hwf) as [y Hy]; [|done|].
    + intros r Hr. by apply elem_of_list_singleton in Hr as ->.
    + rewrite Hy. by apply Hex.
  - intros v n i Hv Ho. destruct (wf_owner h Hwf _ _ _ Ho) as (nd & Hn & _).
    rewrite Hn. by apply Hex.
Qed.

Lemma extends_reachable h h' x u :
  wf_heap h -> extends h h' -> is_Some (hv h x) -> reachable h' [x] u <-> reachable h [x] u.
Proof. intros. by apply agree_reachable, extends_agree. Qed.

Lemma extends_reachable_list h h' roots u :
  wf_heap h -> extends h h' -> (forall r, r ∈ roots -> is_Some (hv h r)) ->
  reachable h' roots u <-> reachable h roots u.
Proof.
  intros Hwf Hex Hr. split; intros (r & Hin & Hru).
  - destruct (proj1 (extends_reachable h h' r u Hwf Hex (Hr _ Hin))) as (r' & Hr' & H).
    { exists r. split; [by left|done]. }
    apply elem_of_list_singleton in Hr' as ->. by exists r.
  - destruct (proj2 (extends_reachable h h' r u Hwf Hex (Hr _ Hin))) as (r' & Hr' & H).
    { exists r. split; [by left|done]. }
    apply elem_of_list_singleton in Hr' as ->. by exists r.
Qed.

Lemma extends_input_of h h' v u :
  wf_heap h -> extends h h' -> is_Some (hv h v) -> input_of h' v u <-> input_of h v u.
Proof.
  intros Hwf Hex Hv. unfold input_of.
  rewrite (agree_parents h (reachable h [v]) h' v); [done|by apply extends_agree|].
  apply reachable_root. by left.
Qed.

Lemma extends_evals {D} (base : op -> list D -> option (list D)) cval h h' rho x y :
  wf_heap h -> extends h h' -> is_Some (hv h x) ->
  evals base cval h rho x y -> evals base cval h' rho x y.
Proof.
  intros Hwf Hex Hx He. eapply (evals_agree base cval (reachable h [x]) h h' rho rho).
  - intros. by eapply reachable_step.
  - by apply extends_agree.
  - done.
  - done.
  - apply reachable_root. by left.
Qed.

(** new variables that only use existing ones create no cycle *)
Lemma extends_acyclic h h' :
  wf_heap h -> extends h h' -> acyclic h ->
  (forall v u, hv h v = None -> input_of h' v u -> is_Some (hv h u)) -> acyclic h'.
Proof.
  intros Hwf Hex Hac Hnew.
  assert (Hold : forall v u, is_Some (hv h v) -> tc (input_of h') v u -> tc (input_of h) v u /\ is_Some (hv h u)).
  { intros v u Hv Ht. induction Ht as [v u Hvu|v w u Hvw Ht IH].
    - apply (extends_input_of h h') in Hvu; try done. split; [by apply tc_once|]. by eapply wf_parent.
    - apply (extends_input_of h h') in Hvw; try done.
      destruct IH as [IH1 IH2]; [by eapply wf_parent|]. split; [by eapply tc_l|done]. }
  intros v Hv. destruct (hv h v) as [x|] eqn:Hx.
  - eapply Hac. by apply Hold.
  - inversion Hv as [? ? Hs|? w ? Hs Ht]; subst.
    + destruct (Hnew _ _ Hx Hs). congruence.
    + apply Hold in Ht as [_ [y Hy]]; [congruence|]. by apply (Hnew v).
Qed.

(** ** alloc_var *)
Lemma hv_alloc_var h x v : hv (alloc_var h x).1 v = if decide (v = (alloc_var h x).2) then Some x else hv h v.
Proof.
  unfold alloc_var, hv. cbn. case_decide as Hd; subst.
  - by rewrite lookup_insert.
  - by rewrite lookup_insert_ne.
Qed.

Lemma alloc_var_fresh h x : hv h (alloc_var h x).2 = None.
Proof.
  unfold alloc_var, hv. cbn. apply not_elem_of_dom. apply is_fresh.
Qed.

Lemma alloc_var_hn h x n : hn (alloc_var h x).1 n = hn h n.
Proof. done. Qed.

Lemma alloc_var_extends h x : extends h (alloc_var h x).1.
Proof.
  split; [|done]. intros v y Hy. rewrite hv_alloc_var. rewrite decide_False; [done|].
  intros ->. by rewrite alloc_var_fresh in Hy.
Qed.

Lemma alloc_var_wf h x : wf_heap h -> v_owner x = None -> wf_heap (alloc_var h x).1.
Proof.
  intros Hwf Hx. constructor.
  - intros v n i. unfold owner. rewrite hv_alloc_var. case_decide.
    + cbn. by rewrite Hx.
    + apply (wf_owner h Hwf).
  - intros n nd u Hn Hu. rewrite hv_alloc_var. case_decide; [done|]. by eapply (wf_ins h Hwf).
  - intros n nd i u Hn Hu. rewrite alloc_var_hn in Hn. pose proof (wf_outs h Hwf _ _ _ _ Hn Hu) as Ho.
    by apply (extends_owner _ _ _ _ _ (alloc_var_extends h x)).
Qed.

Lemma alloc_var_acyclic h x : wf_heap h -> v_owner x = None -> acyclic h -> acyclic (alloc_var h x).1.
Proof.
  intros Hwf Hx Hac. eapply extends_acyclic; eauto using alloc_var_extends.
  intros v u Hv. unfold input_of, parents, owner. rewrite hv_alloc_var. case_decide.
  - cbn. rewrite Hx. by intros ?%elem_of_nil.
  - rewrite Hv. by intros ?%elem_of_nil.
Qed.

(** ** alloc_outs and alloc_node *)
Lemma alloc_outs_spec tys : forall h n i,
  let r := alloc_outs h n i tys in
  length r.2 = length tys /\
  NoDup r.2 /\
  (forall v, v ∈ r.2 -> hv h v = None) /\
  (forall k v nm ty, r.2 !! k = Some v -> tys !! k = Some (nm, ty) ->
      hv r.1 v = Some (Var nm ty KPlain (Some (n, i + k)))) /\
  (forall v, v ∉ r.2 -> hv r.1 v = hv h v) /\
  h_nodes r.1 = h_nodes h.
Proof.
  induction tys as [|[nm ty] tys IH]; intros h n i.
  - cbn. split_and!; try done; [constructor|by intros v ?%elem_of_nil].
  - cbn. set (x := Var nm ty KPlain (Some (n, i))).
    destruct (alloc_var h x) as [h1 v] eqn:Ha.
    destruct (alloc_outs h1 n (S i) tys) as [h2 vs] eqn:Ho. cbn.
    pose proof (alloc_var_fresh h x) as Hf. pose proof (hv_alloc_var h x) as Hhv.
    rewrite Ha in Hf, Hhv. cbn in Hf, Hhv.
    specialize (IH h1 n (S i)). rewrite Ho in IH. cbn in IH.
    destruct IH as (Hlen & Hnd & Hfr & Hval & Hold & Hnod).
    assert (Hv : v ∉ vs). { intros Hin. apply Hfr in Hin. rewrite Hhv, decide_True in Hin by done. done. }
    split_and!.
    + lia.
    + by constructor.
    + intros w Hw. apply elem_of_cons in Hw as [->|Hw]; [done|].
      apply Hfr in Hw. rewrite Hhv in Hw. by case_decide.
    + intros [|k] w nm' ty'; cbn; intros Hw Hk.
      * simplify_eq. rewrite Hold by done. rewrite Hhv, decide_True by done. unfold x.
        by rewrite Nat.add_0_r.
      * rewrite (Hval k w nm' ty') by done. by rewrite Nat.add_succ_r.
    + intros w Hw. apply not_elem_of_cons in Hw as [Hw1 Hw2]. rewrite Hold by done.
      by rewrite Hhv, decide_False.
    + rewrite Hnod. change h1 with (h1, v).1. rewrite <- Ha. done.
Qed.

Section alloc_node.
  Context (h : heap) (o : op) (ins : list vid) (tys : list (option string * vtype)).
  Notation n := (fresh (dom (h_nodes h))).
  Notation h' := (alloc_node h o ins tys).1.
  Notation outs := (alloc_node h o ins tys).2.

  Lemma alloc_node_spec :
    length outs = length tys /\ NoDup outs /\
    (forall v, v ∈ outs -> hv h v = None) /\
    (forall k v nm ty, outs !! k = Some v -> tys !! k = Some (nm, ty) ->
        hv h' v = Some (Var nm ty KPlain (Some (n, k)))) /\
    (forall v, v ∉ outs -> hv h' v = hv h v) /\
    hn h n = None /\
    hn h' n = Some (Node o ins outs) /\
    (forall m, m <> n -> hn h' m = hn h m).
  Proof.
    unfold alloc_node. pose proof (alloc_outs_spec tys h n 0) as H. cbn in H.
    destruct (alloc_outs h n 0 tys) as [h1 vs] eqn:Ho. cbn in *.
    destruct H as (Hlen & Hnd & Hfr & Hval & Hold & Hnod).
    split_and!; try done.
    - unfold hn. apply not_elem_of_dom. apply is_fresh.
    - unfold hn. cbn. by rewrite lookup_insert.
    - intros m Hm. unfold hn. cbn. rewrite lookup_insert_ne by done. by rewrite Hnod.
  Qed.

  Lemma alloc_node_out_some v : v ∈ outs -> exists k nm ty, outs !! k = Some v /\ tys !! k = Some (nm, ty) /\
    hv h' v = Some (Var nm ty KPlain (Some (n, k))).
  Proof.
    intros [k Hk]%elem_of_list_lookup. pose proof alloc_node_spec as (Hlen & _ & _ & Hval & _).
    destruct (lookup_lt_is_Some_2 tys k) as [[nm ty] Ht].
    { rewrite <- Hlen. by eapply lookup_lt_Some. }
    exists k, nm, ty. split_and!; [done..|]. by apply Hval.
  Qed.

  Lemma alloc_node_extends : extends h h'.
  Proof.
    destruct alloc_node_spec as (_ & _ & Hfr & _ & Hold & Hn & _ & Hm). split.
    - intros v x Hv. rewrite Hold; [done|]. intros Hin. by rewrite Hfr in Hv.
    - intros m nd Hnd. rewrite Hm; [done|]. intros ->. by rewrite Hn in Hnd.
  Qed.

  Lemma alloc_node_parents v : v ∈ outs -> parents h' v = ins.
  Proof.
    intros Hv. destruct (alloc_node_out_some v Hv) as (k & nm & ty & Hk & Ht & Hx).
    destruct alloc_node_spec as (_ & _ & _ & _ & _ & _ & Hn & _).
    unfold parents, owner. rewrite Hx. cbn. by rewrite Hn.
  Qed.

  Hypothesis Hins : forall u, u ∈ ins -> is_Some (hv h u).
  Hypothesis Hwf : wf_heap h.

  Lemma alloc_node_wf : wf_heap h'.
  Proof.
    pose proof alloc_node_extends as Hex.
    destruct alloc_node_spec as (Hlen & Hnd & Hfr & Hval & Hold & Hn & Hn' & Hm). constructor.
    - intros v m i Ho. destruct (decide (v ∈ outs)) as [Hv|Hv].
      + destruct (alloc_node_out_some v Hv) as (k & nm & ty & Hk & Ht & Hx).
        unfold owner in Ho. rewrite Hx in Ho. cbn in Ho. simplify_eq.
        eexists. split; [exact Hn'|done].
      + unfold owner in Ho. rewrite Hold in Ho by done.
        destruct (wf_owner h Hwf v m i Ho) as (nd & Hnd1 & Hnd2).
        exists nd. split; [by apply Hex|done].
    - intros m nd u Hmd Hu. destruct (decide (m = n)) as [->|Hne].
      + rewrite Hn' in Hmd. simplify_eq. cbn in Hu. eapply extends_some; [done|]. by apply Hins.
      + rewrite Hm in Hmd by done. eapply extends_some; [done|]. by eapply (wf_ins h Hwf).
    - intros m nd i u Hmd Hu. destruct (decide (m = n)) as [->|Hne].
      + rewrite Hn' in Hmd. simplify_eq. cbn in Hu.
        destruct (lookup_lt_is_Some_2 tys i) as [[nm ty] Ht].
        { rewrite <- Hlen. by eapply lookup_lt_Some. }
        unfold owner. by erewrite Hval.
      + rewrite Hm in Hmd by done. eapply extends_owner; [done|]. by eapply (wf_outs h Hwf).
  Qed.

  Lemma alloc_node_acyclic : acyclic h -> acyclic h'.
  Proof.
    intros Hac. eapply extends_acyclic; eauto using alloc_node_extends.
    intros v u Hv Hu. destruct (decide (v ∈ outs)) as [Hin|Hin].
    - unfold input_of in Hu. rewrite alloc_node_parents in Hu by done. by apply Hins.
    - destruct alloc_node_spec as (_ & _ & _ & _ & Hold & _).
      unfold input_of, parents, owner in Hu. rewrite Hold, Hv in Hu by done. by apply elem_of_nil in Hu.
  Qed.

  Lemma alloc_node_reachable v u :
    v ∈ outs -> reachable h' [v] u -> u = v \/ reachable h ins u.
  Proof.
    intros Hv (r & Hr & Hru). apply elem_of_list_singleton in Hr as ->.
    apply rtc_inv in Hru as [->|(w & Hvw & Hwu)]; [by left|right].
    unfold input_of in Hvw. rewrite alloc_node_parents in Hvw by done.
    apply (extends_reachable_list h h'); [done|apply alloc_node_extends|by apply Hins|].
    exists w. done.
  Qed.
End alloc_node.

(** ** replacement keeps the heap well formed *)
Lemma replace_wf h roots old new :
  wf_heap h -> is_Some (hv h new) -> wf_heap (replace h roots old new).1.
Proof.
  intros Hwf Hnew. constructor.
  - intros v n i Ho. rewrite replace_owner in Ho. destruct (wf_owner h Hwf _ _ _ Ho) as (nd & Hn & Hi).
    unfold replace. cbn [fst]. rewrite hn_map_nodes, Hn. cbn. eexists. split; [done|].
    by case_decide.
  - intros n nd u Hn Hu. rewrite replace_hv. unfold replace in Hn. cbn [fst] in Hn.
    rewrite hn_map_nodes in Hn. destruct (hn h n) as [nd0|] eqn:Hn0; [|done]. cbn in Hn. simplify_eq.
    case_decide; [|by eapply (wf_ins h Hwf)].
    cbn in Hu. apply elem_of_list_fmap in Hu as (w & -> & Hw). unfold subst1. case_decide; [done|].
    by eapply (wf_ins h Hwf).
  - intros n nd i u Hn Hu. rewrite replace_owner. unfold replace in Hn. cbn [fst] in Hn.
    rewrite hn_map_nodes in Hn. destruct (hn h n) as [nd0|] eqn:Hn0; [|done]. cbn in Hn. simplify_eq.
    eapply (wf_outs h Hwf); [done|]. by case_decide.
Qed.

Lemma replace_roots_some h roots old new :
  is_Some (hv h new) -> (forall r, r ∈ roots -> is_Some (hv h r)) ->
  forall r, r ∈ (replace h roots old new).2 -> is_Some (hv (replace h roots old new).1 r).
Proof.
  intros Hn Hr r Hin. rewrite replace_hv. unfold replace in Hin. cbn in Hin.
  apply elem_of_list_fmap in Hin as (w & -> & Hw). unfold subst1. case_decide; auto.
Qed.

Lemma replace_n_op h roots old new n nd :
  hn (replace h roots old new).1 n = Some nd ->
  exists nd0, hn h n = Some nd0 /\ n_op nd = n_op nd0 /\ n_outs nd = n_outs nd0 /\
    length (n_ins nd) = length (n_ins nd0).
Proof.
  unfold replace. cbn [fst]. rewrite hn_map_nodes. destruct (hn h n) as [nd0|]; [|done].
  cbn. intros. simplify_eq. exists nd0. case_decide; cbn; by rewrite ?fmap_length.
Qed.
