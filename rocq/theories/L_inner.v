(** The shared variables in the inner graph of a kernel, and the inner graph of the
    dispersion kernel. *)
From Verif Require Import L_build M_gibbs.
From Verif Require Export L_walk.

(** everything that [v] is computed from exists, down to the variables in [bl], and all shared
    variables met are in [T] *)
Inductive conf (h : heap) (bl T : list vid) : vid -> Prop :=
  | conf_block v : v ∈ bl -> is_Some (hv h v) -> (is_shared h v = true -> v ∈ T) -> conf h bl T v
  | conf_step v : is_Some (hv h v) -> (is_shared h v = true -> v ∈ T) -> (forall u, input_of h v u -> conf h bl T u) ->
      conf h bl T v.

Lemma conf_some h bl T v : conf h bl T v -> is_Some (hv h v).
Proof. by destruct 1. Qed.
Lemma conf_shared h bl T v : conf h bl T v -> is_shared h v = true -> v ∈ T.
Proof. by destruct 1. Qed.
Lemma conf_mono h bl T T' v : (forall u, u ∈ T -> u ∈ T') -> conf h bl T v -> conf h bl T' v.
Proof.
  intros HT. induction 1 as [v Hb Hs Hsh|v Hs Hsh Hi IH]; [apply conf_block; auto|apply conf_step; auto].
Qed.
Lemma conf_extends h h' bl T v : extends h h' -> wf_heap h -> conf h bl T v -> conf h' bl T v.
Proof.
  intros E Hwf. assert (Hsh : forall v, is_Some (hv h v) -> is_shared h' v = is_shared h v).
  { intros w [x Hx]. unfold is_shared. by rewrite Hx, (proj1 E w x Hx). }
  induction 1 as [v Hb Hs Hv|v Hs Hv Hi IH].
  - apply conf_block; [done|by eapply extends_some|]. by rewrite Hsh.
  - apply conf_step; [by eapply extends_some|by rewrite Hsh|]. intros u Hu. apply IH. unfold input_of, parents in *.
    rewrite (extends_owner_old h h') in Hu by done. destruct (owner h v) as [[n i]|] eqn:Ho; [|done].
    destruct (wf_owner h Hwf v n i Ho) as (nd & Hn & _). by rewrite (proj2 E n nd Hn) in Hu; rewrite Hn.
Qed.
Lemma conf_cut h bl T st u : (forall v, v ∈ st -> conf h bl T v) -> cut_reachable h bl st u -> conf h bl T u.
Proof.
  intros Hst. induction 1 as [r Hr|v u Hv IH Hb Hi]; [by apply Hst|].
  destruct IH as [v Hb' _ _|v _ _ IH]; [done|by apply IH].
Qed.
Lemma conf_set_default h bl T r u v : is_shared h r = true -> conf h bl T v -> conf (set_default h r u) bl T v.
Proof.
  intros Hr. assert (Hsh : forall w, is_shared (set_default h r u) w = true -> is_shared h w = true).
  { intros w. destruct (decide (w = r)) as [->|Hne]; [done|]. unfold is_shared. by rewrite set_default_hv. }
  induction 1 as [v Hb Hs Hv|v Hs Hv Hi IH].
  - apply conf_block; [done|by apply set_default_some|auto].
  - apply conf_step; [by apply set_default_some|auto|]. intros w Hw. apply IH. unfold input_of in *. by rewrite set_default_parents in Hw.
Qed.

Section built.
  Context (bl T : list vid).
  Notation conf h := (conf h bl T).

  Lemma conf_node h o ins tys : good_heap h -> (forall u, u ∈ ins -> conf h u) ->
    forall v, v ∈ (alloc_node h o ins tys).2 -> conf (alloc_node h o ins tys).1 v.
  Proof.
    intros Hg Hins v Hv. apply conf_step.
    - by apply alloc_node_outs_some.
    - destruct (alloc_node_spec h o ins tys) as (Hlen & _ & _ & Hval & _). apply elem_of_list_lookup in Hv as [k Hk].
      destruct (lookup_lt_is_Some_2 tys k) as [[nm ty] Ht]; [rewrite <- Hlen; by eapply lookup_lt_Some|].
      unfold is_shared. by rewrite (Hval k v nm ty Hk Ht).
    - intros u Hu. unfold input_of in Hu. rewrite alloc_node_parents in Hu by done. eapply conf_extends; [apply alloc_node_extends|apply Hg|by apply Hins].
  Qed.
  Lemma conf_apply1 h o ins ty : good_heap h -> (forall u, u ∈ ins -> conf h u) -> conf (apply1 h o ins ty).1 (apply1 h o ins ty).2.
  Proof. intros Hg Hi. pose proof (conf_node h o ins [(None, ty)] Hg Hi) as H. rewrite apply1_alloc in H. apply H. by left. Qed.
  Lemma conf_const h c : conf (mk_const h c).1 (mk_const h c).2.
  Proof.
    unfold mk_const. set (x := Var None c.2 (KConst c.1) None). pose proof (alloc_var_new h x) as Hn.
    apply conf_step; [by eauto|unfold is_shared; by rewrite Hn|]. intros u. unfold input_of, parents, owner. rewrite Hn. cbn. by intros ?%elem_of_nil.
  Qed.
  Lemma conf_pads B n vs : forall h, good_heap h -> (forall u, u ∈ vs -> conf h u) ->
    let r := pad_vars B n h vs in good_heap r.1 /\ extends h r.1 /\ forall u, u ∈ r.2 -> conf r.1 u.
  Proof.
    induction vs as [|v vs IH]; intros h Hg Hv; cbn.
    - split; [done|]. split; [apply extends_refl|]. by intros u ?%elem_of_nil.
    - pose proof (pad_var_ok h (fun _ => True) B n h v) as H1. unfold pad_var in *. destruct (decide _) as [Hd|Hd].
      + cbn. specialize (IH h Hg). destruct (pad_vars B n h vs) as [h2 ws]. cbn in *.
        destruct IH as (G2 & E2 & H2); [intros u Hu; apply Hv; by right|]. split; [done|]. split; [done|].
        intros u [->|Hu]%elem_of_cons; [|by apply H2]. eapply conf_extends; [exact E2|apply Hg|]. apply Hv. by left.
      + pose proof (conf_apply1 h (ODimShuffle (replicate (n - a_ndim B (ty_def h v)) None ++ (Some <$> seq 0 (a_ndim B (ty_def h v))))) [v]
          (b_shuffle B (replicate (n - a_ndim B (ty_def h v)) None ++ (Some <$> seq 0 (a_ndim B (ty_def h v)))) (ty_def h v)) Hg) as C1.
        destruct (apply1 h _ _ _) as [h1 w]. cbn in H1, C1.
        destruct H1 as (E1 & [_ G1] & _); [split; [apply extends_refl|done]|split; [eapply conf_some; apply Hv; by left|by left]|].
        specialize (C1 ltac:(intros u ->%elem_of_list_singleton; apply Hv; by left)).
        specialize (IH h1 G1). destruct (pad_vars B n h1 vs) as [h2 ws]. cbn in *.
        destruct IH as (G2 & E2 & H2); [intros u Hu; eapply conf_extends; [exact E1|apply Hg|]; apply Hv; by right|].
        split; [done|]. split; [by eapply extends_trans|]. intros u [->|Hu]%elem_of_cons; [|by apply H2]. by eapply conf_extends; [exact E2|apply G1|].
  Qed.
  Lemma conf_elem B h s vs : good_heap h -> (forall u, u ∈ vs -> conf h u) -> conf (mk_elem B h s vs).1 (mk_elem B h s vs).2.
  Proof.
    intros Hg Hv. unfold mk_elem. pose proof (conf_pads B (foldr Nat.max 0 ((fun v => a_ndim B (ty_def h v)) <$> vs)) vs h Hg Hv) as H.
    destruct (pad_vars B _ h vs) as [h1 ws]. cbn in H. destruct H as (G1 & _ & Hw). by apply conf_apply1.
  Qed.
End built.

(** ** the order of two generators *)
Lemma visits_split h bl st seen o : visits h bl st seen o -> forall st1 st2, st = st1 ++ st2 ->
  exists o1 o2, o = o1 ++ o2 /\ visits h bl st1 seen o1 /\ visits h bl st2 (o1 ++ seen) o2.
Proof.
  induction 1 as [seen|v st seen o Hv H IH|v st seen o Hv H IH]; intros st1 st2 Heq.
  - symmetry in Heq. apply app_nil in Heq as [-> ->]. exists [], []. split; [done|]. split; constructor.
  - destruct st1 as [|w st1]; cbn in Heq.
    + subst st2. exists [], o. split; [done|]. split; [constructor|]. by apply vis_skip.
    + injection Heq as <- Heq. destruct (IH st1 st2 Heq) as (o1 & o2 & -> & H1 & H2). exists o1, o2. split; [done|]. split; [by apply vis_skip|done].
  - destruct st1 as [|w st1]; cbn in Heq.
    + subst st2. exists [], (v :: o). split; [done|]. split; [constructor|]. by apply vis_new.
    + injection Heq as <- Heq. destruct (IH (expand h bl v ++ st1) st2) as (o1 & o2 & -> & H1 & H2); [by rewrite Heq, app_assoc|].
      exists (v :: o1), o2. split; [done|]. split; [by apply vis_new|]. eapply visits_seen; [exact H2|]. intros u.
      set_solver.
Qed.
Lemma single (l : list vid) x : NoDup l -> x ∈ l -> (forall u, u ∈ l -> u = x) -> l = [x].
Proof.
  destruct l as [|a [|b l]]; intros Hnd Hx Hu.
  - by apply elem_of_nil in Hx.
  - f_equal. apply Hu. by left.
  - exfalso. apply NoDup_cons in Hnd as [Hn _]. apply Hn. rewrite (Hu a ltac:(by left)), (Hu b ltac:(right; by left)). by left.
Qed.
(** the generator that the last output is computed from is listed first *)
Lemma shared_order h bl outs last r1 r2 : r1 <> r2 ->
  conf h bl [r1] last -> (forall u, u ∈ outs -> conf h bl [r1; r2] u) ->
  owner h r1 = None -> is_shared h r1 = true -> cut_reachable h bl [last] r1 ->
  owner h r2 = None -> is_shared h r2 = true -> cut_reachable h bl outs r2 ->
  shared_inputs h bl (outs ++ [last]) = [r1; r2].
Proof.
  intros Hne Hl Ho W1 S1 R1 W2 S2 R2. unfold shared_inputs, graph_inputs. pose proof (walk_enough h bl (outs ++ [last])) as Hv.
  rewrite rev_app_distr in Hv |- *. cbn [rev app] in Hv |- *. set (o := walk _ h bl _ _) in *.
  pose proof (visits_NoDup _ _ _ _ _ Hv) as Hnd.
  assert (Hr2 : r2 ∈ o).
  { eapply visits_complete; [exact Hv|]. clear -R2. induction R2 as [r Hr|v u Hv IH Hb Hi]; [|by eapply cut_step].
    apply cut_root. right. rewrite elem_of_list_In, <- in_rev, <- elem_of_list_In. done. }
  destruct (visits_split _ _ _ _ _ Hv [last] (rev outs) eq_refl) as (o1 & o2 & Heq & V1 & V2). clearbody o. subst o. clear Hv. rewrite app_nil_r in V2.
  assert (Hr1 : r1 ∈ o1) by by eapply visits_complete. rewrite !filter_app. apply NoDup_app in Hnd as (N1 & Hdis & N2).
  change [r1; r2] with ([r1] ++ [r2]). f_equal.
  - apply single.
    + by apply NoDup_filter, NoDup_filter.
    + apply elem_of_list_filter. split; [done|]. apply elem_of_list_filter. done.
    + intros u [Hs [_ Hu]%elem_of_list_filter]%elem_of_list_filter. apply elem_of_list_singleton.
      eapply conf_shared; [|exact Hs]. eapply conf_cut; [|eapply visits_sound; [exact V1|exact Hu]]. by intros v ->%elem_of_list_singleton.
  - assert (Hin : forall u, u ∈ o2 -> is_shared h u = true -> u = r2).
    { intros u Hu Hs. assert (Hc : conf h bl [r1; r2] u).
      { eapply conf_cut; [|eapply visits_sound; [exact V2|exact Hu]]. intros v Hv. apply Ho. rewrite elem_of_list_In, <- in_rev, <- elem_of_list_In in Hv. done. }
      apply conf_shared in Hc; [|done]. apply elem_of_cons in Hc as [->|Hc%elem_of_list_singleton]; [by destruct (Hdis r1)|done]. }
    apply single.
    + by apply NoDup_filter, NoDup_filter.
    + apply elem_of_list_filter. split; [done|]. apply elem_of_list_filter. split; [done|].
      apply elem_of_app in Hr2 as [Hr2|?]; [|done]. exfalso. assert (Hc : conf h bl [r1] r2).
      { eapply conf_cut; [|eapply visits_sound; [exact V1|exact Hr2]]. by intros v ->%elem_of_list_singleton. }
      apply conf_shared in Hc; [|done]. apply elem_of_list_singleton in Hc. congruence.
    + intros u [Hs [_ Hu]%elem_of_list_filter]%elem_of_list_filter. by apply Hin.
Qed.

Lemma visits_extends h h' bl st seen o : extends h h' -> wf_heap h -> (forall v, v ∈ st -> is_Some (hv h v)) ->
  visits h bl st seen o -> visits h' bl st seen o.
Proof.
  intros E Hwf Hst H. induction H as [seen|v st seen o Hv H IH|v st seen o Hv H IH].
  - constructor.
  - apply vis_skip; [done|]. apply IH. intros u Hu. apply Hst. by right.
  - assert (Hs : is_Some (hv h v)) by (apply Hst; by left).
    assert (Hp : parents h' v = parents h v).
    { unfold parents. rewrite (extends_owner_old h h') by done. destruct (owner h v) as [[n i]|] eqn:Ho; [|done].
      destruct (wf_owner h Hwf v n i Ho) as (nd & Hn & _). by rewrite (proj2 E n nd Hn), Hn. }
    assert (He : expand h' bl v = expand h bl v) by (unfold expand; by rewrite Hp).
    apply vis_new; [done|]. rewrite He. apply IH. intros u [Hu|Hu]%elem_of_app; [|apply Hst; by right].
    apply elem_of_expand in Hu as [_ Hu]. by eapply wf_parent.
Qed.
Lemma shared_inputs_extends h h' bl outs : extends h h' -> wf_heap h -> (forall v, v ∈ outs -> is_Some (hv h v)) ->
  shared_inputs h' bl outs = shared_inputs h bl outs.
Proof.
  intros E Hwf Ho. pose proof (walk_enough h bl outs) as Hv. unfold shared_inputs.
  assert (Hr : forall v, v ∈ rev outs -> is_Some (hv h v)).
  { intros v Hr. apply Ho. rewrite elem_of_list_In, <- in_rev, <- elem_of_list_In in Hr. done. }
  rewrite (graph_inputs_visits h' bl outs _ (visits_extends _ _ _ _ _ _ E Hwf Hr Hv)). unfold graph_inputs.
  set (o := walk _ h bl _ _) in *.
  assert (Hs : forall v, v ∈ o -> is_Some (hv h v)).
  { intros v Hv'. pose proof (visits_sound _ _ _ _ _ _ Hv Hv') as Hc. clear -Hc Hr Hwf. induction Hc as [r Hr'|v u Hv IH Hb Hi]; [by apply Hr|by eapply wf_parent]. }
  clearbody o. clear Hv Hr. induction o as [|v o IH]; [done|].
  destruct (Hs v ltac:(by left)) as [x Hx]. assert (Hw : owner h' v = owner h v) by (apply extends_owner_old; eauto).
  assert (Hsh : is_shared h' v = is_shared h v) by (unfold is_shared; by rewrite Hx, (proj1 E v x Hx)).
  rewrite !filter_cons, Hw. destruct (decide (owner h v = None)).
  - rewrite !filter_cons, Hsh. rewrite IH; [done|]. intros u Hu. apply Hs. by right.
  - apply IH. intros u Hu. apply Hs. by right.
Qed.

(** ** a draw *)
Lemma gen_full B h o ins : good_heap h -> (forall u, u ∈ ins -> is_Some (hv h u)) -> (forall s a, o <> OSubsume s a) ->
  let '(h', (r, r', x)) := gen B h o ins in
  extends h h' /\ good_heap h' /\ hv h r = None /\ hv h r' = None /\ hv h x = None /\ owner h' r = None /\ is_shared h' r = true /\
  (exists n, owner h' r' = Some (n, 0) /\ owner h' x = Some (n, 1) /\ hn h' n = Some (Node o (r :: ins) [r'; x])) /\
  forall bl T, (forall u, u ∈ ins -> conf h bl T u) -> r ∈ T -> conf h' bl T r /\ conf h' bl T r' /\ conf h' bl T x.
Proof.
  intros Hg Hi Ho. pose proof (gen_ok h (fun _ => True) B h o ins Ho ltac:(split; [apply extends_refl|done])) as H0.
  unfold gen in *. set (w := Var None (b_rng B) (KShared None) None) in *.
  pose proof (alloc_var_new h w) as Hw. pose proof (alloc_var_fresh h w) as Hfw. pose proof (alloc_var_extends h w) as Ew.
  pose proof (alloc_var_good h w eq_refl Hg) as Gw. destruct (alloc_var h w) as [h1 r]. cbn [fst snd] in Hw, Hfw, Ew, Gw.
  destruct (alloc_node_spec h1 o (r :: ins) [(None, b_rng B); (None, b_draw B h o ins)]) as (_ & _ & Hfr & Hval & _ & _ & Hn & _).
  pose proof (conf_node) as HC. specialize (fun bl T => HC bl T h1 o (r :: ins) [(None, b_rng B); (None, b_draw B h o ins)] Gw).
  pose proof (alloc_node_extends h1 o (r :: ins) [(None, b_rng B); (None, b_draw B h o ins)]) as E2.
  rewrite apply_rng_alloc in Hfr, Hval, Hn, HC, E2. destruct (apply_rng h1 o (r :: ins) _ _) as [[h2 r'] x]. cbn [fst snd] in Hfr, Hval, Hn, HC, E2.
  destruct H0 as (E & [_ G] & _ & _ & _ & Hro & _ & Hs); [intros u Hu; split; [by apply Hi|by left]|].
  assert (Hback : forall v, hv h1 v = None -> hv h v = None).
  { intros v Hv. destruct (hv h v) as [z|] eqn:Ez; [|done]. apply (proj1 Ew) in Ez. congruence. }
  split; [done|]. split; [done|]. split; [done|]. split; [apply Hback, Hfr; by left|]. split; [apply Hback, Hfr; right; by left|].
  split; [done|]. split; [done|]. split.
  - exists (fresh (dom (h_nodes h1))). rewrite !set_default_owner, set_default_hn. unfold owner.
    rewrite (Hval 0 r' _ _ eq_refl eq_refl), (Hval 1 x _ _ eq_refl eq_refl). done.
  - intros bl T Hc HT. assert (Hr2 : is_shared h2 r = true) by (unfold is_shared; by rewrite (proj1 E2 r w Hw)).
    assert (Cr : conf h1 bl T r).
    { apply conf_step; [by eauto|done|]. intros u. unfold input_of, parents, owner. rewrite Hw. cbn. by intros ?%elem_of_nil. }
    assert (Hins : forall u, u ∈ r :: ins -> conf h1 bl T u).
    { intros u [->|Hu]%elem_of_cons; [done|]. eapply conf_extends; [exact Ew|apply Hg|by apply Hc]. }
    split; [|split]; (apply conf_set_default; [done|]).
    + eapply conf_extends; [exact E2|apply Gw|done].
    + apply (HC bl T Hins). by left.
    + apply (HC bl T Hins). right; by left.
Qed.

Lemma new_ne h h' u v : extends h h' -> is_Some (hv h u) -> hv h' v = None -> u <> v.
Proof. intros E [z Hz] Hv ->. apply (proj1 E) in Hz. congruence. Qed.
Lemma none_back h h' v : extends h h' -> hv h' v = None -> hv h v = None.
Proof. intros E Hv. destruct (hv h v) as [z|] eqn:Ez; [|done]. apply (proj1 E) in Ez. congruence. Qed.

(** ** the inner graph of the dispersion kernel *)
Section inner.
  Context (B : builder) (h0 : heap) (S : vid -> Prop).
  Hypothesis Hwf0 : wf_heap h0.
  Hypothesis HS : forall u w, S u -> input_of h0 u w -> S w.
  Hypothesis HSin : forall u, S u -> is_Some (hv h0 u).
  Notation src := (sourced h0 S).
  Notation stage := (stage h0).

  Lemma src_c h a l : src h a -> (forall u, u ∈ l -> src h u) -> forall u : vid, u ∈ a :: l -> src h u.
  Proof. intros ? ? u [->|?]%elem_of_cons; auto. Qed.
  Lemma src_n h : forall u : vid, u ∈ [] -> src h u.
  Proof. by intros u ?%elem_of_nil. Qed.
  Lemma up h h' v : stage h -> extends h h' -> src h v -> src h' v.
  Proof. intros Hst He Hv. eapply src_extends; [apply Hst|done|done]. Qed.
  Lemma conf_c h bl T a l : conf h bl T a -> (forall u, u ∈ l -> conf h bl T u) -> forall u : vid, u ∈ a :: l -> conf h bl T u.
  Proof. intros ? ? u [->|?]%elem_of_cons; auto. Qed.
  Lemma conf_n h bl T : forall u : vid, u ∈ [] -> conf h bl T u.
  Proof. by intros u ?%elem_of_nil. Qed.
  Lemma cup h h' bl T v : stage h -> extends h h' -> conf h bl T v -> conf h' bl T v.
  Proof. intros Hst He. apply conf_extends; [done|apply Hst]. Qed.

  Lemma fun_ok h k ins : stage h -> (forall u, u ∈ ins -> src h u) ->
    let r := mk_fun B h k ins in extends h r.1 /\ stage r.1 /\ src r.1 r.2 /\
    forall bl T, (forall u, u ∈ ins -> conf h bl T u) -> conf r.1 bl T r.2.
  Proof.
    intros Hst Hi. destruct (apply1_ok h0 S h (fun_op k) ins (b_draw B h (fun_op k) ins) ltac:(done) Hst Hi) as (E & St & Sr & _).
    split; [exact E|]. split; [exact St|]. split; [exact Sr|]. intros bl T Hc. apply conf_apply1; [apply Hst|done].
  Qed.
  Lemma elem_full h s vs : stage h -> (forall u, u ∈ vs -> src h u) ->
    let r := mk_elem B h s vs in extends h r.1 /\ stage r.1 /\ src r.1 r.2 /\ hv h r.2 = None /\
    forall bl T, (forall u, u ∈ vs -> conf h bl T u) -> conf r.1 bl T r.2.
  Proof.
    intros Hst Hi. destruct (elem_ok h0 S B h s vs Hst Hi) as (E & St & Sr & F).
    split; [exact E|]. split; [exact St|]. split; [exact Sr|]. split; [exact F|]. intros bl T Hc. apply conf_elem; [apply Hst|done].
  Qed.
  Lemma const_full h c : stage h -> let r := mk_const h c in extends h r.1 /\ stage r.1 /\ src r.1 r.2 /\ hv h r.2 = None /\ forall bl T, conf r.1 bl T r.2.
  Proof.
    intros Hst. destruct (const_ok h0 S h c Hst) as (E & St & Sr & F).
    split; [exact E|]. split; [exact St|]. split; [exact Sr|]. split; [exact F|]. intros bl T. apply conf_const.
  Qed.

  Lemma CRT_ok h y hh : stage h -> src h y -> src h hh ->
    let '(h', (sr, sn, Ls)) := sample_CRT_graph B h y hh in
    extends h h' /\ stage h' /\ src h' sr /\ src h' sn /\ src h' Ls /\
    owner h' sr = None /\ is_shared h' sr = true /\ hv h sr = None /\ hv h sn = None /\
    (exists n o ys res, owner h' sn = Some (n, 1) /\ hn h' n = Some (Node o [ys; sr; hh] [res; sn])) /\
    forall bl T, conf h bl T y -> conf h bl T hh -> sr ∈ T -> conf h' bl T sn /\ conf h' bl T Ls.
  Proof.
    intros Hst Hy Hh. unfold sample_CRT_graph.
    pose proof (fun_ok h F_ravel [y] Hst (src_c _ _ _ Hy (src_n _))) as H1. destruct (mk_fun B h _ _) as [h1 ys]. cbn in H1.
    destruct H1 as (E1 & S1 & O1 & C1). pose proof (up _ _ _ Hst E1 Hh) as Hh1.
    set (oi := OOther (8 * fresh (dom (h_nodes h1)) + K_inner)).
    pose proof (gen_ok h0 S B h1 oi [hh] ltac:(done) S1 (src_c _ _ _ Hh1 (src_n _))) as H2.
    pose proof (gen_full B h1 oi [hh] (proj2 S1)) as H2'. destruct (gen B h1 oi [hh]) as [h2 [[sr sr'] d]].
    destruct H2 as (E2 & S2 & O2 & _ & _ & W2 & F2 & Sh2).
    destruct H2' as (_ & _ & _ & _ & _ & _ & _ & _ & C2); [by intros u ->%elem_of_list_singleton; apply Hh1|done|].
    pose proof (extends_trans _ _ _ E1 E2) as E12. pose proof (up _ _ _ S1 E2 O1) as O1'. pose proof (up _ _ _ S1 E2 Hh1) as Hh2.
    set (o := OOther (8 * fresh (dom (h_nodes h2)) + K_scan)). set (ty := b_draw B h2 o _).
    pose proof (node_ok h0 S h2 o [ys; sr; hh] [(None, ty); (None, b_rng B)] ltac:(done) S2
      (src_c _ _ _ O1' (src_c _ _ _ O2 (src_c _ _ _ Hh2 (src_n _))))) as H3.
    pose proof (fun bl T => conf_node bl T h2 o [ys; sr; hh] [(None, ty); (None, b_rng B)] (proj2 S2)) as C3.
    destruct (alloc_node_spec h2 o [ys; sr; hh] [(None, ty); (None, b_rng B)]) as (_ & _ & _ & V3 & _ & _ & N3 & _).
    cbv zeta in H3. rewrite apply_rng_alloc in H3, C3, V3, N3. destruct (apply_rng h2 o _ _ _) as [[h3 res] sn]. cbn in H3, C3, V3, N3.
    destruct H3 as (E3 & S3 & O3 & _). destruct (O3 res ltac:(by left)) as [Or _]. destruct (O3 sn ltac:(right; by left)) as [Osn Fsn].
    pose proof (extends_trans _ _ _ E12 E3) as E13.
    pose proof (fun_ok h3 F_reshape [res; y] S3 (src_c _ _ _ Or (src_c _ _ _ (up _ _ _ Hst E13 Hy) (src_n _)))) as H4.
    destruct (mk_fun B h3 _ _) as [h4 Ls]. cbn in H4. destruct H4 as (E4 & S4 & O4 & C4).
    pose proof (extends_trans _ _ _ E13 E4) as E14. pose proof (extends_trans _ _ _ E3 E4) as E34.
    assert (Hback : forall h' v, extends h h' -> hv h' v = None -> hv h v = None).
    { intros h' v E Hv. destruct (hv h v) as [z|] eqn:Ez; [|done]. apply (proj1 E) in Ez. congruence. }
    split; [done|]. split; [done|]. split; [exact (up _ _ _ S2 E34 O2)|]. split; [exact (up _ _ _ S3 E4 Osn)|]. split; [done|].
    assert (Hsr2 : is_Some (hv h2 sr)) by apply O2.
    split; [rewrite (extends_owner_old h2 h4); [done|done|done]|].
    split. { destruct Hsr2 as [x Hx]. unfold is_shared in *. rewrite Hx in Sh2. by rewrite (proj1 E34 _ _ Hx). }
    split; [exact (Hback h1 sr E1 F2)|]. split; [exact (Hback h2 sn E12 Fsn)|]. split.
    - exists (fresh (dom (h_nodes h2))), o, ys, res. split; [|by apply (proj2 E4)].
      rewrite (extends_owner_old h3 h4); [|done|apply Osn]. unfold owner. by rewrite (V3 1 sn _ _ eq_refl eq_refl).
    - intros bl T Cy Ch HT. pose proof (C1 bl T (conf_c _ _ _ _ _ Cy (conf_n _ _ _))) as C1'.
      pose proof (cup _ _ _ _ _ Hst E1 Ch) as Ch1.
      destruct (C2 bl T (conf_c _ _ _ _ _ Ch1 (conf_n _ _ _)) HT) as (Csr & _ & _).
      pose proof (C3 bl T (conf_c _ _ _ _ _ (cup _ _ _ _ _ S1 E2 C1') (conf_c _ _ _ _ _ Csr (conf_c _ _ _ _ _ (cup _ _ _ _ _ S1 E2 Ch1) (conf_n _ _ _))))) as C3'.
      split.
      + apply (cup h3); [done|done|]. apply C3'. right; by left.
      + apply C4. apply conf_c; [apply C3'; by left|]. apply conf_c; [|apply conf_n]. by apply (cup h).
  Qed.

  Lemma dispersion_inner_ok h hh p a b y : stage h -> (forall u, u ∈ [hh; p; a; b; y] -> src h u) ->
    let '(h', g) := dispersion_inner B h hh p a b y in
    extends h h' /\ stage h' /\ (forall u, u ∈ dispersion_outputs g -> src h' u /\ hv h u = None) /\
    (owner h' (dg_scan_rng g) = None /\ is_shared h' (dg_scan_rng g) = true /\ hv h (dg_scan_rng g) = None) /\
    (owner h' (dg_rng g) = None /\ is_shared h' (dg_rng g) = true /\ hv h (dg_rng g) = None) /\ dg_scan_rng g <> dg_rng g /\
    (exists n o ys res, owner h' (dg_scan_next g) = Some (n, 1) /\ hn h' n = Some (Node o [ys; dg_scan_rng g; hh] [res; dg_scan_next g]) /\ dg_rng g ∉ [ys; hh]) /\
    (exists n size dtype shape scale, owner h' (dg_next g) = Some (n, 0) /\ owner h' (dg_sample g) = Some (n, 1) /\
       hn h' n = Some (Node (ORV RV_gamma) [dg_rng g; size; dtype; shape; scale] [dg_next g; dg_sample g]) /\
       dg_scan_rng g ∉ [size; dtype; shape; scale]) /\
    forall bl, (forall u, u ∈ [hh; p; a; b; y] -> conf h bl [] u) ->
      conf h' bl [dg_scan_rng g] (dg_scan_next g) /\
      conf h' bl [dg_scan_rng g; dg_rng g] (dg_next g) /\ conf h' bl [dg_scan_rng g; dg_rng g] (dg_sample g).
  Proof.
    intros Hst Hi. assert (Ih : src h hh) by (apply Hi; by left). assert (Ip : src h p) by (apply Hi; right; by left).
    assert (Ia : src h a) by (apply Hi; do 2 right; by left). assert (Ib : src h b) by (apply Hi; do 3 right; by left).
    assert (Iy : src h y) by (apply Hi; do 4 right; by left). unfold dispersion_inner.
    pose proof (CRT_ok h y hh Hst Iy Ih) as H1. destruct (sample_CRT_graph B h y hh) as [h1 [[sr sn] Ls]].
    destruct H1 as (E1 & S1 & Osr & Osn & OL & Wsr & Ssr & Fsr & Fsn & Nsn & C1).
    pose proof (fun_ok h1 F_sum [Ls] S1 (src_c _ _ _ OL (src_n _))) as H2. destruct (mk_fun B h1 _ _) as [h2 Lsum]. cbn in H2.
    destruct H2 as (E2 & S2 & O2 & C2). pose proof (extends_trans _ _ _ E1 E2) as X2.
    pose proof (elem_full h2 E_add [a; Lsum] S2 (src_c _ _ _ (up _ _ _ Hst X2 Ia) (src_c _ _ _ O2 (src_n _)))) as H3.
    destruct (mk_elem B h2 _ _) as [h3 shape]. cbn in H3. destruct H3 as (E3 & S3 & O3 & F3 & C3). pose proof (extends_trans _ _ _ X2 E3) as X3.
    pose proof (elem_full h3 E_reciprocal [b] S3 (src_c _ _ _ (up _ _ _ Hst X3 Ib) (src_n _))) as H4.
    destruct (mk_elem B h3 _ _) as [h4 invb]. cbn in H4. destruct H4 as (E4 & S4 & O4 & F4 & C4). pose proof (extends_trans _ _ _ X3 E4) as X4.
    pose proof (const_full h4 (b_int B 1) S4) as H5. destruct (mk_const h4 _) as [h5 one]. cbn in H5. destruct H5 as (E5 & S5 & O5 & F5 & C5).
    pose proof (extends_trans _ _ _ X4 E5) as X5.
    pose proof (elem_full h5 E_sub [one; p] S5 (src_c _ _ _ O5 (src_c _ _ _ (up _ _ _ Hst X5 Ip) (src_n _)))) as H6.
    destruct (mk_elem B h5 _ _) as [h6 q]. cbn in H6. destruct H6 as (E6 & S6 & O6 & F6 & C6). pose proof (extends_trans _ _ _ X5 E6) as X6.
    pose proof (elem_full h6 E_log [q] S6 (src_c _ _ _ O6 (src_n _))) as H7.
    destruct (mk_elem B h6 _ _) as [h7 lq]. cbn in H7. destruct H7 as (E7 & S7 & O7 & F7 & C7). pose proof (extends_trans _ _ _ X6 E7) as X7.
    pose proof (fun_ok h7 F_sum [lq] S7 (src_c _ _ _ O7 (src_n _))) as H8. destruct (mk_fun B h7 _ _) as [h8 ls]. cbn in H8.
    destruct H8 as (E8 & S8 & O8 & C8). pose proof (extends_trans _ _ _ X7 E8) as X8.
    pose proof (extends_trans _ _ _ (extends_trans _ _ _ (extends_trans _ _ _ E5 E6) E7) E8) as E48.
    pose proof (elem_full h8 E_sub [invb; ls] S8 (src_c _ _ _ (up _ _ _ S4 E48 O4) (src_c _ _ _ O8 (src_n _)))) as H9.
    destruct (mk_elem B h8 _ _) as [h9 rate]. cbn in H9. destruct H9 as (E9 & S9 & O9 & F9 & C9). pose proof (extends_trans _ _ _ X8 E9) as X9.
    pose proof (const_full h9 (b_float B 1) S9) as H10. destruct (mk_const h9 _) as [h10 one']. cbn in H10. destruct H10 as (E10 & S10 & O10 & F10 & C10).
    pose proof (elem_full h10 E_truediv [one'; rate] S10 (src_c _ _ _ O10 (src_c _ _ _ (up _ _ _ S9 E10 O9) (src_n _)))) as H11.
    destruct (mk_elem B h10 _ _) as [h11 scale]. cbn in H11. destruct H11 as (E11 & S11 & O11 & F11 & C11).
    pose proof (const_full h11 (b_nosize B) S11) as H12. destruct (mk_const h11 _) as [h12 size]. cbn in H12. destruct H12 as (E12 & S12 & O12 & F12 & C12).
    pose proof (const_full h12 (b_dtype B) S12) as H13. destruct (mk_const h12 _) as [h13 dtype]. cbn in H13. destruct H13 as (E13 & S13 & O13 & F13 & C13).
    pose proof (extends_trans _ _ _ (extends_trans _ _ _ (extends_trans _ _ _ (extends_trans _ _ _ E9 E10) E11) E12) E13) as E8_13.
    pose proof (extends_trans _ _ _ (extends_trans _ _ _ E4 E48) E8_13) as E3_13.
    pose proof (extends_trans _ _ _ (extends_trans _ _ _ E2 E3) E3_13) as E1_13.
    pose proof (extends_trans _ _ _ E12 E13) as E11_13. pose proof (extends_trans _ _ _ E1 E1_13) as X13.
    assert (Hgi : forall u, u ∈ [size; dtype; shape; scale] -> src h13 u).
    { apply src_c; [exact (up _ _ _ S12 E13 O12)|]. apply src_c; [exact O13|]. apply src_c; [exact (up _ _ _ S3 E3_13 O3)|].
      apply src_c; [exact (up _ _ _ S11 E11_13 O11)|apply src_n]. }
    pose proof (gen_ok h0 S B h13 (ORV RV_gamma) [size; dtype; shape; scale] ltac:(done) S13 Hgi) as H14.
    pose proof (gen_full B h13 (ORV RV_gamma) [size; dtype; shape; scale] (proj2 S13) ltac:(intros u Hu; by apply Hgi) ltac:(done)) as H14'.
    destruct (gen B h13 _ _) as [h14 [[rg gn] x]].
    destruct H14 as (E14 & S14 & Org & Ogn & Ox & _). destruct H14' as (_ & _ & Frg & Fgn & Fx & Wrg & Srg & Nrg & C14).
    pose proof (extends_trans _ _ _ E1_13 E14) as E1_14. pose proof (extends_trans _ _ _ E1 E1_14) as X14.
    assert (Hback : forall v, hv h13 v = None -> hv h v = None).
    { intros v Hv. exact (none_back _ _ _ X13 Hv). }
    cbn [dispersion_outputs dg_sample dg_rng dg_next dg_scan_rng dg_scan_next].
    split; [done|]. split; [done|]. split; [|split; [|split; [|split; [|split; [|split]]]]].
    - intros u [->|[->|[->|?%elem_of_nil]%elem_of_cons]%elem_of_cons]%elem_of_cons; [| | |done].
      + split; [done|by apply Hback].
      + split; [done|by apply Hback].
      + split; [exact (up _ _ _ S1 E1_14 Osn)|done].
    - split; [rewrite (extends_owner_old h1 h14); [done|done|apply Osr]|]. split; [|done].
      destruct Osr as [[z Hz] _]. unfold is_shared in *. rewrite Hz in Ssr. by rewrite (proj1 E1_14 _ _ Hz).
    - split; [done|]. split; [done|]. by apply Hback.
    - exact (new_ne h1 h13 sr rg E1_13 (proj1 Osr) Frg).
    - destruct Nsn as (n & o & ys & res & W & N). exists n, o, ys, res.
      split; [rewrite (extends_owner_old h1 h14); [done|done|apply Osn]|]. split; [by apply (proj2 E1_14)|].
      assert (K : forall v, is_Some (hv h1 v) -> rg <> v). { intros v Hv Heq. exact (new_ne h1 h13 v rg E1_13 Hv Frg (eq_sym Heq)). }
      assert (Hys : is_Some (hv h1 ys)) by (eapply (wf_ins h1 (proj1 (proj2 S1))); [exact N|by left]).
      assert (Hhh : is_Some (hv h1 hh)) by (eapply (wf_ins h1 (proj1 (proj2 S1))); [exact N|do 2 right; by left]).
      intros [H|[H|?%elem_of_nil]%elem_of_cons]%elem_of_cons; [exact (K ys Hys H)|exact (K hh Hhh H)|done].
    - destruct Nrg as (n & W1 & W2 & N). exists n, size, dtype, shape, scale. split; [done|]. split; [done|]. split; [done|].
      assert (K : forall hk v, extends h1 hk -> hv hk v = None -> sr <> v).
      { intros hk v Ek Hv. exact (new_ne h1 hk sr v Ek (proj1 Osr) Hv). }
      pose proof (extends_trans _ _ _ (extends_trans _ _ _ E2 E3) (extends_trans _ _ _ E4 E48)) as E1_8.
      pose proof (extends_trans _ _ _ (extends_trans _ _ _ E1_8 E9) E10) as E1_10. pose proof (extends_trans _ _ _ E1_10 E11) as E1_11.
      intros [H|[H|[H|[H|?%elem_of_nil]%elem_of_cons]%elem_of_cons]%elem_of_cons]%elem_of_cons; [| | | |done].
      + exact (K h11 size E1_11 F12 H).
      + exact (K h12 dtype (extends_trans _ _ _ E1_11 E12) F13 H).
      + exact (K h2 shape E2 F3 H).
      + exact (K h10 scale E1_10 F11 H).
    - intros bl Hc.
      assert (Cin : forall T u, u ∈ [hh; p; a; b; y] -> conf h bl T u).
      { intros T u Hu. eapply conf_mono; [|by apply Hc]. by intros w ?%elem_of_nil. }
      split.
      + apply (cup h1); [done|done|]. apply (C1 bl [sr]); [apply Cin; do 4 right; by left|apply Cin; by left|by left].
      + set (T := [sr; rg]) in *. specialize (Cin T).
        assert (K1 : conf h1 bl T Ls). { apply (C1 bl T); [apply Cin; do 4 right; by left|apply Cin; by left|by left]. }
        pose proof (C2 bl T (conf_c _ _ _ _ _ K1 (conf_n _ _ _))) as K2.
        pose proof (C3 bl T (conf_c _ _ _ _ _ (cup _ _ _ _ _ Hst X2 (Cin a ltac:(do 2 right; by left))) (conf_c _ _ _ _ _ K2 (conf_n _ _ _)))) as K3.
        pose proof (C4 bl T (conf_c _ _ _ _ _ (cup _ _ _ _ _ Hst X3 (Cin b ltac:(do 3 right; by left))) (conf_n _ _ _))) as K4.
        pose proof (C6 bl T (conf_c _ _ _ _ _ (C5 bl T) (conf_c _ _ _ _ _ (cup _ _ _ _ _ Hst X5 (Cin p ltac:(right; by left))) (conf_n _ _ _)))) as K6.
        pose proof (C7 bl T (conf_c _ _ _ _ _ K6 (conf_n _ _ _))) as K7. pose proof (C8 bl T (conf_c _ _ _ _ _ K7 (conf_n _ _ _))) as K8.
        pose proof (C9 bl T (conf_c _ _ _ _ _ (cup _ _ _ _ _ S4 E48 K4) (conf_c _ _ _ _ _ K8 (conf_n _ _ _)))) as K9.
        pose proof (C11 bl T (conf_c _ _ _ _ _ (C10 bl T) (conf_c _ _ _ _ _ (cup _ _ _ _ _ S9 E10 K9) (conf_n _ _ _)))) as K11.
        destruct (C14 bl T) as (_ & D1 & D2); [|right; by left|done].
        apply conf_c; [exact (cup _ _ _ _ _ S12 E13 (C12 bl T))|]. apply conf_c; [exact (C13 bl T)|].
        apply conf_c; [exact (cup _ _ _ _ _ S3 E3_13 K3)|]. apply conf_c; [exact (cup _ _ _ _ _ S11 E11_13 K11)|apply conf_n].
  Qed.
End inner.
