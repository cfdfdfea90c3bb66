(** Lemmas for M_build. *)
From Verif Require Export S_build E_basic L_broadcast L_subsume L_walk.

Global Arguments apply1 : simpl never.
Global Arguments apply_rng : simpl never.
Global Arguments set_default : simpl never.

Lemma apply1_alloc h o ins ty : alloc_node h o ins [(None, ty)] = ((apply1 h o ins ty).1, [(apply1 h o ins ty).2]).
Proof. unfold alloc_node, apply1. cbn. by destruct (alloc_var h _) as [h1 v]. Qed.

Lemma apply_rng_alloc h o ins rty ty :
  alloc_node h o ins [(None, rty); (None, ty)] = ((apply_rng h o ins rty ty).1.1, [(apply_rng h o ins rty ty).1.2; (apply_rng h o ins rty ty).2]).
Proof.
  unfold alloc_node, apply_rng. cbn. destruct (alloc_var h _) as [h1 v] eqn:E1. cbn.
  destruct (alloc_var h1 _) as [h2 w] eqn:E2. done.
Qed.

(** ** set_default *)
Section set_default.
  Context (h : heap) (r u : vid).
  Notation h' := (set_default h r u).

  Lemma set_default_hn n : hn h' n = hn h n.
  Proof. unfold set_default. by destruct (hv h r). Qed.
  Lemma set_default_hv v : v <> r -> hv h' v = hv h v.
  Proof. intros Hne. unfold set_default. destruct (hv h r); [|done]. unfold hv. cbn. by rewrite lookup_insert_ne. Qed.
  Lemma set_default_owner v : owner h' v = owner h v.
  Proof.
    destruct (decide (v = r)) as [->|Hne]; [|unfold owner; by rewrite set_default_hv].
    unfold owner, set_default. destruct (hv h r) as [x|] eqn:Hx; [|by rewrite Hx]. unfold hv. cbn. by rewrite lookup_insert.
  Qed.
  Lemma set_default_ty v : ty_of h' v = ty_of h v.
  Proof.
    destruct (decide (v = r)) as [->|Hne]; [|unfold ty_of; by rewrite set_default_hv].
    unfold ty_of, set_default. destruct (hv h r) as [x|] eqn:Hx; [|by rewrite Hx]. unfold hv. cbn. by rewrite lookup_insert.
  Qed.
  Lemma set_default_some v : is_Some (hv h' v) <-> is_Some (hv h v).
  Proof. pose proof (set_default_ty v) as H. unfold ty_of in H. destruct (hv h' v), (hv h v); cbn in H; try done; split; intros; eauto; by destruct H0. Qed.
  Lemma set_default_parents v : parents h' v = parents h v.
  Proof. unfold parents. rewrite set_default_owner. destruct (owner h v) as [[n i]|]; [|done]. by rewrite set_default_hn. Qed.
  Lemma set_default_reachable l v : reachable h' l v <-> reachable h l v.
  Proof.
    assert (Hio : forall a b, input_of h' a b <-> input_of h a b) by (intros; unfold input_of; by rewrite set_default_parents).
    split; intros (x & Hx & Hr); exists x; (split; [done|]); clear Hx; induction Hr; [constructor| |constructor|]; (econstructor; [|done]); by apply Hio.
  Qed.
  Lemma set_default_tc v w : tc (input_of h') v w -> tc (input_of h) v w.
  Proof.
    intros Hv. induction Hv as [a b H|a b c H Hc IH].
    - apply tc_once. unfold input_of in *. by rewrite set_default_parents in H.
    - eapply tc_l; [|done]. unfold input_of in *. by rewrite set_default_parents in H.
  Qed.
  Lemma set_default_good : good_heap h -> good_heap h'.
  Proof.
    intros (Hwf & Hac & Hok). split_and!.
    - constructor.
      + intros v n i. rewrite set_default_owner. intros Ho. destruct (wf_owner h Hwf v n i Ho) as (nd & Hn & H).
        exists nd. by rewrite set_default_hn.
      + intros n nd w. rewrite set_default_hn. intros Hn Hw. apply set_default_some. by eapply (wf_ins h Hwf).
      + intros n nd i w. rewrite set_default_hn. intros Hn Hw. rewrite set_default_owner. by eapply (wf_outs h Hwf).
    - intros v Hv. apply (Hac v). by apply set_default_tc.
    - intros n nd s args. rewrite set_default_hn. apply Hok.
  Qed.
  Lemma set_default_extends h0 : extends h0 h -> hv h0 r = None -> extends h0 h'.
  Proof.
    intros [Hv Hn] Hr. split.
    - intros v x Hx. rewrite set_default_hv; [by apply Hv|]. intros ->. congruence.
    - intros n nd Hnd. rewrite set_default_hn. by apply Hn.
  Qed.
End set_default.

Lemma ty_def_extends h h' v : extends h h' -> is_Some (hv h v) -> ty_def h' v = ty_def h v.
Proof. intros. unfold ty_def. by rewrite (extends_ty h h'). Qed.

(** ** Structure: what is built only uses what it is given *)
Section sourced.
  Context (h0 : heap) (S : vid -> Prop).
  Hypothesis Hwf0 : wf_heap h0.
  Hypothesis HS : forall u w, S u -> input_of h0 u w -> S w.
  Hypothesis HSin : forall u, S u -> is_Some (hv h0 u).
  Notation src := (sourced h0 S).

  Lemma src_old h x : extends h0 h -> S x -> src h x.
  Proof.
    intros Hex Hx. split; [eapply extends_some; eauto|]. intros u Hu. left.
    apply (extends_reachable h0 h x u Hwf0 Hex (HSin x Hx)) in Hu. destruct Hu as (r & Hr & Hru).
    apply elem_of_list_singleton in Hr as ->. clear -Hru Hx HS. induction Hru; eauto.
  Qed.

  Lemma src_extends h h' x : wf_heap h -> extends h h' -> src h x -> src h' x.
  Proof.
    intros Hwf Hex [Hx Hr]. split; [by eapply extends_some|]. intros u Hu. apply Hr.
    by apply (extends_reachable h h' x u Hwf Hex Hx).
  Qed.

  Lemma src_set_default h r u x : src h x -> src (set_default h r u) x.
  Proof. intros [Hx Hr]. split; [by apply set_default_some|]. intros w Hw. apply Hr. exact (proj1 (set_default_reachable h r u [x] w) Hw). Qed.

  Lemma fresh_old h v : extends h0 h -> hv h v = None -> hv h0 v = None.
  Proof. intros [Hv _] H. destruct (hv h0 v) as [x|] eqn:E; [|done]. apply Hv in E. congruence. Qed.

  Lemma src_node h o ins tys v : good_heap h -> extends h0 h -> (forall u, u ∈ ins -> src h u) ->
    v ∈ (alloc_node h o ins tys).2 -> src (alloc_node h o ins tys).1 v.
  Proof.
    intros Hg Hex Hins Hv. split; [by apply alloc_node_outs_some|]. intros u Hu.
    apply alloc_node_reachable in Hu as [->|Hu]; try done.
    - right. apply (fresh_old h); [done|]. destruct (alloc_node_spec h o ins tys) as (_ & _ & Hfr & _). by apply Hfr.
    - destruct Hu as (r & Hr & Hru). apply (Hins r Hr). exists r. split; [by left|done].
    - intros w Hw. by apply Hins.
    - apply Hg.
  Qed.

  (** the state of a construction *)
  Definition stage (h : heap) : Prop := extends h0 h /\ good_heap h.

  Lemma var_ok h x : stage h -> v_owner x = None ->
    let r := alloc_var h x in extends h r.1 /\ stage r.1 /\ src r.1 r.2 /\ hv h r.2 = None /\ hv r.1 r.2 = Some x.
  Proof.
    intros [Hex Hg] Hx. cbn. pose proof (alloc_var_extends h x) as He. pose proof (alloc_var_new h x) as Hn.
    split; [done|]. split; [split; [by eapply extends_trans|by apply alloc_var_good]|].
    split; [|split; [apply alloc_var_fresh|done]]. split; [by eauto|]. intros u Hu.
    destruct Hu as (r & Hr & Hru). apply elem_of_list_singleton in Hr as ->.
    apply rtc_inv in Hru as [<-|(w & Hw & _)].
    - right. apply (fresh_old h); [done|]. apply alloc_var_fresh.
    - unfold input_of, parents, owner in Hw. rewrite Hn in Hw. cbn in Hw. rewrite Hx in Hw. by apply elem_of_nil in Hw.
  Qed.

  Lemma node_ok h o ins tys : (forall s a, o <> OSubsume s a) -> stage h -> (forall u, u ∈ ins -> src h u) ->
    let r := alloc_node h o ins tys in
    extends h r.1 /\ stage r.1 /\ (forall v, v ∈ r.2 -> src r.1 v /\ hv h v = None) /\ length r.2 = length tys.
  Proof.
    intros Ho [Hex Hg] Hins. cbn. pose proof (alloc_node_extends h o ins tys) as He.
    destruct (alloc_node_spec h o ins tys) as (Hlen & _ & Hfr & _).
    split; [done|]. split; [|split; [|done]].
    - split; [by eapply extends_trans|]. apply alloc_node_good; [done| |done]. intros u Hu. by apply Hins.
    - intros v Hv. split; [by apply src_node|by apply Hfr].
  Qed.

  Lemma apply1_ok h o ins ty : (forall s a, o <> OSubsume s a) -> stage h -> (forall u, u ∈ ins -> src h u) ->
    let r := apply1 h o ins ty in extends h r.1 /\ stage r.1 /\ src r.1 r.2 /\ hv h r.2 = None.
  Proof.
    intros Ho Hst Hins. pose proof (node_ok h o ins [(None, ty)] Ho Hst Hins) as H. cbn in H.
    rewrite apply1_alloc in H. cbn in *. destruct H as (He & Hs & Hv & _). destruct (Hv _ ltac:(by left)). done.
  Qed.

  Lemma const_ok h c : stage h -> let r := mk_const h c in extends h r.1 /\ stage r.1 /\ src r.1 r.2 /\ hv h r.2 = None.
  Proof. intros Hst. destruct (var_ok h (Var None c.2 (KConst c.1) None) Hst eq_refl) as (A & B & C & D & _). done. Qed.

  Lemma src_all_extends h h' (vs : list vid) : good_heap h -> extends h h' -> (forall u, u ∈ vs -> src h u) -> forall u, u ∈ vs -> src h' u.
  Proof. intros Hg He Hv u Hu. eapply src_extends; [apply Hg|done|]. by apply Hv. Qed.

  Lemma pad_var_ok B n h v : stage h -> src h v ->
    let r := pad_var B n h v in extends h r.1 /\ stage r.1 /\ src r.1 r.2.
  Proof.
    intros Hst Hv. unfold pad_var. case_decide; [by cbn|].
    edestruct (apply1_ok h (ODimShuffle (replicate (n - a_ndim B (ty_def h v)) None ++ (Some <$> seq 0 (a_ndim B (ty_def h v))))) [v]) as (He & Hs & Hr & _);
      [done|done|by intros u ->%elem_of_list_singleton|]. split; [exact He|]. split; [exact Hs|exact Hr].
  Qed.

  Lemma pad_vars_ok B n vs : forall h, stage h -> (forall v, v ∈ vs -> src h v) ->
    let r := pad_vars B n h vs in extends h r.1 /\ stage r.1 /\ (forall v, v ∈ r.2 -> src r.1 v).
  Proof.
    induction vs as [|v vs IH]; intros h Hst Hv; cbn.
    - split; [apply extends_refl|]. split; [done|]. by intros ? ?%elem_of_nil.
    - pose proof (pad_var_ok B n h v Hst (Hv v ltac:(by left))) as H1. cbn in H1.
      destruct (pad_var B n h v) as [h1 w]. cbn in H1. destruct H1 as (He1 & Hs1 & Hw).
      specialize (IH h1 Hs1). destruct (pad_vars B n h1 vs) as [h2 ws]. cbn in IH.
      destruct IH as (He2 & Hs2 & Hws).
      { intros u Hu. eapply src_extends; [apply Hst|done|]. apply Hv. by right. }
      cbn. split; [by eapply extends_trans|]. split; [done|].
      intros u [->|Hu]%elem_of_cons; [|by apply Hws]. eapply src_extends; [apply Hs1|done|done].
  Qed.

  Lemma elem_ok B h s vs : stage h -> (forall v, v ∈ vs -> src h v) ->
    let r := mk_elem B h s vs in extends h r.1 /\ stage r.1 /\ src r.1 r.2 /\ hv h r.2 = None.
  Proof.
    intros Hst Hv. unfold mk_elem.
    pose proof (pad_vars_ok B (foldr Nat.max 0 ((fun v => a_ndim B (ty_def h v)) <$> vs)) vs h Hst Hv) as H. cbn in H.
    destruct (pad_vars B _ h vs) as [h1 ws]. cbn in H. destruct H as (He1 & Hs1 & Hws).
    destruct (apply1_ok h1 (OElem s) ws (b_elem B s (ty_def h <$> vs)) ltac:(done) Hs1 Hws) as (He & Hs & Hr & Hf).
    split; [by eapply extends_trans|]. split; [done|]. split; [done|].
    destruct (hv h _) as [x|] eqn:E; [|done]. apply (proj1 He1) in E. exact (eq_trans (eq_sym E) Hf).
  Qed.

  Lemma gen_ok B h o ins : (forall s a, o <> OSubsume s a) -> stage h -> (forall u, u ∈ ins -> src h u) ->
    let '(h', (r, r', x)) := gen B h o ins in
    extends h h' /\ stage h' /\ src h' r /\ src h' r' /\ src h' x /\
    owner h' r = None /\ hv h r = None /\ is_shared h' r = true.
  Proof.
    intros Ho Hst Hins. unfold gen. set (w := Var None (b_rng B) (KShared None) None).
    pose proof (var_ok h w Hst eq_refl) as H1. cbn in H1. destruct (alloc_var h w) as [h1 r]. cbn in H1.
    destruct H1 as (He1 & Hs1 & Hr1 & Hf1 & Hw1).
    assert (Hins1 : forall u, u ∈ r :: ins -> src h1 u).
    { intros u [->|Hu]%elem_of_cons; [done|]. eapply src_extends; [apply Hst|done|]. by apply Hins. }
    pose proof (node_ok h1 o (r :: ins) [(None, b_rng B); (None, b_draw B h o ins)] Ho Hs1 Hins1) as H2. cbn in H2.
    rewrite apply_rng_alloc in H2. destruct (apply_rng h1 o (r :: ins) _ _) as [[h2 r'] x]. cbn in H2.
    destruct H2 as (He2 & Hs2 & Hv2 & _).
    destruct (Hv2 r' ltac:(by left)) as [Hr'1 Hr'2]. destruct (Hv2 x ltac:(right; by left)) as [Hx1 Hx2].
    pose proof (proj1 He2 r w Hw1) as Hw2.
    assert (Hex : extends h (set_default h2 r r')).
    { apply set_default_extends; [by eapply extends_trans|done]. }
    split; [done|]. split.
    { split; [|apply set_default_good; apply Hs2]. eapply extends_trans; [apply Hst|done]. }
    split; [apply src_set_default; eapply src_extends; [apply Hs1|done|done]|].
    split; [by apply src_set_default|]. split; [by apply src_set_default|].
    split; [rewrite set_default_owner; unfold owner; by rewrite Hw2|]. split; [done|].
    unfold is_shared, set_default. rewrite Hw2. unfold hv. cbn. by rewrite lookup_insert.
  Qed.

  (** what is reached from what is built *)
  Lemma src_reachable h x u : wf_heap h -> src h x -> reachable h [x] u -> src h u.
  Proof.
    intros Hwf [Hx Hr] Hu. split; [apply (wf_reachable h [x]); [done|by intros r ->%elem_of_list_singleton|done]|]. intros w Hw. apply Hr.
    destruct Hu as (r & Hr' & Hu), Hw as (r2 & Hr2 & Hw). apply elem_of_list_singleton in Hr', Hr2. subst r r2.
    exists x. split; [by left|]. by eapply rtc_transitive.
  Qed.
  Lemma cut_reach h bl outs u : cut_reachable h bl outs u -> exists x, x ∈ outs /\ reachable h [x] u.
  Proof.
    induction 1 as [r Hr|v u Hv (x & Hx & r & Hr & Hp) Hb Hi].
    - exists r. split; [done|]. exists r. split; [by left|constructor].
    - exists x. split; [done|]. exists r. split; [done|]. by eapply rtc_r.
  Qed.
  Lemma src_shared_inputs h bl outs : stage h -> (forall u, u ∈ outs -> src h u) ->
    forall u, u ∈ shared_inputs h bl outs -> src h u /\ owner h u = None.
  Proof.
    intros [_ Hg] Ho u [_ Hu]%elem_of_list_filter. apply graph_inputs_spec in Hu as [Hown Hc]. split; [|done].
    apply cut_reach in Hc as (x & Hx & Hr). eapply src_reachable; [apply Hg| |exact Hr]. by apply Ho.
  Qed.
  Lemma shared_inputs_NoDup h bl outs : NoDup (shared_inputs h bl outs).
  Proof. apply NoDup_filter, graph_inputs_NoDup. Qed.

  Lemma kernel_ok h kind ins inner names h' outs :
    stage h -> (forall u, u ∈ ins -> src h u) -> (forall u, u ∈ inner -> src h u) ->
    mk_kernel h kind ins inner names = Ok (h', outs) ->
    extends h h' /\ stage h' /\ (forall v, v ∈ outs -> src h' v /\ hv h v = None) /\ length outs = min (length names) (length inner).
  Proof.
    intros Hst Hins Hr. unfold mk_kernel. destruct (existsb _ _); [done|]. intros H.
    assert (Hi : forall u, u ∈ ins ++ shared_inputs h ins inner -> src h u).
    { intros u [Hu|Hu]%elem_of_app; [by apply Hins|]. by eapply src_shared_inputs. }
    pose proof (node_ok h (OGraph kind ins inner) (ins ++ shared_inputs h ins inner)
      (zip_with (fun nm v => (nm, ty_def h v)) names inner) ltac:(done) Hst Hi) as HN.
    cbv zeta in HN. destruct (alloc_node _ _ _ _) as [h1 os]. injection H as -> ->. destruct HN as (A & C & D & E).
    split; [exact A|]. split; [exact C|]. split; [exact D|]. cbn in E. rewrite E. apply zip_with_length.
  Qed.

  Lemma src_remove_constants h h' (vs : list vid) : (forall u, u ∈ vs -> src h u) -> forall u, u ∈ remove_constants h' (PVar <$> vs) -> src h u.
  Proof.
    intros Hv. induction vs as [|v vs IH]; intros u; cbn; [by intros ?%elem_of_nil|].
    destruct (is_constant h' v).
    - apply IH. intros w Hw. apply Hv. by right.
    - intros [->|Hu]%elem_of_cons; [apply Hv; by left|]. apply IH; [|done]. intros w Hw. apply Hv. by right.
  Qed.
End sourced.
