(** Every generator that discovery creates is read by one node of the steps found. *)
From Verif Require Export S_generators L_gibbs L_discover.

(** [q] is a shared variable of [h] that [c] does not have *)
Definition fresh_gen (c h : heap) (q : vid) : Prop := hv c q = None /\ shared_var h q.
(** the nodes above [v] that read such a variable [q] are the node [K q] *)
Definition draws (c h : heap) (v : vid) (K : vid -> nid) : Prop :=
  forall q m, fresh_gen c h q -> node_reachable h [v] m -> reads h m q -> m = K q.
(** [h] has no shared variable that [c] does not have *)
Definition plain (c h : heap) : Prop := forall q, hv c q = None -> ~ shared_var h q.

Lemma shared_some h q : shared_var h q -> is_Some (hv h q).
Proof. intros (? & ? & ? & ? & ->). eauto. Qed.
Lemma reads_some h m q : wf_heap h -> reads h m q -> is_Some (hv h q).
Proof. intros Hwf (nd & Hn & Hq). by eapply (wf_ins h Hwf). Qed.
Lemma plain_refl c : plain c c.
Proof. intros q Hq Hs. apply shared_some in Hs as [x Hx]. congruence. Qed.
Lemma back c h q : extends c h -> hv h q = None -> hv c q = None.
Proof. intros E Hq. destruct (hv c q) as [x|] eqn:Hx; [|done]. apply (proj1 E) in Hx. congruence. Qed.
Lemma reach1_trans h v w u : input_of h v w -> reachable h [w] u -> reachable h [v] u.
Proof.
  intros Hi (r & Hr & Hu). apply elem_of_list_singleton in Hr as ->. exists v. split; [by left|]. by eapply rtc_l.
Qed.
Lemma reach1_some h v u : wf_heap h -> is_Some (hv h v) -> reachable h [v] u -> is_Some (hv h u).
Proof. intros Hwf Hv. apply wf_reachable; [done|]. by intros r ->%elem_of_list_singleton. Qed.

(** a node above a variable of [h] is a node of [h] *)
Lemma node_old h h' v m : wf_heap h -> extends h h' -> is_Some (hv h v) -> node_reachable h' [v] m ->
  node_reachable h [v] m /\ exists nd, hn h m = Some nd /\ hn h' m = Some nd.
Proof.
  intros Hwf E Hv (w & i & Hw & Ho). apply (extends_reachable h h') in Hw; [|done|done|done].
  rewrite (extends_owner_old h h') in Ho; [|done|by eapply reach1_some].
  split; [by exists w, i|]. destruct (wf_owner h Hwf _ _ _ Ho) as (nd & Hn & _). exists nd. split; [done|]. by apply (proj2 E).
Qed.

Lemma draws_extends c h h' v K : wf_heap h -> extends h h' -> is_Some (hv h v) -> draws c h v K -> draws c h' v K.
Proof.
  intros Hwf E Hv Hd q m [Hq Hs] Hm (nd & Hn & Hin). destruct (node_old h h' v m Hwf E Hv Hm) as (Hm' & nd' & H1 & H2).
  assert (nd' = nd) by congruence. subst nd'. apply Hd; [|done|by exists nd].
  split; [done|]. apply (shared_extends h h'); [done|by eapply (wf_ins h Hwf)|done].
Qed.
Lemma old_draws c h v K : wf_heap h -> plain c h -> draws c h v K.
Proof. intros Hwf Hp q m [Hq Hs]. by apply Hp in Hs. Qed.
Lemma leaf_draws c h v K : owner h v = None -> draws c h v K.
Proof.
  intros Ho q m _ (w & i & (r & Hr & Hru) & Hw). apply elem_of_list_singleton in Hr as ->.
  apply rtc_inv in Hru as [<-|(u & Hu & _)]; [congruence|]. unfold input_of, parents in Hu. rewrite Ho in Hu. by apply elem_of_nil in Hu.
Qed.
Lemma node_draws c h v m i nd K : owner h v = Some (m, i) -> hn h m = Some nd ->
  (forall u, u ∈ n_ins nd -> draws c h u K) -> (forall u, u ∈ n_ins nd -> fresh_gen c h u -> K u = m) -> draws c h v K.
Proof.
  intros Ho Hn Hd Hr q m' Hq (w & j & (r & Hr' & Hru) & Hw) Hm'. apply elem_of_list_singleton in Hr' as ->.
  apply rtc_inv in Hru as [<-|(u & Hu & Huw)].
  - rewrite Ho in Hw. injection Hw as <- <-. destruct Hm' as (nd' & Hn' & Hin). assert (nd' = nd) by congruence. subst nd'. symmetry. by apply Hr.
  - unfold input_of, parents in Hu. rewrite Ho, Hn in Hu. apply (Hd u Hu q m' Hq); [|done]. exists w, j. split; [|done]. exists u. split; [by left|done].
Qed.

(** ** what the finders build *)
Definition passes_on (c h : heap) (v : vid) (K : vid -> nid) : Prop := is_Some (hv h v) /\ draws c h v K /\ ~ fresh_gen c h v.

Lemma passes_extends c h h' v K : wf_heap h -> extends h h' -> passes_on c h v K -> passes_on c h' v K.
Proof.
  intros Hwf E (A & C & D). split; [by eapply extends_some|]. split; [by eapply draws_extends|].
  intros [H1 H2]. apply D. split; [done|]. by apply (shared_extends h h').
Qed.
Lemma passes_old c h v K : wf_heap c -> extends c h -> is_Some (hv c v) -> passes_on c h v K.
Proof.
  intros Hwf E [x Hx]. split; [exists x; by apply (proj1 E)|]. split; [|intros [H _]; congruence].
  apply (draws_extends c c h); [done|done|by exists x|]. apply old_draws; [done|]. apply plain_refl.
Qed.

Lemma apply1_passes c h o ins ty K : (forall s a, o <> OSubsume s a) -> good_heap h -> (forall u, u ∈ ins -> passes_on c h u K) ->
  let r := apply1 h o ins ty in extends h r.1 /\ good_heap r.1 /\ passes_on c r.1 r.2 K.
Proof.
  intros Ho Hg Hin. pose proof (apply1_ok h (fun _ => True) h o ins ty Ho ltac:(split; [apply extends_refl|done])) as H. cbv zeta in H.
  pose proof (apply1_plain h o ins ty) as Hp. cbv zeta in Hp.
  destruct (alloc_node_spec h o ins [(None, ty)]) as (_ & _ & _ & Hv & _ & _ & Hn & _).
  rewrite apply1_alloc in Hv, Hn. cbn in Hv, Hn. specialize (Hv 0 _ None ty eq_refl eq_refl).
  destruct (apply1 h o ins ty) as [h1 v]. cbn in *. destruct H as (E & [_ G] & [Sv _] & _); [intros u Hu; split; [by apply Hin|by left]|].
  split; [done|]. split; [done|]. split; [done|]. assert (Hns : ~ shared_var h1 v). { intros (a & b & e & f & H). pose proof (eq_trans (eq_sym H) Hv). done. }
  split; [|by intros [_ ?]].
  eapply (node_draws c h1 v _ 0); [unfold owner, hv; by rewrite Hv|exact Hn| |].
  - cbn. intros u Hu. destruct (Hin u Hu) as (A & C & _). eapply draws_extends; [apply Hg|done|done|done].
  - cbn. intros u Hu Hf. exfalso. destruct (passes_extends c h h1 u K (proj1 Hg) E (Hin u Hu)) as (_ & _ & H). by apply H.
Qed.

Lemma pads_passes c B n K vs : forall h, good_heap h -> (forall u, u ∈ vs -> passes_on c h u K) ->
  let r := pad_vars B n h vs in extends h r.1 /\ good_heap r.1 /\ forall u, u ∈ r.2 -> passes_on c r.1 u K.
Proof.
  induction vs as [|v vs IH]; intros h Hg Hv; cbn.
  - split; [apply extends_refl|]. split; [done|]. by intros u ?%elem_of_nil.
  - assert (H1 : let r := pad_var B n h v in extends h r.1 /\ good_heap r.1 /\ passes_on c r.1 r.2 K).
    { unfold pad_var. case_decide; [cbn; split; [apply extends_refl|]; split; [done|]; apply Hv; by left|].
      apply apply1_passes; [done|done|]. intros u ->%elem_of_list_singleton. apply Hv. by left. }
    destruct (pad_var B n h v) as [h1 w]. cbn in H1. destruct H1 as (E1 & G1 & P1).
    specialize (IH h1 G1). destruct (pad_vars B n h1 vs) as [h2 ws]. cbn in *.
    destruct IH as (E2 & G2 & P2); [intros u Hu; eapply passes_extends; [apply Hg|done|apply Hv; by right]|].
    split; [by eapply extends_trans|]. split; [done|]. intros u [->|Hu]%elem_of_cons; [|by apply P2].
    eapply passes_extends; [apply G1|done|done].
Qed.
Lemma elem_passes c B h s vs K : good_heap h -> (forall u, u ∈ vs -> passes_on c h u K) ->
  let r := mk_elem B h s vs in extends h r.1 /\ good_heap r.1 /\ passes_on c r.1 r.2 K.
Proof.
  intros Hg Hv. unfold mk_elem. pose proof (pads_passes c B (foldr Nat.max 0 ((fun v => a_ndim B (ty_def h v)) <$> vs)) K vs h Hg Hv) as H.
  destruct (pad_vars B _ h vs) as [h1 ws]. cbn in H. destruct H as (E1 & G1 & P1).
  pose proof (apply1_passes c h1 (OElem s) ws (b_elem B s (ty_def h <$> vs)) K ltac:(done) G1 P1) as H.
  destruct (apply1 h1 _ _ _) as [h2 v]. cbn in *. destruct H as (E2 & G2 & P2). split; [by eapply extends_trans|done].
Qed.
Lemma const_passes c h k K : good_heap h -> let r := mk_const h k in extends h r.1 /\ good_heap r.1 /\ passes_on c r.1 r.2 K.
Proof.
  intros Hg. unfold mk_const. set (x := Var None k.2 (KConst k.1) None). pose proof (alloc_var_new h x) as Hn.
  pose proof (alloc_var_extends h x) as E. pose proof (alloc_var_good h x eq_refl Hg) as G.
  destruct (alloc_var h x) as [h1 v]. cbn in *. split; [done|]. split; [done|]. split; [eauto|].
  split; [apply leaf_draws; unfold owner, hv; by rewrite Hn|]. intros [_ (a & b & e & f & H)]. pose proof (eq_trans (eq_sym H) Hn). done.
Qed.

(** a draw from a new generator *)
Lemma gen_draws c B h o ins : good_heap h -> extends c h -> (forall s a, o <> OSubsume s a) -> (forall u K, u ∈ ins -> passes_on c h u K) ->
  let '(h', (r, r', x)) := gen B h o ins in extends h h' /\ good_heap h' /\ is_Some (hv h' x) /\ exists K, draws c h' x K.
Proof.
  intros Hg E Ho Hin. pose proof (gen_full B h o ins Hg ltac:(intros u Hu; exact (proj1 (Hin u (fun _ => 0) Hu))) Ho) as H.
  destruct (gen B h o ins) as [h' [[r r'] x]]. destruct H as (E1 & G1 & _ & _ & _ & Wr & _ & (m & _ & Wx & Nm) & _).
  split; [done|]. split; [done|]. split; [unfold owner in Wx; by destruct (hv h' x)|]. exists (fun _ => m). eapply node_draws; [exact Wx|exact Nm| |done].
  cbn. intros u [->|Hu]%elem_of_cons; [by apply leaf_draws|]. eapply passes_extends; [apply Hg|done|by apply Hin].
Qed.

Lemma kernel_draws c h h' m kind (ins inner outs : list vid) K : good_heap h -> extends h h' ->
  hn h' m = Some (Node (OGraph kind ins inner) (ins ++ shared_inputs h ins inner) outs) ->
  (forall i v, outs !! i = Some v -> owner h' v = Some (m, i)) ->
  (forall u, u ∈ inner -> is_Some (hv h u)) -> (forall u, u ∈ ins -> passes_on c h u K) ->
  (forall q, q ∈ shared_inputs h ins inner -> hv c q = None -> K q = m) ->
  forall v, v ∈ outs -> draws c h' v K.
Proof.
  intros Hg E Hm Ho Hr Hi Hk v [i Hv]%elem_of_list_lookup. eapply node_draws; [by apply Ho|exact Hm| |]; cbn.
  - intros u [Hu|Hu]%elem_of_app; [eapply passes_extends; [apply Hg|done|by apply Hi]|].
    apply elem_of_list_filter in Hu as [_ Hu]. apply graph_inputs_spec in Hu as [Hown Hc]. apply leaf_draws.
    rewrite (extends_owner_old h h'); [done|done|]. apply cut_reach in Hc as (x & Hx & Hxu). eapply reach1_some; [apply Hg|by apply Hr|done].
  - intros u [Hu|Hu]%elem_of_app [H1 H2]; [|by apply Hk]. exfalso.
    destruct (passes_extends c h h' u K (proj1 Hg) E (Hi u Hu)) as (_ & _ & H). by apply H.
Qed.

(** ** what holds of every heap that a function body goes through *)
Section invariant.
  Context (B : builder) (P : heap -> Prop).
  Hypothesis Pconst : forall h k, P h -> P (mk_const h k).1.
  Hypothesis Papply : forall h o ins ty, P h -> P (apply1 h o ins ty).1.
  Hypothesis Pgen : forall h o ins, P h -> P (gen B h o ins).1.

  Lemma inv_pads n vs : forall h, P h -> P (pad_vars B n h vs).1.
  Proof using Papply.
    induction vs as [|v vs IH]; intros h Hh; [done|]. cbn. assert (H1 : P (pad_var B n h v).1) by (unfold pad_var; case_decide; [done|by apply Papply]).
    destruct (pad_var B n h v) as [h1 w]. specialize (IH h1 H1). by destruct (pad_vars B n h1 vs).
  Qed.
  Lemma inv_elem h s vs : P h -> P (mk_elem B h s vs).1.
  Proof using Papply.
    intros Hh. unfold mk_elem. pose proof (inv_pads (foldr Nat.max 0 ((fun v => a_ndim B (ty_def h v)) <$> vs)) vs h Hh) as H.
    destruct (pad_vars B _ h vs) as [h1 ws]. by apply Papply.
  Qed.
  Lemma inv_expr env e : forall h, P h -> P (mk_expr B env h e).1.
  Proof using Papply Pconst.
    induction e; intros h Hh; cbn; try (by auto);
      repeat match goal with
      | IH : (forall h, P h -> P (mk_expr B env h ?e).1), H : P ?h |- context[mk_expr B env ?h ?e] =>
          let H' := fresh in pose proof (IH h H) as H'; destruct (mk_expr B env h e) as [? ?]; cbn in H'
      end; first [by apply inv_elem|by apply Papply|unfold mk_fun; by apply Papply].
  Qed.
  Lemma inv_exprs env es : forall h, P h -> P (mk_exprs B env h es).1.
  Proof using Papply Pconst.
    induction es as [|e es IH]; intros h Hh; [done|]. cbn. pose proof (inv_expr env e h Hh) as H. destruct (mk_expr B env h e) as [h1 x].
    specialize (IH h1 H). by destruct (mk_exprs B env h1 es).
  Qed.
  Lemma inv_code cs : forall h env, P h -> P (mk_code B h env cs).1.
  Proof using All.
    induction cs as [|[e|d size params] cs IH]; intros h env Hh; [done| |]; cbn.
    - pose proof (inv_expr env e h Hh) as H. destruct (mk_expr B env h e) as [h1 x]. by apply IH.
    - pose proof (inv_exprs env params h Hh) as H. destruct (mk_exprs B env h params) as [h1 ps]. cbn in H.
      assert (H2 : P (match size with Some e => mk_expr B env h1 e | None => mk_const h1 (b_nosize B) end).1)
        by (destruct size; [by apply inv_expr|by apply Pconst]).
      destruct (match size with Some e => mk_expr B env h1 e | None => mk_const h1 (b_nosize B) end) as [h2 sz]. cbn in H2.
      pose proof (Pconst h2 (b_dtype B) H2) as H3. destruct (mk_const h2 (b_dtype B)) as [h3 dt]. cbn in H3.
      pose proof (Pgen h3 (ORV d) (sz :: dt :: ps) H3) as H4. destruct (gen B h3 _ _) as [h4 [[? ?] x]]. by apply IH.
  Qed.
  Lemma inv_body h env cs outs : P h -> P (mk_body B h env cs outs).1.
  Proof using All. intros Hh. unfold mk_body. pose proof (inv_code cs h env Hh) as H. by destruct (mk_code B h env cs). Qed.
End invariant.

(** the default update of a new generator is the next state that one node gives for it *)
Definition defaults_ok (c h : heap) : Prop :=
  forall r u, hv c r = None -> default_of h r u -> exists n nd, owner h u = Some (n, 0) /\ hn h n = Some nd /\ n_outs nd !! 0 = Some u /\ r ∈ n_ins nd.
Lemma defaults_refl c : defaults_ok c c.
Proof. intros r u Hr (? & ? & ? & H). congruence. Qed.
Lemma default_extends h h' r u : extends h h' -> is_Some (hv h r) -> default_of h' r u -> default_of h r u.
Proof. intros E [x Hx] (nm & ty & ow & H). rewrite (proj1 E r x Hx) in H. injection H as ->. by exists nm, ty, ow. Qed.
Lemma defaults_extends c h h' : extends h h' -> (forall r u, hv h r = None -> ~ default_of h' r u) -> defaults_ok c h -> defaults_ok c h'.
Proof.
  intros E Hn Hd r u Hr Hu. destruct (hv h r) as [x|] eqn:Hx; [|by apply Hn in Hu].
  destruct (Hd r u Hr) as (n & nd & A & C & D & F); [eapply default_extends; [done|eauto|done]|].
  exists n, nd. split; [|split; [by apply (proj2 E)|done]].
  rewrite (extends_owner_old h h'); [done|done|]. unfold owner in A. by destruct (hv h u).
Qed.
Lemma defaults_const c h k : defaults_ok c h -> defaults_ok c (mk_const h k).1.
Proof.
  apply defaults_extends; unfold mk_const; [apply alloc_var_extends|]. intros r u Hr (nm & ty & ow & H).
  unfold alloc_var, hv in H, Hr. cbn in H. destruct (decide (r = fresh (dom (h_vars h)))) as [->|Hne].
  - rewrite lookup_insert in H. done.
  - rewrite lookup_insert_ne in H by done. congruence.
Qed.
Lemma defaults_apply c h o ins ty : defaults_ok c h -> defaults_ok c (apply1 h o ins ty).1.
Proof.
  pose proof (alloc_node_extends h o ins [(None, ty)]) as E. destruct (alloc_node_spec h o ins [(None, ty)]) as (_ & _ & _ & _ & Hold & _).
  pose proof (alloc_node_out_some h o ins [(None, ty)]) as Hs. rewrite apply1_alloc in E, Hold, Hs. cbn in E, Hold, Hs.
  apply defaults_extends; [exact E|]. intros r u Hr (nm & ty' & ow & H).
  destruct (decide (r = (apply1 h o ins ty).2)) as [->|Hne].
  - destruct (Hs _ ltac:(by left)) as (k & nm' & ty'' & _ & _ & Hv). pose proof (eq_trans (eq_sym H) Hv). done.
  - pose proof (Hold r ltac:(by intros ?%elem_of_list_singleton)) as Hv. unfold hv in *. pose proof (eq_trans (eq_sym H) (eq_trans Hv Hr)). done.
Qed.
Lemma gen_default B h o ins :
  let '(h', (r, r', x)) := gen B h o ins in
  hv h r = None /\ default_of h' r r' /\ (forall q, q <> r -> hv h q = None -> forall u, ~ default_of h' q u) /\ extends h h' /\
  exists n, owner h' r' = Some (n, 0) /\ owner h' x = Some (n, 1) /\ hn h' n = Some (Node o (r :: ins) [r'; x]).
Proof.
  unfold gen. set (w := Var None (b_rng B) (KShared None) None).
  pose proof (alloc_var_new h w) as Hw. pose proof (alloc_var_fresh h w) as Hfw. pose proof (alloc_var_extends h w) as Ew.
  assert (Hoth : forall q, q <> (alloc_var h w).2 -> hv (alloc_var h w).1 q = hv h q).
  { intros q Hq. unfold alloc_var, hv in *. cbn in *. by rewrite lookup_insert_ne. }
  destruct (alloc_var h w) as [h1 r]. cbn [fst snd] in Hw, Hfw, Ew, Hoth.
  destruct (alloc_node_spec h1 o (r :: ins) [(None, b_rng B); (None, b_draw B h o ins)]) as (_ & _ & Hfr & Hval & Hold & _ & Hn & _).
  pose proof (alloc_node_extends h1 o (r :: ins) [(None, b_rng B); (None, b_draw B h o ins)]) as E2.
  rewrite apply_rng_alloc in Hfr, Hval, Hold, Hn, E2. destruct (apply_rng h1 o _ _ _) as [[h2 r'] x]. cbn [fst snd] in *.
  pose proof (Hval 0 r' None (b_rng B) eq_refl eq_refl) as Hr'. pose proof (Hval 1 x None _ eq_refl eq_refl) as Hx.
  pose proof (proj1 E2 _ _ Hw) as Hr2.
  assert (Hne : r <> r') by (intros ->; unfold hv in *; rewrite Hr' in Hr2; discriminate).
  assert (Hnx : r <> x) by (intros ->; unfold hv in *; rewrite Hx in Hr2; discriminate).
  assert (Hsd : forall q, q <> r -> hv (set_default h2 r r') q = hv h2 q) by (intros q Hq; by apply set_default_hv).
  split; [exact Hfw|]. split.
  { unfold default_of, set_default. rewrite Hr2. unfold hv. cbn. rewrite lookup_insert. eauto. }
  split.
  { intros q Hq Hqh u (nm & ty & ow & H). rewrite Hsd in H by done. destruct (decide (q ∈ [r'; x])) as [Hin|Hin].
    - apply elem_of_cons in Hin as [->| ->%elem_of_list_singleton]; [rewrite Hr' in H|rewrite Hx in H]; done.
    - rewrite Hold, Hoth in H by done. congruence. }
  split.
  { split.
    - intros q y Hy. destruct (decide (q = r)) as [->|Hq]; [congruence|]. rewrite Hsd by done. apply (proj1 E2), (proj1 Ew), Hy.
    - intros m nd Hm. pose proof (proj2 E2 m nd (proj2 Ew m nd Hm)) as H. unfold set_default. by destruct (hv h2 r). }
  exists (fresh (dom (h_nodes h1))). unfold owner. rewrite !Hsd by done. rewrite Hr', Hx. split; [done|]. split; [done|].
  unfold set_default. by destruct (hv h2 r).
Qed.
Lemma defaults_gen c B h o ins : defaults_ok c h -> defaults_ok c (gen B h o ins).1.
Proof.
  intros Hd. pose proof (gen_default B h o ins) as H. destruct (gen B h o ins) as [h' [[r r'] x]]. cbn.
  destruct H as (Hr & Hrr & Hoth & E & n & W1 & W2 & Hn). intros q u Hq Hu. destruct (decide (q = r)) as [->|Hne].
  - destruct Hrr as (a & b & d & H1), Hu as (a' & b' & d' & H2). rewrite H1 in H2. injection H2 as <- <- <- <-.
    exists n, (Node o (r :: ins) [r'; x]). split; [done|]. split; [done|]. split; [done|]. by left.
  - destruct (hv h q) as [y|] eqn:Hy; [|by apply Hoth in Hu].
    destruct (Hd q u Hq) as (n' & nd & A & C & D & F); [eapply default_extends; [exact E|eauto|done]|].
    exists n', nd. split; [|split; [by apply (proj2 E)|done]].
    rewrite (extends_owner_old h h'); [done|done|]. unfold owner in A. by destruct (hv h u).
Qed.

(** ** the finders *)
Definition single (c : heap) (r : heap * outcome) : Prop :=
  forall es, r.2 = Ok es -> exists K, forall rv step ups v, (rv, step, ups) ∈ es -> v ∈ step :: dkeys ups ++ dvalues ups -> draws c r.1 v K.

Lemma single_nothing c h out : (forall es, out = Ok es -> es = []) -> single c (h, out).
Proof. intros H es Hes. exists (fun _ => 0). rewrite (H es Hes). by intros ? ? ? ? ?%elem_of_nil. Qed.
Lemma single_raise c h e : single c (h, Raise e).
Proof. by apply single_nothing. Qed.
Lemma single_none c h : single c (h, Ok []).
Proof. apply single_nothing. by intros es [= <-]. Qed.
Lemma single_one c h rv x K : draws c h x K -> single c (h, Ok [(rv, x, [])]).
Proof.
  intros Hd es [= <-]. exists K. intros rv' step ups v Hin%elem_of_list_singleton Hv. simplify_eq. cbn in Hv. by apply elem_of_list_singleton in Hv as ->.
Qed.
Lemma single_two c h rv x rv' x' K : draws c h x K -> draws c h x' K -> single c (h, Ok [(rv, x, []); (rv', x', [])]).
Proof.
  intros Hd Hd' es [= <-]. exists K. intros rv1 step ups v Hin Hv.
  apply elem_of_cons in Hin as [Hin|Hin%elem_of_list_singleton]; simplify_eq; cbn in Hv; by apply elem_of_list_singleton in Hv as ->.
Qed.

(** the generator of a draw is advanced by the draw *)
Definition own_draw (c : heap) (r : heap * outcome) : Prop :=
  forall es, r.2 = Ok es -> forall rv step ups q n, (rv, step, ups) ∈ es ->
    fresh_gen c r.1 q -> node_reachable r.1 [step] n -> reads r.1 n q -> advanced_by_draw r.1 step ups q.
(** the generators of a kernel without updates are not advanced by the kernel *)
Definition not_own (c : heap) (r : heap * outcome) : Prop :=
  forall es, r.2 = Ok es -> forall rv step q, (rv, step, []) ∈ es -> fresh_gen c r.1 q -> ~ advanced_by_step r.1 step [] q.

Definition drawn_once (c : heap) (r : heap * outcome) : Prop := single c r /\ own_draw c r.
Definition kernel_once (c : heap) (r : heap * outcome) : Prop := single c r /\ not_own c r.
Lemma once_raise c h e : drawn_once c (h, Raise e).
Proof. split; [apply single_raise|]. by intros es [=]. Qed.
Lemma once_none c h : drawn_once c (h, Ok []).
Proof. split; [apply single_none|]. by intros es [= <-] ? ? ? ? ? ?%elem_of_nil. Qed.
Lemma ker_raise c h e : kernel_once c (h, Raise e).
Proof. split; [apply single_raise|]. by intros es [=]. Qed.
Lemma ker_none c h : kernel_once c (h, Ok []).
Proof. split; [apply single_none|]. by intros es [= <-] ? ? ? ?%elem_of_nil. Qed.
Lemma once_one c h rv x : (exists K, draws c h x K) -> (forall q n, fresh_gen c h q -> node_reachable h [x] n -> reads h n q -> advanced_by_draw h x [] q) ->
  drawn_once c (h, Ok [(rv, x, [])]).
Proof.
  intros [K HK] Ha. split; [by eapply single_one|]. intros es [= <-] rv' step ups q n Hin%elem_of_list_singleton. cbn. simplify_eq. by apply Ha.
Qed.

Section finders.
  Context (B : builder) (h : heap) (n : nid).
  Hypothesis Hg : good_heap h.
  Notation old u := (is_Some (hv h u)).

  Local Lemma st0 : stage h h.
  Proof using Hg. split; [apply extends_refl|done]. Qed.
  Lemma old_inputs u w : old u -> input_of h u w -> old w.
  Proof using Hg. intros _. apply wf_parent, Hg. Qed.
  Lemma bound_old p y s : old y -> umatch h p y [] = Some s -> forall i w, dget s i = Some w -> old w.
  Proof using Hg.
    intros Hy Hm i w Hw. apply (Hdget h (fun u => old u) (proj1 Hg) old_inputs (fun u H => H) h st0 p y s Hy Hm i w Hw).
  Qed.
  Lemma out_old nd y : hn h n = Some nd -> n_outs nd !! 1 = Some y -> old y.
  Proof using Hg.
    intros Hn Ho. pose proof (wf_outs h (proj1 Hg) n nd 1 y Hn Ho) as H. unfold owner in H. by destruct (hv h y).
  Qed.

  Notation ok h1 v := (forall K, passes_on h h1 v K).
  Lemma ok_old h1 u : extends h h1 -> old u -> ok h1 u.
  Proof using Hg. intros E Hu K. by apply passes_old; [apply Hg| |]. Qed.
  Lemma ok_up h1 h2 u : good_heap h1 -> extends h1 h2 -> ok h1 u -> ok h2 u.
  Proof using Type. intros [G _] E H K. eapply passes_extends; [exact G|done|apply H]. Qed.
  Lemma ok_nil h1 : forall u, u ∈ [] -> ok h1 u.
  Proof using Type. by intros u ?%elem_of_nil. Qed.
  Lemma ok_cons h1 v (vs : list vid) : ok h1 v -> (forall u, u ∈ vs -> ok h1 u) -> forall u, u ∈ v :: vs -> ok h1 u.
  Proof using Type. intros Hv Hvs u [->|Hu]%elem_of_cons; auto. Qed.
  Lemma elem_all h1 s (vs : list vid) : good_heap h1 -> (forall u, u ∈ vs -> ok h1 u) ->
    let r := mk_elem B h1 s vs in extends h1 r.1 /\ good_heap r.1 /\ ok r.1 r.2.
  Proof using Type.
    intros G Hv. pose proof (fun K => elem_passes h B h1 s vs K G (fun u Hu => Hv u Hu K)) as H. cbv zeta in *.
    destruct (H (fun _ => 0)) as (A & C & _). split; [done|]. split; [done|]. intros K. apply H.
  Qed.
  Lemma const_all h1 k : good_heap h1 -> let r := mk_const h1 k in extends h1 r.1 /\ good_heap r.1 /\ ok r.1 r.2.
  Proof using Type.
    intros G. pose proof (fun K => const_passes h h1 k K G) as H. cbv zeta in *.
    destruct (H (fun _ => 0)) as (A & C & _). split; [done|]. split; [done|]. intros K. apply H.
  Qed.
  Lemma gen_all h1 d (ins : list vid) : good_heap h1 -> extends h h1 -> (forall u, u ∈ ins -> ok h1 u) ->
    let r := gen B h1 (ORV d) ins in (exists K, draws h r.1 r.2.2 K) /\
      forall q n, fresh_gen h r.1 q -> node_reachable r.1 [r.2.2] n -> reads r.1 n q -> advanced_by_draw r.1 r.2.2 [] q.
  Proof using Type.
    intros G E Hi. set (o := ORV d). assert (Ho : forall s a, o <> OSubsume s a) by done. pose proof (gen_full B h1 o ins G ltac:(intros u Hu; exact (proj1 (Hi u Hu (fun _ => 0)))) Ho) as H.
    pose proof (gen_default B h1 o ins) as Hdf.
    destruct (gen B h1 o ins) as [h' [[r r'] x]]. destruct H as (E1 & G1 & _ & _ & _ & Wr & _). cbn [fst snd].
    destruct Hdf as (_ & Hdef & _ & _ & m & Wr' & Wx & Nm).
    assert (Hd : draws h h' x (fun _ => m)).
    { eapply node_draws; [exact Wx|exact Nm| |done].
      cbn. intros u [->|Hu]%elem_of_cons; [by apply leaf_draws|]. eapply passes_extends; [apply G|done|by apply Hi]. }
    split; [by exists (fun _ => m)|]. intros q k Hq Hn Hr. pose proof (Hd q k Hq Hn Hr) as ->.
    destruct Hr as (nd & Hnd & Hin). assert (nd = Node o (r :: ins) [r'; x]) as -> by congruence. cbn in Hin.
    apply elem_of_cons in Hin as [->|Hin].
    - exists r', x, m, d, ins. split; [right; by split|]. split; [done|]. split; [intros ->; congruence|done].
    - exfalso. destruct (passes_extends h h1 h' q (fun _ => 0) (proj1 G) E1 (Hi q Hin _)) as (_ & _ & H). by apply H.
  Qed.

  Ltac olds := repeat (apply ok_cons; [first [done|eapply ok_up; [eassumption|eassumption|done]|by apply ok_old]|]); apply ok_nil.

  Lemma gamma_poisson_single : drawn_once h (local_gamma_poisson_posterior B h n).
  Proof using Hg.
    unfold local_gamma_poisson_posterior, with_rv. destruct (hn h n) as [nd|] eqn:Hn; [|apply once_raise].
    destruct (n_outs nd !! 1) as [y|] eqn:Ho; [|apply once_raise]. pose proof (out_old nd y Hn Ho) as Hy.
    destruct (umatch h _ y []) as [s|] eqn:Hm; [|apply once_none].
    pose proof (bound_old _ _ _ Hy Hm) as Hd.
    destruct (dget s size_lv) as [size|] eqn:D1; [|apply once_raise].
    destruct (dget s dtype_lv) as [dtype|] eqn:D2; [|apply once_raise].
    destruct (dget s alpha_lv) as [alpha|] eqn:D3; [|apply once_raise].
    destruct (dget s prior_beta_lv) as [beta|] eqn:D4; [|apply once_raise].
    destruct (last (n_ins nd)) as [rv|]; [|apply once_raise].
    apply Hd in D1, D2, D3, D4. clear Hd. unfold gamma_poisson_posterior, gen_gamma.
    pose proof (extends_refl h) as E0.
    pose proof (elem_all h E_add [alpha; y] Hg ltac:(olds)) as H1. destruct (mk_elem B h _ _) as [h1 na]. cbn in H1. destruct H1 as (E1 & G1 & P1).
    pose proof (const_all h1 (b_int B 1) G1) as H2. destruct (mk_const h1 _) as [h2 one]. cbn in H2. destruct H2 as (E2 & G2 & P2).
    pose proof (extends_trans _ _ _ E1 E2) as X2.
    pose proof (elem_all h2 E_add [beta; one] G2 ltac:(olds)) as H3. destruct (mk_elem B h2 _ _) as [h3 nb]. cbn in H3. destruct H3 as (E3 & G3 & P3).
    pose proof (extends_trans _ _ _ X2 E3) as X3. pose proof (ok_up _ _ _ G1 (extends_trans _ _ _ E2 E3) P1) as Q1.
    pose proof (const_all h3 (b_float B 1) G3) as H4. destruct (mk_const h3 _) as [h4 one']. cbn in H4. destruct H4 as (E4 & G4 & P4).
    pose proof (extends_trans _ _ _ X3 E4) as X4. pose proof (ok_up _ _ _ G3 E4 P3) as Q3.
    pose proof (elem_all h4 E_truediv [one'; nb] G4 ltac:(olds)) as H5. destruct (mk_elem B h4 _ _) as [h5 sc]. cbn in H5. destruct H5 as (E5 & G5 & P5).
    pose proof (extends_trans _ _ _ X4 E5) as X5. pose proof (ok_up _ _ _ G3 (extends_trans _ _ _ E4 E5) Q1) as R1.
    pose proof (gen_all h5 RV_gamma [size; dtype; na; sc] G5 X5 ltac:(olds)) as H6.
    destruct (gen B h5 _ _) as [h6 [[r r'] x]]. destruct H6 as [HK HA]. by apply once_one.
  Qed.

  Lemma beta_binomial_single : drawn_once h (local_beta_binomial_posterior B h n).
  Proof using Hg.
    unfold local_beta_binomial_posterior, with_rv. destruct (hn h n) as [nd|] eqn:Hn; [|apply once_raise].
    destruct (n_outs nd !! 1) as [y|] eqn:Ho; [|apply once_raise]. pose proof (out_old nd y Hn Ho) as Hy.
    destruct (umatch h _ y []) as [s|] eqn:Hm; [|apply once_none].
    pose proof (bound_old _ _ _ Hy Hm) as Hd.
    destruct (dget s size_lv) as [size|] eqn:D1; [|apply once_raise].
    destruct (dget s dtype_lv) as [dtype|] eqn:D2; [|apply once_raise].
    destruct (dget s alpha_lv) as [alpha|] eqn:D3; [|apply once_raise].
    destruct (dget s prior_beta_lv) as [beta|] eqn:D4; [|apply once_raise].
    destruct (dget s n_lv) as [nn|] eqn:D5; [|apply once_raise].
    destruct (last (n_ins nd)) as [rv|]; [|apply once_raise].
    apply Hd in D1, D2, D3, D4, D5. clear Hd. unfold beta_binomial_posterior, gen_beta.
    pose proof (extends_refl h) as E0.
    pose proof (elem_all h E_add [alpha; y] Hg ltac:(olds)) as H1. destruct (mk_elem B h _ _) as [h1 na]. cbn in H1. destruct H1 as (E1 & G1 & P1).
    pose proof (elem_all h1 E_add [beta; nn] G1 ltac:(olds)) as H2. destruct (mk_elem B h1 _ _) as [h2 sm]. cbn in H2. destruct H2 as (E2 & G2 & P2).
    pose proof (extends_trans _ _ _ E1 E2) as X2.
    pose proof (elem_all h2 E_sub [sm; y] G2 ltac:(olds)) as H3. destruct (mk_elem B h2 _ _) as [h3 nb]. cbn in H3. destruct H3 as (E3 & G3 & P3).
    pose proof (extends_trans _ _ _ X2 E3) as X3. pose proof (ok_up _ _ _ G1 (extends_trans _ _ _ E2 E3) P1) as Q1.
    pose proof (gen_all h3 RV_beta [size; dtype; na; nb] G3 X3 ltac:(olds)) as H6.
    destruct (gen B h3 _ _) as [h6 [[r r'] x]]. destruct H6 as [HK HA]. by apply once_one.
  Qed.

  Lemma beta_nb_single : drawn_once h (local_beta_negative_binomial_posterior B h n).
  Proof using Hg.
    unfold local_beta_negative_binomial_posterior, with_rv. destruct (hn h n) as [nd|] eqn:Hn; [|apply once_raise].
    destruct (n_outs nd !! 1) as [y|] eqn:Ho; [|apply once_raise]. pose proof (out_old nd y Hn Ho) as Hy.
    destruct (umatch h _ y []) as [s|] eqn:Hm; [|apply once_none].
    pose proof (bound_old _ _ _ Hy Hm) as Hd.
    destruct (dget s size_lv) as [size|] eqn:D1; [|apply once_raise].
    destruct (dget s dtype_lv) as [dtype|] eqn:D2; [|apply once_raise].
    destruct (dget s alpha_lv) as [alpha|] eqn:D3; [|apply once_raise].
    destruct (dget s prior_beta_lv) as [beta|] eqn:D4; [|apply once_raise].
    destruct (dget s n_lv) as [nn|] eqn:D5; [|apply once_raise].
    destruct (last (n_ins nd)) as [rv|]; [|apply once_raise].
    apply Hd in D1, D2, D3, D4, D5. clear Hd. unfold beta_nb_posterior, gen_beta.
    pose proof (extends_refl h) as E0.
    pose proof (elem_all h E_add [alpha; y] Hg ltac:(olds)) as H1. destruct (mk_elem B h _ _) as [h1 na]. cbn in H1. destruct H1 as (E1 & G1 & P1).
    pose proof (elem_all h1 E_add [beta; nn] G1 ltac:(olds)) as H2. destruct (mk_elem B h1 _ _) as [h2 nb]. cbn in H2. destruct H2 as (E2 & G2 & P2).
    pose proof (extends_trans _ _ _ E1 E2) as X2. pose proof (ok_up _ _ _ G1 E2 P1) as Q1.
    pose proof (gen_all h2 RV_beta [size; dtype; na; nb] G2 X2 ltac:(olds)) as H6.
    destruct (gen B h2 _ _) as [h6 [[r r'] x]]. destruct H6 as [HK HA]. by apply once_one.
  Qed.

  (** a kernel on variables without generators of their own *)
  Lemma kernel_single h1 kind (vs inner : list vid) names h2 outs : good_heap h1 -> extends h h1 -> defaults_ok h h1 ->
    (forall u, u ∈ vs -> ok h1 u) -> (forall u, u ∈ inner -> is_Some (hv h1 u)) -> length inner = length names ->
    mk_kernel h1 kind (remove_constants h1 (PVar <$> vs)) inner names = Ok (h2, outs) ->
    extends h1 h2 /\ good_heap h2 /\ exists m, (forall v, v ∈ outs -> is_Some (hv h2 v) /\ ~ shared_var h2 v) /\
      (forall K, (forall q, is_Some (hv h1 q) -> K q = m) -> forall v, v ∈ outs -> draws h h2 v K) /\
      (forall v q, v ∈ outs -> fresh_gen h h2 q -> ~ advanced_by_step h2 v [] q).
  Proof using Type.
    intros G E Hdf Hv Hr Hl Hk.
    destruct (mk_kernel_cases h1 kind vs inner names G) as [[_ H]|[_ (h2' & outs' & m & H & E2 & G2 & _ & _ & Hm & Ho)]];
      [intros u Hu; exact (proj1 (Hv u Hu (fun _ => 0)))|done|done|congruence|].
    rewrite H in Hk. injection Hk as -> ->. split; [done|]. split; [done|]. exists m.
    assert (HD : forall K, (forall q, is_Some (hv h1 q) -> K q = m) -> forall v, v ∈ outs -> draws h h2 v K).
    { intros K HK. eapply kernel_draws; [exact G|exact E2|exact Hm|intros i v Hi; by destruct (Ho i v Hi)|done| |].
      - intros u [Hu _]%remove_constants_elem. by apply Hv.
      - intros q Hq _. apply HK. apply elem_of_list_filter in Hq as [_ Hq]. apply graph_inputs_spec in Hq as [_ Hc].
        apply cut_reach in Hc as (x & Hx & Hxq). eapply reach1_some; [apply G|by apply Hr|done]. }
    split; [|split; [exact HD|]].
    { intros v [i Hi]%elem_of_list_lookup. destruct (Ho i v Hi) as (Hov & _ & Hns). split; [|done]. unfold owner in Hov. by destruct (hv h2 v). }
    intros v q Hvo Hq (u & n' & i & [Hu|[_ Hu]] & Hou & Hrd & Hn'); [done|].
    pose proof (HD (fun _ => m) (fun _ _ => eq_refl) v Hvo q n' Hq Hn' Hrd) as ->.
    destruct Hrd as (nd & Hnd & Hin).
    assert (Hq1 : is_Some (hv h1 q)).
    { assert (nd = Node (OGraph kind (remove_constants h1 (PVar <$> vs)) inner) (remove_constants h1 (PVar <$> vs) ++ shared_inputs h1 (remove_constants h1 (PVar <$> vs)) inner) outs) as -> by congruence.
      cbn in Hin. apply elem_of_app in Hin as [Hin|Hin].
      - apply remove_constants_elem in Hin as [Hin _]. exact (proj1 (Hv q Hin (fun _ => 0))).
      - apply elem_of_list_filter in Hin as [_ Hin]. apply graph_inputs_spec in Hin as [_ Hc].
        apply cut_reach in Hc as (x & Hx & Hxq). eapply reach1_some; [apply G|by apply Hr|done]. }
    destruct (Hdf q u (proj1 Hq) (default_extends h1 h2 q u E2 Hq1 Hu)) as (k & nd1 & W1 & N1 & O1 & _).
    assert (Hu1 : is_Some (hv h1 u)) by (unfold owner in W1; by destruct (hv h1 u)).
    rewrite (extends_owner_old h1 h2 u E2 Hu1), W1 in Hou. injection Hou as -> <-.
    pose proof (proj2 E2 _ _ N1) as N2. assert (nd1 = Node (OGraph kind (remove_constants h1 (PVar <$> vs)) inner) (remove_constants h1 (PVar <$> vs) ++ shared_inputs h1 (remove_constants h1 (PVar <$> vs)) inner) outs) as -> by congruence.
    cbn in O1. destruct (Ho 0 u O1) as (_ & Hnone & _). destruct Hu1 as [z Hz]. congruence.
  Qed.
  Lemma body_defaults h1 env cs os : defaults_ok h h1 -> defaults_ok h (mk_body B h1 env cs os).1.
  Proof using Type.
    apply inv_body; [intros; by apply defaults_const|intros; by apply defaults_apply|intros; by apply defaults_gen].
  Qed.

  Lemma elem_defaults h1 s vs : defaults_ok h h1 -> defaults_ok h (mk_elem B h1 s vs).1.
  Proof using Type. apply inv_elem; intros; by apply defaults_apply. Qed.

  Lemma horseshoe_single : kernel_once h (normal_horseshoe_finder B h n).
  Proof using Hg.
    unfold normal_horseshoe_finder, with_rv. destruct (hn h n) as [nd|] eqn:Hn; [|apply ker_raise].
    destruct (n_outs nd !! 1) as [y|] eqn:Ho; [|apply ker_raise]. pose proof (out_old nd y Hn Ho) as Hy.
    destruct (horseshoe_match B h y) as [[lam tau]|e] eqn:Hm; [|destruct e; first [apply ker_none|apply ker_raise]].
    apply horseshoe_match_iff in Hm as (mu & scale & a & b & Hrv & Hap & _ & _ & Hlt).
    pose proof (S_rv h (fun u => old u) (proj1 Hg) old_inputs (fun u H => H) h y _ _ (extends_refl h) Hy Hrv scale ltac:(right; by left)) as HSs.
    pose proof (S_applied h (fun u => old u) (proj1 Hg) old_inputs (fun u H => H) h scale _ _ (extends_refl h) HSs Hap) as HSab.
    assert (Hlam : old lam /\ old tau).
    { split; destruct Hlt as [(_ & -> & ->)|(_ & _ & -> & ->)]; apply HSab; first [by left|right; by left]. }
    destruct Hlam as [Hlam Htau]. clear Hlt HSab. pose proof (extends_refl h) as E0.
    pose proof (defaults_const h h (b_int B 2) (defaults_refl h)) as D1. pose proof (const_all h (b_int B 2) Hg) as H1. destruct (mk_const h _) as [h1 two]. cbn [fst snd] in D1. cbn in H1. destruct H1 as (E1 & G1 & P1).
    pose proof (elem_defaults h1 E_pow [tau; two] D1) as D2. pose proof (elem_all h1 E_pow [tau; two] G1 ltac:(olds)) as H2. destruct (mk_elem B h1 _ _) as [h2 tau2]. cbn [fst snd] in D2. cbn in H2. destruct H2 as (E2 & G2 & P2).
    pose proof (extends_trans _ _ _ E1 E2) as X2.
    pose proof (defaults_const h h2 (b_int B 2) D2) as D3. pose proof (const_all h2 (b_int B 2) G2) as H3. destruct (mk_const h2 _) as [h3 two']. cbn [fst snd] in D3. cbn in H3. destruct H3 as (E3 & G3 & P3).
    pose proof (extends_trans _ _ _ X2 E3) as X3.
    pose proof (elem_defaults h3 E_pow [lam; two'] D3) as D4. pose proof (elem_all h3 E_pow [lam; two'] G3 ltac:(olds)) as H4. destruct (mk_elem B h3 _ _) as [h4 lam2]. cbn [fst snd] in D4. cbn in H4. destruct H4 as (E4 & G4 & P4).
    pose proof (extends_trans _ _ _ X3 E4) as X4. pose proof (ok_up _ _ _ G2 (extends_trans _ _ _ E3 E4) P2) as Q2.
    assert (Hin4 : forall u, u ∈ [y; lam2; tau2] -> ok h4 u) by olds.
    pose proof (body_defaults h4 [y; lam2; tau2] horseshoe_code horseshoe_outs D4) as D5.
    pose proof (mk_body_struct B h4 [y; lam2; tau2] horseshoe_code horseshoe_outs G4 ltac:(intros u Hu; exact (proj1 (Hin4 u Hu (fun _ => 0)))) eq_refl) as H5.
    destruct (mk_body B h4 _ _ _) as [h5 rngs]. cbv zeta in H5. cbn [fst snd] in H5, D5. destruct H5 as (E5 & G5 & Hr & Hl).
    pose proof (extends_trans _ _ _ X4 E5) as X5.
    change [PVar y; PVar lam2; PVar tau2] with (PVar <$> [y; lam2; tau2]).
    match goal with |- context[mk_kernel h5 ?k ?i ?r ?nm] => destruct (mk_kernel h5 k i r nm) as [[h6 outs]|e] eqn:Hk end; [|apply ker_raise].
    apply kernel_single in Hk as (E6 & G6 & m & _ & HK & HN); [|done|done|exact D5|intros u Hu; eapply ok_up; [exact G4|done|by apply Hin4]|done|by rewrite Hl].
    destruct outs as [|lp [|tp [|]]]; try apply ker_raise.
    split; [apply (single_two _ _ _ _ _ _ (fun _ => m)); apply HK; first [done|by left|right; by left]|].
    intros es [= <-] rv step q Hin Hq. apply HN; [|done]. apply elem_of_cons in Hin as [Hin|Hin%elem_of_list_singleton]; simplify_eq; [by left|right; by left].
  Qed.

  Notation Sig := (S_sigmoid h (fun u => old u) (proj1 Hg) old_inputs (fun u H => H) h).

  Lemma bern_single : kernel_once h (bern_logistic_finder B h n).
  Proof using Hg.
    unfold bern_logistic_finder, with_rv. destruct (hn h n) as [nd|] eqn:Hn; [|apply ker_raise].
    destruct (n_outs nd !! 1) as [y|] eqn:Ho; [|apply ker_raise]. pose proof (out_old nd y Hn Ho) as Hy.
    destruct (bern_sigmoid_dot_match B h y) as [[X beta]|e] eqn:Hm; [|destruct e; first [apply ker_none|apply ker_raise]].
    destruct (bern_matched_dec h y) as [(p & c & X' & beta' & Hrv & Hsd)|Hno].
    2: { rewrite (bern_match_other B h y Hno) in Hm. done. }
    rewrite (bern_match_matched B h y _ _ _ _ Hrv Hsd) in Hm. destruct (neg_one_check B h c); [|done]. cbn in Hm. injection Hm as -> ->.
    pose proof (S_rv h (fun u => old u) (proj1 Hg) old_inputs (fun u H => H) h y _ _ (extends_refl h) Hy Hrv p ltac:(by left)) as Hp.
    destruct (Sig p c X beta (extends_refl h) Hp Hsd) as [HX Hb].
    destruct (owner_input4 h beta) as [bstd|e] eqn:H4; [|apply ker_raise].
    destruct (index_error B h bstd X); [apply ker_raise|].
    pose proof (owner_input4_S h (fun u => old u) (proj1 Hg) old_inputs (fun u H => H) h st0 _ _ Hb H4) as Hstd.
    pose proof (extends_refl h) as E0. assert (Hin : forall u, u ∈ [beta; bstd; X; y] -> ok h u) by olds.
    pose proof (body_defaults h [beta; bstd; X; y] bern_code bern_outs (defaults_refl h)) as D5.
    pose proof (mk_body_struct B h [beta; bstd; X; y] bern_code bern_outs Hg ltac:(intros u Hu; exact (proj1 (Hin u Hu (fun _ => 0)))) eq_refl) as H5.
    destruct (mk_body B h _ _ _) as [h1 rngs]. cbv zeta in H5. cbn [fst snd] in H5, D5. destruct H5 as (E1 & G1 & Hr & Hl).
    change [PVar beta; PVar bstd; PVar X; PVar y] with (PVar <$> [beta; bstd; X; y]).
    match goal with |- context[mk_kernel h1 ?k ?i ?r ?nm] => destruct (mk_kernel h1 k i r nm) as [[h2 outs]|e] eqn:Hk end; [|apply ker_raise].
    apply kernel_single in Hk as (E6 & G6 & m & _ & HK & HN); [|done|done|exact D5|intros u Hu; eapply ok_up; [exact Hg|done|by apply Hin]|done|by rewrite Hl].
    destruct outs as [|bp [|]]; try apply ker_raise. 
    split; [apply (single_one _ _ _ _ (fun _ => m)); apply HK; [done|by left]|].
    intros es [= <-] rv step q Hin'%elem_of_list_singleton Hq. apply HN; [|done]. simplify_eq. by left.
  Qed.

  (** the update of the dispersion: its generators are new since [h1], the generators of
      [bp] are in [h1] *)
  Lemma dispersion_single h1 X hh bp y a b rv1 K1 : good_heap h1 -> extends h h1 -> old X -> old hh -> old y -> old a -> old b ->
    (forall v, v ∈ [hh; a; b; y] -> is_constant h v = true -> owner h v = None) ->
    is_Some (hv h1 bp) -> ~ shared_var h1 bp -> (forall K, (forall q, is_Some (hv h1 q) -> K q = K1) -> draws h h1 bp K) ->
    single h (match dispersion_step B h1 X hh bp y a b with
              | (h3, Raise e) => (h3, Raise e)
              | (h3, Ok r) => (h3, Ok [(rv1, bp, []); r])
              end).
  Proof using Hg.
    intros G1 E1 HX Hh Hy Ha Hb Hleaf Sbp Pbp Dbp. unfold dispersion_step.
    set (good K := forall q, is_Some (hv h1 q) -> K q = K1).
    assert (Obp : forall K, good K -> passes_on h h1 bp K). { intros K HK. split; [done|]. split; [by apply Dbp|by intros [_ ?]]. }
    pose proof (elem_all h1 E_neg [X] G1 ltac:(olds)) as H2.
    destruct (mk_elem B h1 _ _) as [h2 nX]. cbn in H2. destruct H2 as (E2 & G2 & P2).
    pose proof (fun K => apply1_passes h h2 (OOther K_dot) [nX; bp] (b_dot B (ty_def h2 nX) (ty_def h2 bp)) K ltac:(done) G2) as H3.
    destruct (apply1 h2 _ _ _) as [h3 psi]. cbn in H3.
    assert (H3' : extends h2 h3 /\ good_heap h3 /\ forall K, good K -> passes_on h h3 psi K).
    { assert (HI : forall K, good K -> forall u, u ∈ [nX; bp] -> passes_on h h2 u K).
      { intros K HK u [->| ->%elem_of_list_singleton]%elem_of_cons; [done|]. eapply passes_extends; [apply G1|exact E2|by apply Obp]. }
      destruct (H3 (fun _ => K1) (HI (fun _ => K1) (fun _ _ => eq_refl))) as (A & C & _). split; [done|]. split; [done|].
      intros K HK. by apply (H3 K (HI K HK)). }
    destruct H3' as (E3 & G3 & P3). clear H3.
    pose proof (fun K HK => elem_passes h B h3 E_sigmoid [psi] K G3 ltac:(intros u ->%elem_of_list_singleton; exact (P3 K HK))) as H4.
    pose proof (mk_elem_plain B h3 E_sigmoid [psi]) as Pp. cbv zeta in Pp.
    destruct (mk_elem B h3 _ _) as [h4 p]. cbn [fst snd] in H4, Pp.
    destruct (H4 (fun _ => K1) (fun _ _ => eq_refl)) as (E4 & G4 & _). assert (P4 : forall K, good K -> passes_on h h4 p K) by (intros K HK; by apply H4). clear H4.
    pose proof (extends_trans _ _ _ (extends_trans _ _ _ E2 E3) E4) as E14. pose proof (extends_trans _ _ _ E1 E14) as X4.
    assert (Hi : forall K, good K -> forall u, u ∈ [hh; p; a; b; y] -> passes_on h h4 u K).
    { intros K HK u [->|[->|[->|[->|[->|?%elem_of_nil]%elem_of_cons]%elem_of_cons]%elem_of_cons]%elem_of_cons]%elem_of_cons; try done; try (by apply ok_old). by apply P4. }
    assert (Hi' : forall u, u ∈ [hh; p; a; b; y] -> is_Some (hv h4 u)).
    { intros u Hu. exact (proj1 (Hi (fun _ => K1) (fun _ _ => eq_refl) u Hu)). }
    pose proof (dispersion_inner_ok B h4 (fun _ => True) h4 hh p a b y ltac:(split; [apply extends_refl|done])
      ltac:(intros u Hu; split; [by apply Hi'|by left])) as T5.
    destruct (dispersion_inner B h4 hh p a b y) as [h5 g].
    destruct T5 as (E5 & [_ G5] & Hr & (Ws & Ss & Fs) & (Wg & Sg & Fg) & Hne & _ & _ & HC).
    change [PVar hh; PVar p; PVar a; PVar b; PVar y] with (PVar <$> [hh; p; a; b; y]).
    destruct (mk_kernel_cases h5 K_dispersion [hh; p; a; b; y] (dispersion_outputs g) [posterior_name h1 hh "h"; None; None] G5) as [[_ ->]|[Hns H]].
    - intros u Hu. eapply extends_some; [exact E5|by apply Hi'].
    - intros u Hu. by apply Hr.
    - done.
    - apply single_raise.
    - destruct H as (h6 & outs & m & -> & E6 & G6 & Hlen & Hnd & Hm & Ho).
      destruct outs as [|hp [|u1 [|u2 [|]]]]; try done.
      rewrite !lookup_app_r by lia. rewrite Nat.sub_diag, Nat.sub_succ_l, Nat.sub_diag by lia.
      set (ins := remove_constants h5 (PVar <$> [hh; p; a; b; y])) in *.
      assert (Hconf : forall u, u ∈ [hh; p; a; b; y] -> conf h4 ins [] u).
      { intros u Hu. assert (Hnsu : is_shared h4 u = true -> u ∈ []).
        { intros Hs. exfalso. apply (Hns u Hu). apply (shared_extends h4 h5); [done|by apply Hi'|by apply is_shared_spec]. }
        assert (Hk : is_constant h5 u = is_constant h4 u).
        { unfold is_constant. destruct (Hi' u Hu) as [z Hz]. by rewrite Hz, (proj1 E5 u z Hz). }
        destruct (is_constant h4 u) eqn:Ec; [|apply conf_block; [by apply remove_constants_elem|by apply Hi'|done]].
        apply conf_step; [by apply Hi'|done|]. intros w. unfold input_of, parents.
        assert (owner h4 u = None) as ->; [|by intros ?%elem_of_nil].
        destruct (decide (u = p)) as [->|Hup].
        { unfold is_constant in Ec. destruct Pp as [ow Pp]. rewrite Pp in Ec. done. }
        assert (Hu' : u ∈ [hh; a; b; y]) by (clear -Hu Hup; set_solver).
        assert (Hu1 : old u).
        { clear -Hu' Hh Ha Hb Hy. apply elem_of_cons in Hu' as [->|[->|[->|[->|?%elem_of_nil]%elem_of_cons]%elem_of_cons]%elem_of_cons]; done. }
        rewrite (extends_owner_old h h4); [|done|done]. apply (Hleaf u Hu').
        unfold is_constant in *. destruct Hu1 as [z Hz]. rewrite (proj1 X4 u z Hz) in Ec. by rewrite Hz. }
      destruct (HC ins Hconf) as (C1 & C2 & C3).
      assert (Hsh : forall q, q ∈ shared_inputs h5 ins (dispersion_outputs g) -> q ∈ [dg_scan_rng g; dg_rng g]).
      { intros q [Hs Hq]%elem_of_list_filter. apply graph_inputs_spec in Hq as [_ Hc]. eapply conf_shared; [|exact Hs].
        eapply conf_cut; [|exact Hc]. intros v [->|[->|[->|?%elem_of_nil]%elem_of_cons]%elem_of_cons]%elem_of_cons; try done.
        eapply conf_mono; [|exact C1]. intros w ->%elem_of_list_singleton. by left. }
      set (K := fun q => match hv h1 q with Some _ => K1 | None => m end).
      assert (HK : good K). { intros q [z Hz]. unfold K. by rewrite Hz. }
      assert (Hd : forall v, v ∈ [hp; u1; u2] -> draws h h6 v K).
      { eapply kernel_draws; [exact G5|exact E6|exact Hm|intros i v Hv; by destruct (Ho i v Hv)|intros u Hu; by apply Hr| |].
        - intros u [Hu _]%remove_constants_elem. eapply passes_extends; [apply G4|exact E5|by apply Hi].
        - intros q Hq _. unfold K. apply Hsh in Hq. assert (hv h1 q = None) as ->; [|done]. apply (back h1 h4); [done|].
          apply elem_of_cons in Hq as [->| ->%elem_of_list_singleton]; done. }
      assert (Hdb : draws h h6 bp K).
      { eapply draws_extends; [apply G1| |exact Sbp|by apply Dbp]. exact (extends_trans _ _ _ E14 (extends_trans _ _ _ E5 E6)). }
      assert (Hleafs : forall q, q ∈ shared_inputs h5 ins (dispersion_outputs g) -> draws h h6 q K).
      { intros q Hq. apply leaf_draws. apply Hsh in Hq. assert (Hq5 : owner h5 q = None /\ is_Some (hv h5 q)).
        { clear -Hq Ws Wg Ss Sg. apply elem_of_cons in Hq as [->| ->%elem_of_list_singleton]; (split; [done|]); apply shared_some; by apply is_shared_spec. }
        rewrite (extends_owner_old h5 h6); [apply Hq5|done|apply Hq5]. }
      destruct (shared_inputs h5 ins (dispersion_outputs g)) as [|r1 [|r2 rs]]; cbn [lookup list_lookup]; try apply single_raise.
      intros es [= <-]. exists K. intros rv step ups v Hin Hv.
      apply elem_of_cons in Hin as [Hin|Hin%elem_of_list_singleton].
      + injection Hin as -> -> ->. cbn in Hv. by apply elem_of_list_singleton in Hv as ->.
      + injection Hin as -> -> ->. apply elem_of_cons in Hv as [->|[Hv|Hv]%elem_of_app]; [apply Hd; by left| |].
        * apply Hleafs. clear -Hv. cbn in Hv. destruct (decide (r2 = r1)); cbn in Hv; set_solver.
        * apply Hd. clear -Hv. cbn in Hv. destruct (decide (r2 = r1)); cbn in Hv; set_solver.
  Qed.

  Lemma dispersion_ups h1 X hh bp y a b h3 v st ups : dispersion_step B h1 X hh bp y a b = (h3, Ok (v, st, ups)) -> ups <> [].
  Proof using Type.
    unfold dispersion_step. destruct (mk_elem B h1 _ _) as [h2 nX]. destruct (apply1 h2 _ _ _) as [h4 psi]. destruct (mk_elem B h4 _ _) as [h5 p].
    destruct (dispersion_inner B h5 _ _ _ _ _) as [h6 g]. destruct (mk_kernel h6 _ _ _ _) as [[h7 outs]|]; [|done].
    destruct outs as [|hp [|u1 [|u2 [|]]]]; try done. destruct (_ !! _) as [r1|]; [|done]. destruct (_ !! _) as [r2|]; [|done].
    intros [= <- <- <- <-]. cbn. by destruct (decide _).
  Qed.
  Lemma dispersion_kernel h1 X hh bp y a b rv1 K1 : good_heap h1 -> extends h h1 -> old X -> old hh -> old y -> old a -> old b ->
    (forall v, v ∈ [hh; a; b; y] -> is_constant h v = true -> owner h v = None) ->
    is_Some (hv h1 bp) -> ~ shared_var h1 bp -> (forall K, (forall q, is_Some (hv h1 q) -> K q = K1) -> draws h h1 bp K) ->
    (forall q, fresh_gen h h1 q -> ~ advanced_by_step h1 bp [] q) ->
    kernel_once h (match dispersion_step B h1 X hh bp y a b with
              | (h3, Raise e) => (h3, Raise e)
              | (h3, Ok r) => (h3, Ok [(rv1, bp, []); r])
              end).
  Proof using Hg.
    intros G1 E1 HX Hh Hy Ha Hb Hleaf Sbp Pbp Dbp HN. split; [by eapply dispersion_single|].
    assert (S1 : stage h h1) by (split; done).
    assert (Hs : forall u, is_Some (hv h1 u) -> sourced h (fun u => old u) h1 u).
    { intros u Hu. split; [done|]. intros w Hw. destruct (hv h w) as [z|] eqn:Hz; [left; by eauto|by right]. }
    pose proof (dispersion_safe B h (fun u => old u) h1 h1 X hh bp y a b rv1 (extends_refl h1) S1
      (Hs _ (extends_some _ _ _ E1 HX)) (Hs _ (extends_some _ _ _ E1 Hh)) (Hs _ Sbp) (Hs _ (extends_some _ _ _ E1 Hy))
      (Hs _ (extends_some _ _ _ E1 Ha)) (Hs _ (extends_some _ _ _ E1 Hb))) as Hsafe.
    pose proof (dispersion_ups h1 X hh bp y a b) as Hne.
    destruct (dispersion_step B h1 X hh bp y a b) as [h3 [[[v st] ups]|e]]; [|by intros es [=]].
    destruct Hsafe as (E3 & [_ G3] & _). cbn [fst snd] in *.
    intros es [= <-] rv step q Hin Hq (u & m & i & [Hu|[_ Hu]] & Hou & Hrd & Hm); [done|]. cbn [fst snd] in *.
    apply elem_of_cons in Hin as [Hin|Hin%elem_of_list_singleton]; [|injection Hin as -> -> <-; exact (Hne _ _ _ _ eq_refl eq_refl)].
    injection Hin as -> ->. destruct (node_old h1 h3 bp m (proj1 G1) E3 Sbp Hm) as (Hm1 & nd & N1 & N3).
    destruct Hrd as (nd' & Hnd & Hqin). assert (nd' = nd) by congruence. subst nd'.
    assert (Hq1 : is_Some (hv h1 q)) by (by eapply (wf_ins h1 (proj1 G1))).
    apply (HN q).
    - split; [apply Hq|]. apply (shared_extends h1 h3); [done|done|apply Hq].
    - exists u, m, i. split; [right; split; [done|by eapply default_extends]|]. split; [|split; [by exists nd|done]].
      destruct (wf_owner h3 (proj1 G3) _ _ _ Hou) as (nd' & Hnd' & Hio). assert (nd' = nd) by congruence. subst nd'.
      by apply (wf_outs h1 (proj1 G1) m nd).
  Qed.

  Lemma nbinom_single : (forall v, is_Some (hv h v) -> reachable h (default [] (n_outs <$> hn h n)) v -> is_constant h v = true -> owner h v = None) ->
    kernel_once h (nbinom_logistic_finder B h n).
  Proof using Hg.
    intros Hleaf. unfold nbinom_logistic_finder, with_rv. destruct (hn h n) as [nd|] eqn:Hn; [|apply ker_raise].
    destruct (n_outs nd !! 1) as [y|] eqn:Ho; [|apply ker_raise]. pose proof (out_old nd y Hn Ho) as Hy. cbn in Hleaf.
    destruct (nbinom_sigmoid_dot_match B h y) as [[[X hh] beta]|e] eqn:Hm; [|destruct e; first [apply ker_none|apply ker_raise]].
    destruct (nbinom_matched_dec h y) as [(hh' & p & c & X' & beta' & Hrv & Hsd)|Hno].
    2: { rewrite (nbinom_match_other B h y Hno) in Hm. done. }
    rewrite (nbinom_match_matched B h y _ _ _ _ _ Hrv Hsd) in Hm. destruct (neg_one_check B h c); [|done]. cbn in Hm. injection Hm as -> -> ->.
    pose proof (S_rv h (fun u => old u) (proj1 Hg) old_inputs (fun u H => H) h y _ _ (extends_refl h) Hy Hrv) as HSp.
    pose proof (HSp hh ltac:(by left)) as Hh. pose proof (HSp p ltac:(right; by left)) as Hp. clear HSp.
    destruct (Sig p c X beta (extends_refl h) Hp Hsd) as [HX Hb].
    destruct (owner_input4 h beta) as [bstd|e] eqn:H4; [|apply ker_raise].
    destruct (index_error B h bstd X); [apply ker_raise|].
    pose proof (owner_input4_S h (fun u => old u) (proj1 Hg) old_inputs (fun u H => H) h st0 _ _ Hb H4) as Hstd.
    pose proof (extends_refl h) as E0. assert (Hin : forall u, u ∈ [beta; bstd; X; hh; y] -> ok h u) by olds.
    pose proof (body_defaults h [beta; bstd; X; hh; y] nbinom_code nbinom_outs (defaults_refl h)) as D5.
    pose proof (mk_body_struct B h [beta; bstd; X; hh; y] nbinom_code nbinom_outs Hg ltac:(intros u Hu; exact (proj1 (Hin u Hu (fun _ => 0)))) eq_refl) as H5.
    destruct (mk_body B h _ _ _) as [h1 rngs]. cbv zeta in H5. cbn [fst snd] in H5, D5. destruct H5 as (E1 & G1 & Hr & Hl).
    change [PVar beta; PVar bstd; PVar X; PVar hh; PVar y] with (PVar <$> [beta; bstd; X; hh; y]).
    match goal with |- context[mk_kernel h1 ?k ?i ?r ?nm] => destruct (mk_kernel h1 k i r nm) as [[h2 outs]|e] eqn:Hk end; [|apply ker_raise].
    apply kernel_single in Hk as (E2 & G2 & m & Ho2 & HK & HN); [|done|done|exact D5|intros u Hu; eapply ok_up; [exact Hg|done|by apply Hin]|done|by rewrite Hl].
    pose proof (extends_trans _ _ _ E1 E2) as X2.
    destruct outs as [|bp [|]]; try apply ker_raise. destruct (Ho2 bp ltac:(by left)) as [Sbp Pbp].
    destruct (gamma_match h2 hh) as [[ga gb]|ge] eqn:Hgm.
    2: { destruct ge; try apply ker_raise. 
      split; [apply (single_one _ _ _ _ (fun _ => m)); apply HK; [done|by left]|].
      intros es [= <-] rv step q Hin'%elem_of_list_singleton Hq. apply HN; [|done]. simplify_eq. by left. }
    apply gamma_match_iff in Hgm.
    assert (Hin_h : forall u, u ∈ [ga; gb] -> input_of h hh u).
    { intros u Hu. destruct Hgm as (m' & k & md & r & sz & dt & Hoo & Hmd & Hop & Hi).
      rewrite (extends_owner_old h h2) in Hoo by done. destruct (wf_owner h (proj1 Hg) _ _ _ Hoo) as (md' & Hmd' & _).
      pose proof (proj2 X2 _ _ Hmd') as Hmd2. assert (md' = md) by congruence. subst md'.
      unfold input_of, parents. rewrite Hoo, Hmd', Hi. by do 3 right. }
    assert (Rh : reachable h (n_outs nd) hh).
    { exists y. split; [by eapply elem_of_list_lookup_2|]. apply rtc_once.
      destruct Hrv as (m' & k & md & r & sz & dt & Hoo & Hmd & _ & Hi). unfold input_of, parents. rewrite Hoo, Hmd, Hi. do 3 right. by left. }
    assert (Rin : forall u, u ∈ [ga; gb] -> reachable h (n_outs nd) u).
    { intros u Hu. destruct Rh as (r & Hr' & Hru). exists r. split; [done|]. eapply rtc_r; [exact Hru|by apply Hin_h]. }
    apply (dispersion_kernel h2 X hh bp y ga gb beta m); try done; try (eapply wf_parent; [apply Hg|apply Hin_h; first [by left|right; by left]]).
    - intros v Hv. apply Hleaf.
      + clear -Hv Hh Hy Hin_h Hg. apply elem_of_cons in Hv as [->|[->|[->|[->|?%elem_of_nil]%elem_of_cons]%elem_of_cons]%elem_of_cons]; try done;
          (eapply wf_parent; [apply Hg|apply Hin_h; first [by left|right; by left]]).
      + apply elem_of_cons in Hv as [->|[->|[->|[->|?%elem_of_nil]%elem_of_cons]%elem_of_cons]%elem_of_cons]; try done.
        * apply Rin. by left.
        * apply Rin. right; by left.
        * exists y. split; [by eapply elem_of_list_lookup_2|apply rtc_refl].
    - intros K HK'. apply HK; [|by left]. intros q Hq. apply HK'. exact (extends_some h1 h2 q E2 Hq).
    - intros q Hq. apply HN; [by left|done].
  Qed.

  Lemma registered_single e : e ∈ registered ->
    (forall v, is_Some (hv h v) -> reachable h (default [] (n_outs <$> hn h n)) v -> is_constant h v = true -> owner h v = None) ->
    single h (e_finder e B h n).
  Proof using Hg.
    unfold registered. intros He Hleaf.
    repeat (apply elem_of_cons in He as [-> |He]; [cbn;
      first [apply horseshoe_single|by apply nbinom_single|apply bern_single|apply beta_binomial_single|apply gamma_poisson_single|apply beta_nb_single]|]).
    by apply elem_of_nil in He.
  Qed.
End finders.

(** ** the whole search *)
Section search.
  Context (B : builder) (h0 : heap) (outs : list vid).
  Hypothesis Hg0 : good_heap h0.
  Hypothesis Houts : forall r, r ∈ outs -> is_Some (hv h0 r).
  Hypothesis Hconst : forall v, is_constant h0 v = true -> owner h0 v = None.
  Notation S := (reachable h0 outs).

  (** what has been found so far *)
  Definition one_reader (h : heap) (R : list vid -> Prop) : Prop :=
    forall l1 l2 q m1 m2, R l1 -> R l2 -> hv h0 q = None -> shared_var h q ->
      node_reachable h l1 m1 -> reads h m1 q -> node_reachable h l2 m2 -> reads h m2 q -> m1 = m2.
  Definition found_in (d : dict nat (list found)) (l : list vid) : Prop :=
    exists rv fs f, dget d rv = Some fs /\ f ∈ fs /\ l = roots_of f.

  Lemma found_add fn d es l : found_in (foldl (add_sampler fn) d es) l ->
    found_in d l \/ exists rv step ups, (rv, step, ups) ∈ es /\ l = step :: dkeys ups ++ dvalues ups.
  Proof using Type.
    revert d. induction es as [|e es IH]; intros d H; [by left|]. cbn in H. destruct (IH _ H) as [H1|(rv & step & ups & Hin & ->)].
    - destruct H1 as (rv & fs & f & H1 & H2 & ->). destruct e as [[rv0 step] ups]. cbn in H1. rewrite dget_dset in H1. case_decide as Heq.
      + injection H1 as <-. apply elem_of_app in H2 as [H2|H2%elem_of_list_singleton].
        * left. destruct (dget d rv0) as [fs0|] eqn:Hd; [by exists rv0, fs0, f|by apply elem_of_nil in H2].
        * right. exists rv0, step, ups. split; [by left|]. by subst f.
      + left. by exists rv, fs, f.
    - right. exists rv, step, ups. split; [by right|done].
  Qed.

  Lemma nreach_list h l m : node_reachable h l m -> exists v, v ∈ l /\ node_reachable h [v] m.
  Proof using Type.
    intros (w & i & (r & Hr & Hw) & Ho). exists r. split; [done|]. exists w, i. split; [|done]. exists r. split; [by left|done].
  Qed.
  Lemma nreach_old h h' l m : wf_heap h -> extends h h' -> (forall v, v ∈ l -> is_Some (hv h v)) -> node_reachable h' l m ->
    node_reachable h l m /\ exists nd, hn h m = Some nd /\ hn h' m = Some nd.
  Proof using Type.
    intros Hwf E Hl Hm. apply nreach_list in Hm as (v & Hv & Hm). destruct (node_old h h' v m Hwf E (Hl v Hv) Hm) as [(w & i & (r & Hr & Hw) & Ho) H].
    split; [|done]. apply elem_of_list_singleton in Hr as ->. exists w, i. split; [|done]. by exists v.
  Qed.

  Lemma call_one_reader st e n : e ∈ registered -> node_reachable h0 outs n ->
    (forall nd d v, hn h0 n = Some nd -> n_op nd = ORV d -> n_outs nd !! 1 = Some v -> S v) ->
    stage h0 st.1 -> tracker_ok h0 outs st.1 (tk_samplers st.2) -> one_reader st.1 (found_in (tk_samplers st.2)) ->
    let st' := call_finder B st (e, n) in one_reader st'.1 (found_in (tk_samplers st'.2)).
  Proof using All.
    intros He Hn Hv Hst Ht Hone. destruct st as [h t]. cbn in Hst, Ht, Hone. unfold call_finder.
    destruct (hn h n) as [nd|] eqn:Hnd; [|done]. destruct (n_op nd) as [d| | | | |] eqn:Hop; try done.
    destruct (n_outs nd !! 1) as [y|] eqn:Hy; [|done]. case_decide as Hd; [|done].
    destruct Hn as (w & i & Hw & Hwo). destruct (wf_owner h0 (proj1 Hg0) _ _ _ Hwo) as (nd0 & Hn0 & _).
    pose proof (proj2 (proj1 Hst) _ _ Hn0) as Hn1. assert (nd0 = nd) by congruence. subst nd0.
    destruct Hst as [E0 Gh]. pose proof (S_some h0 outs Hg0 Houts) as HS0.
    assert (Hin_h : forall u u', S u -> input_of h u u' -> S u').
    { intros u u' Hu Hi. apply (S_input h0 outs u u' Hu). unfold input_of, parents in *. rewrite (extends_owner_old h0 h) in Hi by (try done; by apply HS0).
      destruct (owner h0 u) as [[k j]|] eqn:Hk; [|done]. destruct (wf_owner h0 (proj1 Hg0) _ _ _ Hk) as (ndk & Hndk & _).
      rewrite Hndk. by rewrite (proj2 E0 _ _ Hndk) in Hi. }
    assert (HSy : S y) by (by eapply Hv).
    assert (Hsafe : safe_result h S h (e_finder e B h n)).
    { assert (HSh : forall u, S u -> is_Some (hv h u)) by (intros u Hu; eapply extends_some; [exact E0|by apply HS0]).
      apply (registered_safe B h S (proj1 Gh) Hin_h HSh n h (conj (extends_refl h) Gh)); [|done].
      intros nd' y' H1 H2. assert (nd' = nd) by congruence. subst nd'. by eapply Hv. }
    assert (Hsingle : single h (e_finder e B h n)).
    { apply registered_single; [done|done|]. rewrite Hnd. cbn. intros v Sv Rv Hc.
      assert (S' : S v \/ is_Some (hv h0 v)).
      { right. assert (Rv0 : reachable h0 (n_outs nd) v).
        { apply (extends_reachable_list h0 h); [apply Hg0|done| |done]. intros r [k Hk]%elem_of_list_lookup.
          pose proof (wf_outs h0 (proj1 Hg0) n nd k r Hn0 Hk) as Hor. unfold owner in Hor. by destruct (hv h0 r). }
        eapply wf_reachable; [apply Hg0| |exact Rv0]. intros r [k Hk]%elem_of_list_lookup.
        pose proof (wf_outs h0 (proj1 Hg0) n nd k r Hn0 Hk) as Hor. unfold owner in Hor. by destruct (hv h0 r). }
      assert (Sv0 : is_Some (hv h0 v)) by (destruct S' as [?|?]; [by apply HS0|done]).
      rewrite (extends_owner_old h0 h) by done. apply Hconst. destruct Sv0 as [z Hz]. unfold is_constant in *. by rewrite (proj1 E0 v z Hz) in Hc; rewrite Hz. }
    destruct (e_finder e B h n) as [h1 out]. destruct Hsafe as (E1 & [_ G1] & Ho). cbn in E1, Ho. unfold single in Hsingle. cbn [fst snd] in Hsingle.
    unfold sampler_finder_call. rewrite decide_False by apply Hd.
    assert (Hroots : forall l, found_in (tk_samplers t) l -> forall v, v ∈ l -> is_Some (hv h v)).
    { intros l (rv & fs & f & H1 & H2 & ->) v Hvl. destruct (Ht rv fs f H1 H2) as (F1 & _ & F3 & F4).
      apply elem_of_cons in Hvl as [->|[Hvl|Hvl]%elem_of_app]; [apply F1|by apply F3|by apply F4]. }
    assert (Hbase : one_reader h1 (found_in (tk_samplers t))).
    { intros l1 l2 q m1 m2 H1 H2 Hq Hs M1 R1 M2 R2.
      destruct (nreach_old h h1 l1 m1 (proj1 Gh) E1 (Hroots _ H1) M1) as (M1' & nd1 & N1 & N1').
      destruct (nreach_old h h1 l2 m2 (proj1 Gh) E1 (Hroots _ H2) M2) as (M2' & nd2 & N2 & N2').
      destruct R1 as (a1 & A1 & B1). assert (a1 = nd1) by congruence. subst a1. destruct R2 as (a2 & A2 & B2). assert (a2 = nd2) by congruence. subst a2.
      apply (Hone l1 l2 q m1 m2); try done; [|by exists nd1|by exists nd2].
      apply (shared_extends h h1); [done|by eapply (wf_ins h (proj1 Gh))|done]. }
    destruct out as [[|e1 es]|ex]; cbn [rbind tk_samplers fst snd]; try done.
    destruct (Hsingle _ eq_refl) as [K HK].
    (* a generator read above a new step is not in [h] *)
    assert (Hnew : forall rv step ups q m, (rv, step, ups) ∈ e1 :: es -> hv h0 q = None ->
      node_reachable h1 (step :: dkeys ups ++ dvalues ups) m -> reads h1 m q -> shared_var h1 q -> hv h q = None /\ m = K q).
    { intros rv step ups q m Hin Hq Hm Hr Hs. apply nreach_list in Hm as (v & Hvl & Hm).
      destruct (Ho _ eq_refl rv step ups Hin) as (F1 & _ & F3 & F4).
      assert (Hsv : sourced h S h1 v).
      { apply elem_of_cons in Hvl as [->|[Hvl|Hvl]%elem_of_app]; [done|by apply F3|by apply F4]. }
      assert (Hqr : reachable h1 [v] q).
      { destruct Hm as (u & j & (r & Hr1 & Hru) & Huo). exists r. split; [done|]. eapply rtc_r; [exact Hru|].
        destruct Hr as (ndm & Hndm & Hqin). unfold input_of, parents. by rewrite Huo, Hndm. }
      assert (Hqh : hv h q = None).
      { destruct (proj2 Hsv q Hqr) as [HSq|?]; [|done]. apply HS0 in HSq as [z Hz]. congruence. }
      split; [done|]. by apply (HK rv step ups v Hin Hvl q m). }
    intros l1 l2 q m1 m2 L1 L2 Hq Hs M1 R1 M2 R2.
    apply found_add in L1, L2.
    destruct L1 as [L1|(rv1 & s1 & u1 & I1 & ->)], L2 as [L2|(rv2 & s2 & u2 & I2 & ->)].
    - by apply (Hbase l1 l2 q).
    - exfalso. destruct (Hnew _ _ _ q m2 I2 Hq M2 R2 Hs) as [Hqh _].
      destruct (nreach_old h h1 l1 m1 (proj1 Gh) E1 (Hroots _ L1) M1) as (_ & nd1 & N1 & N1').
      destruct R1 as (a1 & A1 & B1). assert (a1 = nd1) by congruence. subst a1. destruct (wf_ins h (proj1 Gh) _ _ _ N1 B1) as [z Hz]. congruence.
    - exfalso. destruct (Hnew _ _ _ q m1 I1 Hq M1 R1 Hs) as [Hqh _].
      destruct (nreach_old h h1 l2 m2 (proj1 Gh) E1 (Hroots _ L2) M2) as (_ & nd1 & N1 & N1').
      destruct R2 as (a1 & A1 & B1). assert (a1 = nd1) by congruence. subst a1. destruct (wf_ins h (proj1 Gh) _ _ _ N1 B1) as [z Hz]. congruence.
    - destruct (Hnew _ _ _ q m1 I1 Hq M1 R1 Hs) as [_ ->]. by destruct (Hnew _ _ _ q m2 I2 Hq M2 R2 Hs) as [_ ->].
  Qed.

  Lemma calls_one_reader cs : forall st,
    (forall e n, (e, n) ∈ cs -> e ∈ registered /\ node_reachable h0 outs n /\
       forall nd d v, hn h0 n = Some nd -> n_op nd = ORV d -> n_outs nd !! 1 = Some v -> S v) ->
    stage h0 st.1 -> tracker_ok h0 outs st.1 (tk_samplers st.2) -> one_reader st.1 (found_in (tk_samplers st.2)) ->
    let st' := foldl (call_finder B) st cs in one_reader st'.1 (found_in (tk_samplers st'.2)).
  Proof using All.
    induction cs as [|[e n] cs IH]; intros st Hcs Hst Ht Hone; [done|]. cbn.
    destruct (Hcs e n ltac:(by left)) as (H1 & H2 & H3).
    destruct (call_ok B h0 outs Hg0 Houts st e n H1 H2 H3 Hst Ht) as (A & C & D).
    apply IH; [intros; apply Hcs; by right|done|done|]. by apply call_one_reader.
  Qed.

  Lemma discover_one_reader sched : sched_ok sched ->
    let r := discover B sched h0 outs in one_reader r.1 (found_in r.2).
  Proof using All.
    intros Hs. unfold discover. cbv zeta. pose proof (calls_one_reader (sched h0 outs) (h0, new_tracker)) as H.
    destruct (foldl _ _ _) as [h1 t]. cbn in *. apply H.
    - intros e n Hin. by apply Hs.
    - split; [apply extends_refl|done].
    - done.
    - by intros l1 l2 q m1 m2 (rv & fs & f & [=] & _).
  Qed.
End search.
