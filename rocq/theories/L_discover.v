(** Sampler discovery with the registered finders. *)
From Verif Require Export L_finders.

(** the rewriters only visit nodes of the function graph, and the random variables whose
    nodes they visit are used in it *)
Definition sched_ok (sched : heap -> list vid -> list (entry * nid)) : Prop :=
  forall h outs e n, (e, n) ∈ sched h outs -> e ∈ registered /\ node_reachable h outs n /\
    forall nd d v, hn h n = Some nd -> n_op nd = ORV d -> n_outs nd !! 1 = Some v -> reachable h outs v.

Section discover.
  Context (B : builder) (h0 : heap) (outs : list vid).
  Hypothesis Hg0 : good_heap h0.
  Hypothesis Houts : forall r, r ∈ outs -> is_Some (hv h0 r).
  Notation S := (reachable h0 outs).

  Lemma S_some u : S u -> is_Some (hv h0 u).
  Proof.
    intros (r & Hr & Hru). apply rtc_inv_r in Hru as [<-|(w & _ & Hw)]; [by apply Houts|].
    unfold input_of, parents in Hw. destruct (owner h0 w) as [[n i]|]; [|by apply elem_of_nil in Hw].
    destruct (hn h0 n) as [nd|] eqn:Hn; [|by apply elem_of_nil in Hw]. by eapply (wf_ins h0 (proj1 Hg0)).
  Qed.
  Lemma S_input u w : S u -> input_of h0 u w -> S w.
  Proof. intros (r & Hr & Hru) Hw. exists r. split; [done|]. by eapply rtc_r. Qed.

  (** what is known about a discovered sampler *)
  Definition found_ok (h : heap) (f : found) : Prop :=
    sourced h0 S h (f_step f) /\ NoDup (dkeys (f_updates f)) /\
    (forall k, k ∈ dkeys (f_updates f) -> sourced h0 S h k /\ owner h k = None) /\
    (forall v, v ∈ dvalues (f_updates f) -> sourced h0 S h v).
  Definition tracker_ok (h : heap) (d : dict nat (list found)) : Prop :=
    forall rv fs f, dget d rv = Some fs -> f ∈ fs -> found_ok h f.

  Lemma found_ok_extends h h' f : stage h0 h -> extends h h' -> found_ok h f -> found_ok h' f.
  Proof.
    intros [_ Hg] He (A & C & D & E). split; [eapply src_extends; [apply Hg|done|done]|]. split; [done|]. split.
    - intros k Hk. destruct (D k Hk) as [Hs Ho]. split; [eapply src_extends; [apply Hg|done|done]|].
      rewrite (extends_owner_old h h'); [done|done|apply Hs].
    - intros v Hv. eapply src_extends; [apply Hg|done|by apply E].
  Qed.

  Lemma add_sampler_ok h fn d e : tracker_ok h d -> found_ok h (Found fn e.1.2 e.2) -> tracker_ok h (add_sampler fn d e).
  Proof.
    destruct e as [[rv step] ups]. cbn. intros Ht Hf rv' fs f. rewrite dget_dset. case_decide as Heq; [|by apply Ht].
    intros [= <-] [Hin|Hin%elem_of_list_singleton]%elem_of_app; [|by subst f].
    destruct (dget d rv) as [fs0|] eqn:Hd; [by eapply Ht|by apply elem_of_nil in Hin].
  Qed.

  Lemma add_samplers_ok h fn es : (forall e, e ∈ es -> found_ok h (Found fn e.1.2 e.2)) ->
    forall d, tracker_ok h d -> tracker_ok h (foldl (add_sampler fn) d es).
  Proof.
    induction es as [|e es IH]; intros He d Hd; [done|]. cbn. apply IH; [intros e' ?; apply He; by right|].
    apply add_sampler_ok; [done|]. apply He. by left.
  Qed.

  Lemma call_ok st e n : e ∈ registered -> node_reachable h0 outs n ->
    (forall nd d v, hn h0 n = Some nd -> n_op nd = ORV d -> n_outs nd !! 1 = Some v -> S v) ->
    stage h0 st.1 -> tracker_ok st.1 (tk_samplers st.2) ->
    let st' := call_finder B st (e, n) in
    extends st.1 st'.1 /\ stage h0 st'.1 /\ tracker_ok st'.1 (tk_samplers st'.2).
  Proof.
    intros He Hn Hv Hst Ht. destruct st as [h t]. cbn in Hst, Ht. unfold call_finder.
    assert (Hid : extends h h /\ stage h0 h /\ tracker_ok h (tk_samplers t)) by (split; [apply extends_refl|done]).
    destruct (hn h n) as [nd|] eqn:Hnd; [|done]. destruct (n_op nd) as [d| | | | |] eqn:Hop; try done.
    destruct (n_outs nd !! 1) as [y|] eqn:Hy; [|done]. case_decide as Hd; [|done].
    destruct Hn as (w & i & Hw & Hwo). destruct (wf_owner h0 (proj1 Hg0) _ _ _ Hwo) as (nd0 & Hn0 & _).
    pose proof (proj2 (proj1 Hst) _ _ Hn0) as Hn1. assert (nd0 = nd) by congruence. subst nd0.
    assert (Hsafe : safe_result h0 S h (e_finder e B h n)).
    { apply registered_safe; try done; [apply Hg0|apply S_input|apply S_some|].
      intros nd' y' H1 H2. assert (nd' = nd) by congruence. subst nd'. by eapply Hv. }
    destruct (e_finder e B h n) as [h1 out]. destruct Hsafe as (E1 & S1 & Ho). cbn in E1, S1, Ho.
    assert (Ht1 : tracker_ok h1 (tk_samplers t)).
    { intros rv fs f H1 H2. eapply found_ok_extends; [exact Hst|done|]. by eapply Ht. }
    unfold sampler_finder_call. rewrite decide_False by apply Hd.
    destruct out as [[|e1 es]|ex]; cbn; try done.
    split; [done|]. split; [done|]. apply (add_samplers_ok h1 (e_name e) (e1 :: es)); [|done].
    intros [[rv step] ups] Hin. cbn. exact (Ho _ eq_refl rv step ups Hin).
  Qed.

  Lemma calls_ok cs : forall st,
    (forall e n, (e, n) ∈ cs -> e ∈ registered /\ node_reachable h0 outs n /\
       forall nd d v, hn h0 n = Some nd -> n_op nd = ORV d -> n_outs nd !! 1 = Some v -> S v) ->
    stage h0 st.1 -> tracker_ok st.1 (tk_samplers st.2) ->
    let st' := foldl (call_finder B) st cs in
    extends st.1 st'.1 /\ stage h0 st'.1 /\ tracker_ok st'.1 (tk_samplers st'.2).
  Proof.
    induction cs as [|[e n] cs IH]; intros st Hcs Hst Ht; [split; [apply extends_refl|done]|]. cbn.
    destruct (Hcs e n ltac:(by left)) as (H1 & H2 & H3).
    destruct (call_ok st e n H1 H2 H3 Hst Ht) as (A & C & D).
    destruct (IH (call_finder B st (e, n))) as (A' & C' & D'); [intros; apply Hcs; by right|done|done|].
    split; [by eapply extends_trans|done].
  Qed.

  Lemma discover_ok sched : sched_ok sched ->
    let r := discover B sched h0 outs in
    extends h0 r.1 /\ good_heap r.1 /\
    forall rv fs f, dget r.2 rv = Some fs -> f ∈ fs -> found_ok r.1 f.
  Proof.
    intros Hs. unfold discover. cbv zeta.
    destruct (calls_ok (sched h0 outs) (h0, new_tracker)) as (A & C & D).
    - intros e n Hin. by apply Hs.
    - split; [apply extends_refl|done].
    - done.
    - destruct (foldl _ _ _) as [h1 t]. cbn in *. split; [done|]. split; [apply C|exact D].
  Qed.
End discover.

Lemma discover_contract B sched h outs : sched_ok sched -> good_heap h ->
  (forall r, r ∈ outs -> is_Some (hv h r)) ->
  let r := discover B sched h outs in
  extends h r.1 /\ good_heap r.1 /\
  forall rv fs f, dget r.2 rv = Some fs -> f ∈ fs ->
    (forall v, v ∈ roots_of f -> is_Some (hv r.1 v)) /\
    NoDup (dkeys (f_updates f)) /\
    (forall k, k ∈ dkeys (f_updates f) -> owner r.1 k = None) /\
    (forall u, reachable r.1 (roots_of f) u -> reachable h outs u \/ hv h u = None).
Proof.
  intros Hs Hg Ho. destruct (discover_ok B h outs Hg Ho sched Hs) as (A & C & D). cbv zeta. split; [done|]. split; [done|].
  intros rv fs f H1 H2. destruct (D rv fs f H1 H2) as (F1 & F2 & F3 & F4).
  assert (Hr : forall v, v ∈ roots_of f -> sourced h (reachable h outs) (discover B sched h outs).1 v).
  { intros v [->|[Hv|Hv]%elem_of_app]%elem_of_cons; [done|by apply F3|by apply F4]. }
  split; [intros v Hv; by apply Hr|]. split; [done|]. split; [intros k Hk; by apply F3|].
  intros u (r & Hin & Hru). apply (Hr r Hin). exists r. split; [by left|done].
Qed.

(** in the form in which construct_sampler uses it *)
Lemma discover_contracts B sched h outs : sched_ok sched -> good_heap h ->
  (forall r, r ∈ outs -> is_Some (hv h r)) ->
  let r := discover B sched h outs in
  extends h r.1 /\ good_heap r.1 /\
  forall rv fs f, dget r.2 rv = Some fs -> f ∈ fs ->
    (forall v, v ∈ roots_of f -> is_Some (hv r.1 v)) /\
    NoDup (dkeys (f_updates f)) /\
    (forall k, k ∈ dkeys (f_updates f) -> owner r.1 k = None) /\
    (forall u, reachable r.1 (roots_of f) u -> reachable h outs u \/ hv h u = None \/ owner h u = None).
Proof.
  intros Hs Hg Ho. destruct (discover_contract B sched h outs Hs Hg Ho) as (A & C & D). cbv zeta. split; [done|]. split; [done|].
  intros rv fs f H1 H2. destruct (D rv fs f H1 H2) as (F1 & F2 & F3 & F4). split; [done|]. split; [done|]. split; [done|].
  intros u Hu. destruct (F4 u Hu); auto.
Qed.
