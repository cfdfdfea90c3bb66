(** The calls that sampler discovery makes, in order: what each step was built from. *)
From Verif Require Export L_discover L_closed.

(** a call of a finder: the heap before, the finder, the node, the heap after, what it returned *)
Record call_rec := CallRec {
  k_pre : heap; k_e : entry; k_n : nid; k_post : heap; k_es : list (vid * vid * dict nat nat) }.

Section trace.
  Context (B : builder) (h0 : heap) (outs : list vid).
  Hypothesis Hg0 : good_heap h0.
  Hypothesis Houts : forall r, r ∈ outs -> is_Some (hv h0 r).
  Notation S := (reachable h0 outs).

  Record good_call (h : heap) (c : call_rec) : Prop := GoodCall {
    gc_pre : stage h0 (k_pre c);
    gc_post : stage h0 (k_post c);
    gc_ext : extends (k_pre c) (k_post c);
    gc_now : extends (k_post c) h;
    gc_entry : k_e c ∈ registered;
    gc_node : exists nd y, hn h0 (k_n c) = Some nd /\ n_op nd = ORV (e_rv (k_e c)) /\ n_outs nd !! 1 = Some y /\ S y;
    gc_run : e_finder (k_e c) B (k_pre c) (k_n c) = (k_post c, Ok (k_es c));
  }.
  Record log (h : heap) (d : dict nat (list found)) (cs : list call_rec) : Prop := Log {
    lg_calls : forall c, c ∈ cs -> good_call h c;
    lg_order : forall l1 c l2 c' l3, cs = l1 ++ c :: l2 ++ c' :: l3 -> extends (k_post c) (k_pre c');
    lg_found : forall rv fs f, dget d rv = Some fs -> f ∈ fs ->
      exists c, c ∈ cs /\ f_desc f = e_name (k_e c) /\ (rv, f_step f, f_updates f) ∈ k_es c;
  }.

  Lemma good_call_later h h' c : extends h h' -> good_call h c -> good_call h' c.
  Proof using Type. intros He [A1 A2 A3 A4 A5 A6 A7]. split; try done. by eapply extends_trans. Qed.
  Lemma log_later h h' d cs : extends h h' -> log h d cs -> log h' d cs.
  Proof using Type. intros He [A1 A2 A3]. split; try done. intros c Hc. eapply good_call_later; [done|]. by apply A1. Qed.

  Lemma added fn es : forall d rv fs f, dget (foldl (add_sampler fn) d es) rv = Some fs -> f ∈ fs ->
    (exists fs0, dget d rv = Some fs0 /\ f ∈ fs0) \/ (f_desc f = fn /\ (rv, f_step f, f_updates f) ∈ es).
  Proof using Type.
    induction es as [|[[w st] ups] es IH]; intros d rv fs f Hd Hf; cbn [foldl] in Hd; [left; eauto|].
    destruct (IH _ _ _ _ Hd Hf) as [(fs0 & H1 & H2)|[H1 H2]]; [|right; split; [done|by right]].
    unfold add_sampler in H1. rewrite dget_dset in H1. case_decide as Hw; [|left; eauto]. subst w. injection H1 as <-.
    apply elem_of_app in H2 as [H2| ->%elem_of_list_singleton].
    - left. destruct (dget d rv) as [fs1|]; [eauto|by apply elem_of_nil in H2].
    - right. split; [done|by left].
  Qed.

  Lemma call_log st e n cs : e ∈ registered -> node_reachable h0 outs n ->
    (forall nd d v, hn h0 n = Some nd -> n_op nd = ORV d -> n_outs nd !! 1 = Some v -> S v) ->
    stage h0 st.1 -> log st.1 (tk_samplers st.2) cs ->
    let st' := call_finder B st (e, n) in
    stage h0 st'.1 /\ exists cs', log st'.1 (tk_samplers st'.2) cs'.
  Proof using Hg0 Houts.
    intros He Hn Hv Hst Hl. destruct st as [h t]. cbn [fst snd] in *. cbv zeta.
    destruct Hn as (w & i & Hw & Hwo). destruct (wf_owner h0 (proj1 Hg0) _ _ _ Hwo) as (nd & Hn0 & _).
    pose proof (proj2 (proj1 Hst) _ _ Hn0) as Hn1. unfold call_finder. rewrite Hn1.
    assert (Hid : stage h0 h /\ exists cs', log h (tk_samplers t) cs') by (split; [done|by exists cs]).
    destruct (n_op nd) as [d| | | | |] eqn:Hop; try done.
    destruct (n_outs nd !! 1) as [y|] eqn:Hy; [|done]. case_decide as Hd; [|done]. destruct Hd as [-> Hns].
    assert (Sy : S y) by (by eapply Hv).
    assert (Hsafe : safe_result h0 S h (e_finder e B h n)).
    { apply registered_safe; try done; [apply Hg0|by apply S_input|by apply S_some|].
      intros nd' y' H1 H2. assert (nd' = nd) by congruence. subst nd'. rewrite Hy in H2. by injection H2 as <-. }
    destruct (e_finder e B h n) as [h1 out] eqn:Hfi. destruct Hsafe as (E1 & S1 & _). cbn [fst] in E1, S1.
    assert (Hno : stage h0 h1 /\ exists cs', log h1 (tk_samplers t) cs').
    { split; [done|]. exists cs. by eapply log_later. }
    unfold sampler_finder_call. rewrite decide_False by done.
    destruct out as [[|e1 es]|ex]; cbn [rbind fst snd]; try done.
    split; [done|]. exists (cs ++ [CallRec h e n h1 (e1 :: es)]). destruct Hl as [L1 L2 L3]. split.
    - intros c [Hc| ->%elem_of_list_singleton]%elem_of_app; [eapply good_call_later; [done|by apply L1]|].
      split; cbn; try done; by exists nd, y.
    - intros l1 c l2 c' l3 Heq.
      destruct l3 as [|c3 l3 _] using rev_ind.
      + change (c :: l2 ++ [c']) with ((c :: l2) ++ [c']) in Heq. rewrite (assoc_L (++)) in Heq.
        apply app_inj_tail in Heq as [-> <-]. cbn [k_pre]. apply (L1 c). apply elem_of_app. right. by left.
      + replace (l1 ++ c :: l2 ++ c' :: l3 ++ [c3]) with ((l1 ++ c :: l2 ++ c' :: l3) ++ [c3]) in Heq.
        2:{ rewrite <- !(assoc_L (++)). cbn. by rewrite <- (assoc_L (++)). }
        apply app_inj_tail in Heq as [Heq _]. by eapply L2.
    - cbn [tk_samplers]. intros rv fs f Hd Hf. destruct (added _ _ _ _ _ _ Hd Hf) as [(fs0 & H1 & H2)|[H1 H2]].
      + destruct (L3 rv fs0 f H1 H2) as (c & Hc & Hr). exists c. split; [|done]. apply elem_of_app. by left.
      + eexists. split; [apply elem_of_app; right; by left|]. cbn. done.
  Qed.

  Lemma calls_log cs : forall st l,
    (forall e n, (e, n) ∈ cs -> e ∈ registered /\ node_reachable h0 outs n /\
       forall nd d v, hn h0 n = Some nd -> n_op nd = ORV d -> n_outs nd !! 1 = Some v -> S v) ->
    stage h0 st.1 -> log st.1 (tk_samplers st.2) l ->
    let st' := foldl (call_finder B) st cs in
    stage h0 st'.1 /\ exists l', log st'.1 (tk_samplers st'.2) l'.
  Proof using Hg0 Houts.
    induction cs as [|[e n] cs IH]; intros st l Hcs Hst Hl; [split; [done|by exists l]|]. cbn [foldl].
    destruct (Hcs e n ltac:(by left)) as (H1 & H2 & H3).
    destruct (call_log st e n l H1 H2 H3 Hst Hl) as [Hst' [l' Hl']].
    apply (IH _ l'); [intros; apply Hcs; by right|done|done].
  Qed.

  Lemma discover_log sched : sched_ok sched ->
    let r := discover B sched h0 outs in good_heap r.1 /\ extends h0 r.1 /\ exists cs, log r.1 r.2 cs.
  Proof using Hg0 Houts.
    intros Hs. unfold discover. cbv zeta.
    destruct (calls_log (sched h0 outs) (h0, new_tracker) []) as ([A1 A2] & [l Hl]).
    - intros e n Hin. by apply Hs.
    - split; [apply extends_refl|done].
    - split; [by intros c ?%elem_of_nil|by intros [|] ? ? ? ? ?|done].
    - destruct (foldl _ _ _) as [h1 t]. cbn [fst snd] in *. split; [done|]. split; [done|]. by exists l.
  Qed.

  (** what a call returns is computed from variables of the graph and from what the call made *)
  Lemma call_sources h c rv step ups : good_call h c -> (rv, step, ups) ∈ k_es c ->
    forall r, r ∈ step :: dkeys ups ++ dvalues ups -> sourced (k_pre c) S (k_post c) r.
  Proof using Hg0 Houts.
    intros [A1 A2 A3 A4 A5 (nd & y & Hn & Hop & Hy & Sy) A7] Hin.
    assert (Hsafe : safe_result (k_pre c) S (k_pre c) (e_finder (k_e c) B (k_pre c) (k_n c))).
    { apply registered_safe; [apply A1| | |split; [apply extends_refl|apply A1]| |done].
      - intros u w Hu Hi. apply (S_input h0 outs u w Hu). unfold input_of, parents in *.
        rewrite (extends_owner_old h0 (k_pre c) u (proj1 A1) (S_some h0 outs Hg0 Houts u Hu)) in Hi.
        destruct (owner h0 u) as [[m j]|] eqn:Ho; [|done].
        destruct (wf_owner h0 (proj1 Hg0) u m j Ho) as (md & Hmd & _).
        rewrite (proj2 (proj1 A1) _ _ Hmd) in Hi. by rewrite Hmd.
      - intros u Hu. eapply extends_some; [apply A1|]. by apply (S_some h0 outs Hg0 Houts).
      - intros nd' y' H1 H2. rewrite (proj2 (proj1 A1) _ _ Hn) in H1. injection H1 as <-. rewrite Hy in H2. by injection H2 as <-. }
    rewrite A7 in Hsafe. destruct Hsafe as (_ & _ & Hs). cbn [fst snd] in Hs.
    destruct (Hs _ eq_refl rv step ups Hin) as (B1 & _ & B3 & B4).
    intros r [->|[Hr|Hr]%elem_of_app]%elem_of_cons; [done|by apply B3|by apply B4].
  Qed.
End trace.
