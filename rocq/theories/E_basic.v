(** A concrete environment for construct_sampler (an IR database that changes
    nothing, a finder, a NUTS step) that meets the contracts for every heap, and
    decision procedures for heaps given by enumeration.  Used to show that the
    hypotheses of the theorems in P_basic.v are satisfiable. *)
From Verif Require Export L_total.

Definition rng_ty : vtype := VType true 0.
Definition ty_or (h : heap) (v : vid) : vtype := default (VType false 0) (ty_of h v).

(** a Gibbs finder: for the outputs drawn from a distribution in [kinds], a kernel
    applied to a new random generator and all the other variables *)
Definition ex_find1 (kinds : list nat) (outs : list vid) (st : heap * dict nat (list found)) (rv : vid)
    : heap * dict nat (list found) :=
  let '(h, fnd) := st in
  match owner_op h rv with
  | Some (ORV d) =>
      if decide (d ∈ kinds) then
        let '(h1, rng) := alloc_var h (Var None rng_ty (KShared None) None) in
        let '(h2, ws) := alloc_node h1 (OOther (10 + d)) (rng :: filter (fun u => u <> rv) outs)
                           [(None, rng_ty); (None, ty_or h rv)] in
        match ws with
        | rng' :: x :: _ => (h2, dset fnd rv [Found d x [(rng, rng')]])
        | _ => (h, fnd)
        end
      else (h, fnd)
  | _ => (h, fnd)
  end.

Definition ex_find (kinds : list nat) (h : heap) (outs : list vid) : heap * dict nat (list found) :=
  foldl (ex_find1 kinds outs) (h, []) outs.

(** one transition on all the variables that are left *)
Definition ex_nuts (h : heap) (ts re : dict nat nat) : heap * nuts_step :=
  let '(h1, rng) := alloc_var h (Var None rng_ty (KShared None) None) in
  let '(h2, eps) := alloc_var h1 (Var None (VType false 1) KPlain None) in
  let '(h3, mass) := alloc_var h2 (Var None (VType false 2) KPlain None) in
  let '(h4, ws) := alloc_node h3 (OOther 20) (rng :: eps :: mass :: dvalues ts ++ dvalues re)
                     ((None, rng_ty) :: map (fun v => (None, ty_or h v)) (dvalues ts)) in
  match ws with
  | rng' :: xs => (h4, NutsStep xs [(rng, rng')] (eps, mass))
  | [] => (h4, NutsStep [] [] (eps, mass))
  end.

Definition ex_ginputs (h : heap) (roots : list vid) : list vid :=
  filter (fun v => owner h v = None /\ is_Some (hv h v)) (elements (reach_set h roots)).

Definition ex_o (kinds : list nat) : oracles :=
  Oracles (fun h outs => (h, outs)) (ex_find kinds) (fun h roots => elements (fg_nodes h roots))
    (fun l => rev l) ex_nuts ex_ginputs 99.

(** ** The contracts hold *)
Lemma alloc_node_subsume_ok h op ins tys : (forall s a, op <> OSubsume s a) -> subsume_ok h ->
  subsume_ok (alloc_node h op ins tys).1.
Proof.
  intros Hop Hok n nd s args Hn He.
  destruct (alloc_node_spec h op ins tys) as (_ & _ & _ & _ & _ & _ & Hn' & Hm).
  destruct (decide (n = fresh (dom (h_nodes h)))) as [->|Hne].
  - rewrite Hn' in Hn. injection Hn as <-. cbn in He. by edestruct Hop.
  - rewrite Hm in Hn by done. by apply (Hok n nd s args).
Qed.

Lemma alloc_node_good h op ins tys : (forall s a, op <> OSubsume s a) ->
  (forall u, u ∈ ins -> is_Some (hv h u)) -> good_heap h -> good_heap (alloc_node h op ins tys).1.
Proof.
  intros Hop Hins (Hwf & Hac & Hok). split_and!.
  - by apply alloc_node_wf.
  - by apply alloc_node_acyclic.
  - by apply alloc_node_subsume_ok.
Qed.

Lemma alloc_var_good h x : v_owner x = None -> good_heap h -> good_heap (alloc_var h x).1.
Proof.
  intros Hx (Hwf & Hac & Hok). split_and!; [by apply alloc_var_wf|by apply alloc_var_acyclic|].
  intros n nd s args. rewrite alloc_var_hn. apply Hok.
Qed.

Lemma alloc_var_new h x : hv (alloc_var h x).1 (alloc_var h x).2 = Some x.
Proof. rewrite hv_alloc_var. by rewrite decide_True. Qed.

Lemma alloc_node_outs_some h op ins tys v : v ∈ (alloc_node h op ins tys).2 -> is_Some (hv (alloc_node h op ins tys).1 v).
Proof. intros Hv. destruct (alloc_node_out_some h op ins tys v Hv) as (? & ? & ? & _ & _ & ->). by eauto. Qed.

Section find.
  Context (kinds : list nat) (h0 : heap) (outs : list vid).
  Hypothesis Hg0 : good_heap h0.
  Hypothesis Houts : forall r, r ∈ outs -> is_Some (hv h0 r).

  Definition find_ok (st : heap * dict nat (list found)) : Prop :=
    extends h0 st.1 /\ good_heap st.1 /\
    forall rv fs f, dget st.2 rv = Some fs -> f ∈ fs ->
      (forall r, r ∈ roots_of f -> is_Some (hv st.1 r)) /\
      NoDup (dkeys (f_updates f)) /\
      (forall k, k ∈ dkeys (f_updates f) -> owner st.1 k = None) /\
      (forall u, reachable st.1 (roots_of f) u -> reachable h0 outs u \/ hv h0 u = None \/ owner h0 u = None) /\
      ty_of st.1 (f_step f) = ty_of st.1 rv /\ is_Some (hv st.1 rv).

  Lemma find1_ok st rv : find_ok st -> find_ok (ex_find1 kinds outs st rv).
  Proof.
    destruct st as [h fnd]. intros (Hex & Hg & Hf). cbn [fst snd] in *. unfold ex_find1.
    destruct (owner_op h rv) as [[d| | | | |]|] eqn:Hop; try done. case_decide; [|done].
    set (x0 := Var None rng_ty (KShared None) None).
    assert (Hrvs : is_Some (hv h rv)).
    { unfold owner_op, owner in Hop. destruct (hv h rv); [by eauto|done]. }
    pose proof (alloc_var_extends h x0) as Hex1. pose proof (alloc_var_good h x0 eq_refl Hg) as Hg1.
    pose proof (alloc_var_new h x0) as Hnew. pose proof (alloc_var_fresh h x0) as Hfr.
    destruct (alloc_var h x0) as [h1 rng]. cbn [fst snd] in *.
    set (ins := rng :: filter (fun u => u <> rv) outs).
    assert (Hins : forall u, u ∈ ins -> is_Some (hv h1 u)).
    { intros u [->|Hu]%elem_of_cons; [by eauto|]. apply elem_of_list_filter in Hu as [_ Hu].
      eapply extends_some; [done|]. eapply extends_some; [done|]. by apply Houts. }
    pose proof (alloc_node_extends h1 (OOther (10 + d)) ins [(None, rng_ty); (None, ty_or h rv)]) as Hex2.
    pose proof (alloc_node_good h1 (OOther (10 + d)) ins [(None, rng_ty); (None, ty_or h rv)] ltac:(done) Hins Hg1) as Hg2.
    pose proof (alloc_node_spec h1 (OOther (10 + d)) ins [(None, rng_ty); (None, ty_or h rv)]) as (Hlen & _ & Hfresh & Hval & _).
    pose proof (fun v u => alloc_node_reachable h1 (OOther (10 + d)) ins [(None, rng_ty); (None, ty_or h rv)] Hins (proj1 Hg1) v u) as Hre.
    pose proof (alloc_node_outs_some h1 (OOther (10 + d)) ins [(None, rng_ty); (None, ty_or h rv)]) as Hos.
    destruct (alloc_node h1 (OOther (10 + d)) ins [(None, rng_ty); (None, ty_or h rv)]) as [h2 ws]. cbn [fst snd] in *.
    destruct ws as [|rng' [|x [|? ?]]]; try done.
    assert (Hexh : extends h h2) by (by eapply extends_trans).
    split; [by eapply extends_trans|]. split; [done|]. cbn [fst snd].
    intros r fs f Hgf Hin. rewrite dget_dset in Hgf. case_decide as Hd.
    - injection Hgf as <-. apply elem_of_list_singleton in Hin as ->. subst r.
      unfold roots_of. cbn [f_step f_updates].
      change (dkeys [(rng, rng')]) with [rng]. change (dvalues [(rng, rng')]) with [rng'].
      assert (Hrngo : owner h2 rng = None).
      { unfold owner. rewrite (proj1 Hex2 rng x0 Hnew). done. }
      split_and!.
      + intros r Hr. repeat (apply elem_of_cons in Hr as [->|Hr]); [apply Hos; right; by left| |apply Hos; by left|by apply elem_of_nil in Hr].
        eapply extends_some; [exact Hex2|]. by exists x0.
      + apply NoDup_singleton.
      + intros k ->%elem_of_list_singleton. exact Hrngo.
      + intros u Hu.
        assert (Hc : u = x \/ u = rng \/ u = rng' \/ reachable h1 ins u).
        { destruct Hu as (r & Hr & Hru).
          assert (Hr1 : reachable h2 [r] u) by (exists r; split; [by left|done]).
          repeat (apply elem_of_cons in Hr as [->|Hr]); [| | |by apply elem_of_nil in Hr].
          - apply Hre in Hr1; [tauto|set_solver].
          - apply rtc_inv in Hru as [->|(w & Hw & _)]; [tauto|]. unfold input_of, parents in Hw. rewrite Hrngo in Hw. by apply elem_of_nil in Hw.
          - apply Hre in Hr1; [tauto|set_solver]. }
        assert (Hno : forall v, hv h v = None -> hv h0 v = None).
        { intros v Hv. destruct (hv h0 v) as [y|] eqn:Hy; [|done]. apply Hex in Hy. congruence. }
        assert (Hno1 : forall v, hv h1 v = None -> hv h0 v = None).
        { intros v Hv. apply Hno. destruct (hv h v) as [y|] eqn:Hy; [|done]. apply Hex1 in Hy. congruence. }
        destruct Hc as [->|[->|[->|Hc]]].
        * right; left. apply Hno1, Hfresh. set_solver.
        * right; left. by apply Hno.
        * right; left. apply Hno1, Hfresh. set_solver.
        * unfold ins in Hc. apply reachable_cons in Hc as [(r & Hr & Hru)|Hc].
          -- apply elem_of_list_singleton in Hr as ->. apply rtc_inv in Hru as [->|(w & Hw & _)]; [right; left; by apply Hno|].
             unfold input_of, parents, owner in Hw. rewrite Hnew in Hw. by apply elem_of_nil in Hw.
          -- left. apply (extends_reachable_list h0 h1 outs u (proj1 Hg0)); [by eapply extends_trans|done|].
             eapply reachable_mono; [|done]. intros v Hv. by apply elem_of_list_filter in Hv as [_ Hv].
      + unfold ty_of at 1. rewrite (Hval 1 x None (ty_or h rv) eq_refl eq_refl). cbn.
        rewrite (extends_ty h h2 rv Hexh Hrvs). unfold ty_or, ty_of. destruct Hrvs as [y ->]. done.
      + by eapply extends_some.
    - destruct (Hf r fs f Hgf Hin) as (A1 & A2 & A3 & A4 & A5 & A6).
      split_and!.
      + intros r0 Hr0. eapply extends_some; [done|]. by apply A1.
      + done.
      + intros k Hk. rewrite (extends_owner_old h h2); [by apply A3|done|]. apply A1. unfold roots_of. right.
        apply elem_of_app. by left.
      + intros u Hu. apply A4. by apply (extends_reachable_list h h2 _ u (proj1 Hg) Hexh A1).
      + rewrite !(extends_ty h h2); try done. apply A1. by left.
      + by eapply extends_some.
  Qed.

  Lemma find_all_ok l : forall st, find_ok st -> find_ok (foldl (ex_find1 kinds outs) st l).
  Proof. induction l as [|rv l IH]; intros st Hst; [done|]. cbn. by apply IH, find1_ok. Qed.

  Lemma find_start : find_ok (ex_find kinds h0 outs).
  Proof. apply find_all_ok. split; [apply extends_refl|]. split; [done|]. by intros ? ? ? ?. Qed.
End find.

Lemma nuts_ok h ts re : good_heap h -> (forall v, v ∈ dvalues ts ++ dvalues re -> is_Some (hv h v)) ->
  extends h (ex_nuts h ts re).1 /\ good_heap (ex_nuts h ts re).1 /\
  length (ns_results (ex_nuts h ts re).2) = length ts /\
  (forall v, v ∈ ns_results (ex_nuts h ts re).2 ++ dvalues (ns_updates (ex_nuts h ts re).2) ->
     is_Some (hv (ex_nuts h ts re).1 v)) /\
  (exists rng rng', ns_updates (ex_nuts h ts re).2 = [(rng, rng')] /\
     is_shared (ex_nuts h ts re).1 rng = true /\ owner (ex_nuts h ts re).1 rng = None /\
     input_of (ex_nuts h ts re).1 rng' rng).
Proof.
  intros Hg Hv. unfold ex_nuts.
  set (x1 := Var None rng_ty (KShared None) None).
  pose proof (alloc_var_extends h x1) as Hex1. pose proof (alloc_var_good h x1 eq_refl Hg) as Hg1.
  pose proof (alloc_var_new h x1) as Hn1. destruct (alloc_var h x1) as [h1 rng]. cbn [fst snd] in *.
  set (x2 := Var None (VType false 1) KPlain None).
  pose proof (alloc_var_extends h1 x2) as Hex2. pose proof (alloc_var_good h1 x2 eq_refl Hg1) as Hg2.
  pose proof (alloc_var_new h1 x2) as Hn2. destruct (alloc_var h1 x2) as [h2 eps]. cbn [fst snd] in *.
  set (x3 := Var None (VType false 2) KPlain None).
  pose proof (alloc_var_extends h2 x3) as Hex3. pose proof (alloc_var_good h2 x3 eq_refl Hg2) as Hg3.
  pose proof (alloc_var_new h2 x3) as Hn3. destruct (alloc_var h2 x3) as [h3 mass]. cbn [fst snd] in *.
  set (ins := rng :: eps :: mass :: dvalues ts ++ dvalues re).
  set (tys := (None, rng_ty) :: map (fun v => (None, ty_or h v)) (dvalues ts)).
  assert (Hh3 : extends h h3) by eauto using extends_trans.
  assert (Hins : forall u, u ∈ ins -> is_Some (hv h3 u)).
  { intros u. unfold ins. rewrite !elem_of_cons. intros [->|[->|[->|Hu]]].
    - exists x1. by apply Hex3, Hex2.
    - exists x2. by apply Hex3.
    - by exists x3.
    - eapply extends_some; [done|]. by apply Hv. }
  pose proof (alloc_node_extends h3 (OOther 20) ins tys) as Hex4.
  pose proof (alloc_node_good h3 (OOther 20) ins tys ltac:(done) Hins Hg3) as Hg4.
  pose proof (alloc_node_spec h3 (OOther 20) ins tys) as (Hlen & _).
  pose proof (alloc_node_outs_some h3 (OOther 20) ins tys) as Hos.
  pose proof (alloc_node_parents h3 (OOther 20) ins tys) as Hpar.
  destruct (alloc_node h3 (OOther 20) ins tys) as [h4 ws]. cbn [fst snd] in *.
  destruct ws as [|rng' xs]; [done|]. cbn [fst snd ns_results ns_updates].
  split_and!; [by eauto using extends_trans|done| | |].
  - cbn in Hlen. rewrite map_length in Hlen. unfold dvalues in Hlen. rewrite map_length in Hlen. lia.
  - change (dvalues [(rng, rng')]) with [rng']. intros v. rewrite elem_of_app, elem_of_list_singleton. intros Hin. apply Hos. set_solver.
  - exists rng, rng'. assert (Hr4 : hv h4 rng = Some x1) by (apply Hex4, Hex3, Hex2; done).
    split_and!; [done| | |].
    + unfold is_shared. by rewrite Hr4.
    + unfold owner. by rewrite Hr4.
    + unfold input_of. rewrite Hpar by (by left). unfold ins. by left.
Qed.

Lemma ex_contracts kinds : contracts (ex_o kinds).
Proof.
  constructor; cbn [o_canon o_finders o_order o_iter o_nuts o_ginputs ex_o].
  - intros h outs Hg _ Hr. cbn. split_and!; try done; [by eauto|by left].
  - intros h outs Hg Hr. destruct (find_start kinds h outs Hg Hr) as (A & B & C). split_and!; [done..|].
    intros rv fs f H1 H2. destruct (C rv fs f H1 H2) as (? & ? & ? & ? & _). done.
  - intros h roots n. rewrite elem_of_elements. apply elem_of_fg_nodes.
  - intros l. symmetry. apply Permutation_rev.
  - intros h ts re Hg Hv. destruct (nuts_ok h ts re Hg Hv) as (? & ? & ? & ? & _). done.
  - intros h roots v _ _ Hv. by apply elem_of_list_filter in Hv as [[_ ?] _].
Qed.

(** ** Heaps given by enumeration *)
Definition opt_is {A} `{EqDecision A} (x : option A) (y : A) : bool := bool_decide (x = Some y).

Definition sargs_ok (args : list sarg) (k : nat) : bool :=
  forallb (fun a => match a with SIn i _ => bool_decide (i < k) | SConst _ _ => true end) args.

Definition op_ok (nd : node) : bool :=
  match n_op nd with
  | OSubsume _ args => bool_decide (length (n_outs nd) = 1) && sargs_ok args (length (n_ins nd))
  | _ => true
  end.

Definition heap_check (h : heap) : bool :=
  forallb (fun p => match v_owner p.2 with
                    | Some (n, i) => match hn h n with Some nd => opt_is (n_outs nd !! i) p.1 | None => false end
                    | None => true end) (map_to_list (h_vars h)) &&
  forallb (fun p => forallb (fun u => bool_decide (is_Some (hv h u))) (n_ins p.2) &&
                    forallb (fun q => opt_is (owner h q.2) (p.1, q.1)) (imap (fun i v => (i, v)) (n_outs p.2)) &&
                    forallb (fun v => forallb (fun u => bool_decide (u < v)) (n_ins p.2)) (n_outs p.2) &&
                    op_ok p.2) (map_to_list (h_nodes h)).

Lemma heap_check_good h : heap_check h = true -> good_heap h.
Proof.
  unfold heap_check. rewrite andb_true_iff, !forallb_forall. intros [Hv Hn].
  assert (Hv' : forall v x n i, hv h v = Some x -> v_owner x = Some (n, i) ->
      exists nd, hn h n = Some nd /\ n_outs nd !! i = Some v).
  { intros v x n i Hx Ho. specialize (Hv (v, x)). cbn in Hv. rewrite Ho in Hv.
    destruct (hn h n) as [nd|].
    - exists nd. split; [done|]. apply (bool_decide_eq_true_1 (n_outs nd !! i = Some v)). apply Hv. by apply elem_of_list_In, elem_of_map_to_list.
    - discriminate Hv. by apply elem_of_list_In, elem_of_map_to_list. }
  assert (Hn' : forall n nd, hn h n = Some nd ->
     (forall u, u ∈ n_ins nd -> is_Some (hv h u)) /\
     (forall i v, n_outs nd !! i = Some v -> owner h v = Some (n, i)) /\
     (forall v u, v ∈ n_outs nd -> u ∈ n_ins nd -> u < v) /\ op_ok nd = true).
  { intros n nd Hnd. specialize (Hn (n, nd)). cbn in Hn.
    rewrite !andb_true_iff, !forallb_forall in Hn. destruct Hn as [[[H1 H2] H3] H4].
    { by apply elem_of_list_In, elem_of_map_to_list. }
    split_and!; [| | |done].
    - intros u Hu. apply elem_of_list_In in Hu. apply H1 in Hu. by apply bool_decide_eq_true in Hu.
    - intros i v Hi. specialize (H2 (i, v)). apply (bool_decide_eq_true_1 (owner h v = Some (n, i))). apply H2.
      apply elem_of_list_In, elem_of_lookup_imap. by exists i, v.
    - intros v u Hv1 Hu. apply elem_of_list_In in Hv1, Hu. specialize (H3 _ Hv1). rewrite forallb_forall in H3.
      specialize (H3 _ Hu). by apply bool_decide_eq_true in H3. }
  assert (Hlt : forall v u, input_of h v u -> u < v).
  { intros v u. unfold input_of, parents. destruct (owner h v) as [[n i]|] eqn:Ho; [|by intros ?%elem_of_nil].
    destruct (hn h n) as [nd|] eqn:Hnd; [|by intros ?%elem_of_nil]. intros Hu.
    unfold owner in Ho. destruct (hv h v) as [x|] eqn:Hx; [|done]. cbn in Ho.
    destruct (Hv' v x n i Hx Ho) as (nd' & Hnd' & Hi). rewrite Hnd in Hnd'. injection Hnd' as <-.
    apply (Hn' n nd Hnd); [|done]. by eapply elem_of_list_lookup_2. }
  split_and!.
  - constructor.
    + intros v n i Ho. unfold owner in Ho. destruct (hv h v) as [x|] eqn:Hx; [|done]. by apply (Hv' v x).
    + intros n nd u Hnd Hu. by apply (Hn' n nd Hnd).
    + intros n nd i u Hnd Hi. by apply (Hn' n nd Hnd).
  - assert (Htc : forall v u, tc (input_of h) v u -> u < v).
    { intros v u Ht. induction Ht as [v u Hs|v w u Hs _ IH]; [by apply Hlt|]. apply Hlt in Hs. lia. }
    intros v Ht. apply Htc in Ht. lia.
  - intros n nd s args Hnd Hop. destruct (Hn' n nd Hnd) as (_ & _ & _ & H4). unfold op_ok in H4. rewrite Hop in H4.
    apply andb_true_iff in H4 as [H5 H6]. apply bool_decide_eq_true in H5. split.
    + destruct (n_outs nd) as [|o [|? ?]]; try done. by exists o.
    + intros k ord Hk. unfold sargs_ok in H6. rewrite forallb_forall in H6. apply elem_of_list_In in Hk.
      specialize (H6 _ Hk). by apply bool_decide_eq_true in H6.
Qed.

Fixpoint order_check (h : heap) (seen ns : list nid) : bool :=
  match ns with
  | [] => true
  | n :: ns' =>
      match hn h n with
      | Some nd => forallb (fun u => match owner h u with Some (m, _) => bool_decide (m ∈ seen) | None => true end) (n_ins nd)
      | None => true
      end && order_check h (seen ++ [n]) ns'
  end.

Lemma order_check_spec h ns : forall seen, order_check h seen ns = true ->
  forall l1 n l2 nd u m i, ns = l1 ++ n :: l2 -> hn h n = Some nd -> u ∈ n_ins nd ->
    owner h u = Some (m, i) -> m ∈ seen ++ l1.
Proof.
  induction ns as [|n0 ns IH]; intros seen Hc l1 n l2 nd u m i He Hn Hu Ho; [by destruct l1|].
  cbn in Hc. apply andb_true_iff in Hc as [H1 H2]. destruct l1 as [|a l1]; cbn in He; injection He as -> ->.
  - rewrite Hn, forallb_forall in H1. apply elem_of_list_In in Hu. specialize (H1 _ Hu). rewrite Ho in H1.
    apply bool_decide_eq_true in H1. by rewrite app_nil_r.
  - specialize (IH _ H2 l1 n l2 nd u m i eq_refl Hn Hu Ho). by rewrite <- app_assoc in IH.
Qed.

Definition topo_check (h : heap) (roots : list vid) (ns : list nid) : bool :=
  bool_decide (NoDup ns) && same_elements ns (elements (fg_nodes h roots)) && order_check h [] ns.

Lemma topo_check_spec h roots ns : topo_check h roots ns = true -> topo_order h roots ns.
Proof.
  unfold topo_check. rewrite !andb_true_iff. intros [[H1 H2] H3]. split.
  - split; [by apply bool_decide_eq_true in H1|]. intros n.
    rewrite (same_elements_spec _ _ H2 n), elem_of_elements. apply elem_of_fg_nodes.
  - intros l1 n l2 nd u m i He Hn Hu Ho. by apply (order_check_spec h ns [] H3 l1 n l2 nd u m i).
Qed.

Definition shuffles_check (h : heap) : bool :=
  forallb (fun p : nid * node => match n_op p.2 with
    | ODimShuffle _ => match n_ins p.2, n_outs p.2 with [_], [_] => true | _, _ => false end
    | _ => true end) (map_to_list (h_nodes h)) &&
  forallb (fun p : vid * var => match v_kind p.2, v_owner p.2 with KConst _, Some _ => false | _, _ => true end)
    (map_to_list (h_vars h)).

Lemma shuffles_check_ok h : shuffles_check h = true -> shuffles_ok h.
Proof.
  unfold shuffles_check. rewrite andb_true_iff, !forallb_forall. intros [H1 H2]. split.
  - intros n nd o Hn Hop. specialize (H1 (n, nd)). cbn in H1. rewrite Hop in H1.
    assert (H : match n_ins nd, n_outs nd with [_], [_] => true | _, _ => false end = true).
    { apply H1. by apply elem_of_list_In, elem_of_map_to_list. }
    destruct (n_ins nd) as [|x [|]]; try done. destruct (n_outs nd) as [|v [|]]; try done. by eauto.
  - intros v x c Hv Hk. specialize (H2 (v, x)). cbn in H2. rewrite Hk in H2.
    assert (H : match v_owner x with Some _ => false | None => true end = true).
    { apply H2. by apply elem_of_list_In, elem_of_map_to_list. }
    by destruct (v_owner x).
Qed.

(** the caller's model, checked by computation *)
Definition model_check (h : heap) (obs : dict nat nat) (topo : list nid) : bool :=
  heap_check h && shuffles_check h &&
  forallb (fun p => match n_op p.2 with OSubsume _ _ => false | _ => true end) (map_to_list (h_nodes h)) &&
  bool_decide (NoDup (dkeys obs)) && bool_decide (dkeys obs ⊆ rv_outputs h topo) &&
  forallb (fun v => bool_decide (is_Some (hv h v)) && bool_decide (owner h v = None)) (dvalues obs) &&
  forallb (fun v => bool_decide (v ∉ rv_outputs h topo)) (dvalues obs).

Lemma model_check_ok h obs topo :
  topo_order h (dkeys obs) topo -> model_check h obs topo = true -> model_ok h obs.
Proof.
  intros Ht. unfold model_check. rewrite !andb_true_iff, !forallb_forall. intros [[[[[[H1 Hs] H2] H3] H4] H5] H6].
  apply bool_decide_eq_true in H3, H4.
  assert (H5' : forall v, v ∈ dvalues obs -> is_Some (hv h v) /\ owner h v = None).
  { intros v Hv. apply elem_of_list_In in Hv. specialize (H5 _ Hv). apply andb_true_iff in H5 as [A B].
    by apply bool_decide_eq_true in A, B. }
  constructor.
  - by apply heap_check_good.
  - by apply shuffles_check_ok.
  - intros n _ (nd & s & args & Hn & Hop). specialize (H2 (n, nd)). cbn in H2. rewrite Hop in H2.
    discriminate H2. by apply elem_of_list_In, elem_of_map_to_list.
  - done.
  - intros k Hk. apply (rv_outputs_spec h obs topo Ht). by apply H4.
  - intros v Hv. by apply H5'.
  - intros v rv Hv Hrv (r & Hr & Hru). apply elem_of_list_singleton in Hr as ->.
    apply rtc_inv in Hru as [->|(w & Hw & _)].
    + apply elem_of_list_In in Hv. specialize (H6 _ Hv). apply bool_decide_eq_true in H6. apply H6.
      by apply (rv_outputs_spec h obs topo Ht).
    + unfold input_of, parents in Hw. rewrite (proj2 (H5' _ Hv)) in Hw. by apply elem_of_nil in Hw.
  - intros v Hv _. by apply H5'.
Qed.
