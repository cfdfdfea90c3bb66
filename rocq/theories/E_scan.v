(** Tools to exhibit concrete cases for the systematic-scan theorem: an evaluator,
    a check of separation, and a finder whose samplers share a node. *)
From Verif Require Export E_basic.

Section eval_fuel.
  Context {D : Type} (base : op -> list D -> option (list D)) (cval : nat -> D).
  Context (h : heap) (rho : vid -> option D).

  Fixpoint eval (fuel : nat) (v : vid) : option D :=
    match rho v with
    | Some x => Some x
    | None =>
        match fuel with
        | 0 => None
        | S k =>
            w ← hv h v;
            match v_owner w with
            | None => match v_kind w with KConst c => Some (cval c) | _ => None end
            | Some (n, i) =>
                nd ← hn h n; xs ← mapM (eval k) (n_ins nd); ys ← sem base cval (n_op nd) xs; ys !! i
            end
        end
    end.

  Lemma eval_sound fuel : forall v x, eval fuel v = Some x -> evals base cval h rho v x.
  Proof.
    induction fuel as [|k IH]; intros v x; cbn; destruct (rho v) as [y|] eqn:Hr.
    - intros. simplify_eq. by apply ev_given.
    - done.
    - intros. simplify_eq. by apply ev_given.
    - destruct (hv h v) as [w|] eqn:Hw; [|done]. cbn. destruct (v_owner w) as [[n i]|] eqn:Ho.
      + destruct (hn h n) as [nd|] eqn:Hn; [|done]. cbn.
        destruct (mapM (eval k) (n_ins nd)) as [xs|] eqn:Hm; [|done]. cbn.
        destruct (sem base cval (n_op nd) xs) as [ys|] eqn:Hs; [|done]. cbn. intros Hi.
        eapply ev_app; [done| |done| |done|done].
        * unfold owner. rewrite Hw. cbn. done.
        * apply evals_list_Forall2. apply mapM_Some in Hm. eapply Forall2_impl; [exact Hm|]. exact IH.
      + destruct (v_kind w) eqn:Hk; try done. intros. simplify_eq. by eapply ev_const.
  Qed.
End eval_fuel.

(** free terms: [T k i l] is output [i] of operator number [k] applied to [l] *)
Inductive tm := L (v : nat) | C (c : nat) | T (k i : nat) (l : list tm).

Definition tm_base (o : op) (xs : list tm) : option (list tm) :=
  let k := match o with ORV d => d | OElem s => 100 + s | OOther k => 200 + k | _ => 1000 end in
  Some [T k 0 xs; T k 1 xs; T k 2 xs; T k 3 xs].

Definition leaves (h : heap) (v : vid) : option tm :=
  match hv h v with Some (Var _ _ KPlain None) => Some (L v) | Some (Var _ _ (KShared _) None) => Some (L v) | _ => None end.

Lemma leaves_env h : leaf_env h (leaves h).
Proof.
  intros v [x Hx]. unfold leaves in Hx. unfold owner. destruct (hv h v) as [[nm ty k [p|]]|]; [by destruct k| |done].
  split; [by eauto|done].
Qed.

(** ** Checking separation *)
Section cut.
  Context (h : heap) (V : list vid).
  Definition cut_parents (v : vid) : list vid := if decide (v ∈ V) then [] else parents h v.
  Fixpoint cut_iter (fuel : nat) (l : list vid) : list vid :=
    match fuel with 0 => l | S k => cut_iter k (remove_dups (l ++ (l ≫= cut_parents))) end.
  Definition cut_closed (l : list vid) : bool :=
    forallb (fun v => forallb (fun u => bool_decide (u ∈ l)) (cut_parents v)) l.

  Lemma cut_closed_spec roots l v : forallb (fun r => bool_decide (r ∈ l)) roots = true -> cut_closed l = true ->
    cut_reachable h V roots v -> v ∈ l.
  Proof.
    intros Hr Hc Hv. induction Hv as [r Hin|v u Hv IH Hn Hu].
    - rewrite forallb_forall in Hr. apply elem_of_list_In in Hin. apply Hr in Hin. by apply bool_decide_eq_true in Hin.
    - unfold cut_closed in Hc. rewrite forallb_forall in Hc. apply elem_of_list_In in IH. specialize (Hc _ IH).
      rewrite forallb_forall in Hc. unfold cut_parents in Hc. rewrite decide_False in Hc by done.
      apply elem_of_list_In in Hu. specialize (Hc _ Hu). by apply bool_decide_eq_true in Hc.
  Qed.

  (** the case of different kernels *)
  Definition sep_check (f g : found) : bool :=
    let l := cut_iter 20 (roots_of g) in
    forallb (fun r => bool_decide (r ∈ l)) (roots_of g) && cut_closed l &&
    bool_decide (fst <$> owner h (f_step f) <> fst <$> owner h (f_step g)) &&
    forallb (fun v => if decide (v ∈ V) then true else
               match owner h v with
               | Some (m, _) => negb (reads_b h V m && bool_decide (m ∈ fg_nodes h (roots_of f)))
               | None => true
               end) l.

  Lemma sep_check_spec f g : sep_check f g = true -> separated h V f g.
  Proof.
    unfold sep_check. rewrite !andb_true_iff. intros [[[H1 H2] H3] H4] n i Ho. apply bool_decide_eq_true in H3. split.
    - intros [j Hj]. rewrite Ho, Hj in H3. done.
    - intros _ v m j Hv HvV Hm Hr Hn. pose proof (cut_closed_spec _ _ _ H1 H2 Hv) as Hin.
      rewrite forallb_forall in H4. apply elem_of_list_In in Hin. specialize (H4 _ Hin).
      rewrite decide_False in H4 by done. rewrite Hm in H4. apply negb_true_iff, andb_false_iff in H4 as [H4|H4].
      + apply reads_b_spec in Hr. rewrite Hr in H4. discriminate H4.
      + apply bool_decide_eq_false in H4. apply H4. by apply elem_of_fg_nodes.
  Qed.
End cut.

(** ** New nodes built on the variables of the function graph *)
Record grown (h0 : heap) (outs : list vid) (h : heap) : Prop := Grown {
  gr_ext : extends h0 h;
  gr_good : good_heap h;
  gr_reach : forall v u, hv h0 v = None -> is_Some (hv h v) -> reachable h [v] u ->
    reachable h0 outs u \/ hv h0 u = None \/ owner h0 u = None;
}.

Lemma grown_refl h outs : good_heap h -> grown h outs h.
Proof. intros Hg. constructor; [apply extends_refl|done|]. intros v u Hv [x Hx]. congruence. Qed.

Lemma extends_none h h' v : extends h h' -> hv h' v = None -> hv h v = None.
Proof. intros [Hv _] Hn. destruct (hv h v) as [x|] eqn:Hx; [|done]. apply Hv in Hx. congruence. Qed.

Lemma grown_var h0 outs h x : v_owner x = None -> grown h0 outs h -> grown h0 outs (alloc_var h x).1.
Proof.
  intros Hx [He Hg Hr]. pose proof (alloc_var_extends h x) as He1. constructor.
  - by eapply extends_trans.
  - by apply alloc_var_good.
  - intros v u Hv0 [y Hv] Hu. rewrite hv_alloc_var in Hv. case_decide as Hd.
    + destruct Hu as (r & Hrr & Hru). apply elem_of_list_singleton in Hrr as ->.
      apply rtc_inv in Hru as [<-|(w & Hw & _)]; [by right; left|].
      unfold input_of, parents, owner in Hw. rewrite hv_alloc_var, decide_True in Hw by done. cbn in Hw. rewrite Hx in Hw.
      by apply elem_of_nil in Hw.
    + apply (Hr v u Hv0); [by eauto|]. apply (extends_reachable h (alloc_var h x).1 v u); [apply Hg|done|by eauto|done].
Qed.

Lemma grown_node h0 outs h op ins tys : good_heap h0 -> (forall r, r ∈ outs -> is_Some (hv h0 r)) ->
  (forall s a, op <> OSubsume s a) ->
  (forall u, u ∈ ins -> u ∈ outs \/ (hv h0 u = None /\ is_Some (hv h u))) ->
  grown h0 outs h -> grown h0 outs (alloc_node h op ins tys).1.
Proof.
  intros Hg0 Houts Hop Hins [He Hg Hr].
  assert (Hins' : forall u, u ∈ ins -> is_Some (hv h u)).
  { intros u Hu. destruct (Hins u Hu) as [Hu'|[_ ?]]; [|done]. eapply extends_some; [done|]. by apply Houts. }
  pose proof (alloc_node_extends h op ins tys) as He1. constructor.
  - by eapply extends_trans.
  - by apply alloc_node_good.
  - intros v u Hv0 Hv Hu. destruct (decide (v ∈ (alloc_node h op ins tys).2)) as [Hin|Hin].
    + apply alloc_node_reachable in Hu as [->|(r & Hrin & Hru)]; [by right; left| |done|by apply Hg|done].
      destruct (Hins r Hrin) as [Hro|[Hn Hs]].
      * left. apply (extends_reachable_list h0 h outs u); [apply Hg0|done|done|]. by exists r.
      * apply (Hr r u Hn Hs). exists r. split; [by left|done].
    + destruct (alloc_node_spec h op ins tys) as (_ & _ & _ & _ & Hold & _). rewrite Hold in Hv by done.
      apply (Hr v u Hv0 Hv). apply (extends_reachable h (alloc_node h op ins tys).1 v u); [apply Hg|done|done|done].
Qed.

(** a finder that builds one statistic of the first two variables and two kernels on it *)
Definition shared_find (h : heap) (outs : list vid) : heap * dict nat (list found) :=
  match outs with
  | a :: b :: _ =>
      let '(h1, q) := alloc_node h (OElem 5) [a; b] [(None, VType false 5)] in
      let '(h2, ka) := alloc_node h1 (OOther 1) q [(None, ty_or h a)] in
      let '(h3, kb) := alloc_node h2 (OOther 2) q [(None, ty_or h b)] in
      match ka, kb with
      | [x], [y] => (h3, [(a, [Found 1 x []]); (b, [Found 2 y []])])
      | _, _ => (h, [])
      end
  | _ => (h, [])
  end.

Definition shared_o : oracles :=
  Oracles (fun h outs => (h, outs)) shared_find (fun h roots => elements (fg_nodes h roots))
    (fun l => rev l) ex_nuts ex_ginputs 99.

Lemma shared_contracts : contracts shared_o.
Proof.
  constructor; cbn [o_canon o_finders o_order o_iter o_nuts o_ginputs shared_o].
  - apply (ct_canon _ (ex_contracts [])).
  - intros h outs Hg Hr. unfold shared_find.
    assert (Htriv : extends h (h, @nil (nat * list found)).1 /\ good_heap (h, @nil (nat * list found)).1 /\
      forall rv fs f, dget (h, @nil (nat * list found)).2 rv = Some fs -> f ∈ fs ->
      (forall r, r ∈ roots_of f -> is_Some (hv (h, @nil (nat * list found)).1 r)) /\
      NoDup (dkeys (f_updates f)) /\
      (forall k, k ∈ dkeys (f_updates f) -> owner (h, @nil (nat * list found)).1 k = None) /\
      (forall u, reachable (h, @nil (nat * list found)).1 (roots_of f) u ->
          reachable h outs u \/ hv h u = None \/ owner h u = None)).
    { split_and!; [apply extends_refl|done|]. intros rv fs f Hd. done. }
    destruct outs as [|a [|b outs']]; [done|done|].
    set (outs := a :: b :: outs') in *.
    pose proof (grown_refl h outs Hg) as G0.
    set (t1 := [(@None string, VType false 5)]).
    assert (G1 : grown h outs (alloc_node h (OElem 5) [a; b] t1).1).
    { apply grown_node; try done. intros u Hu. left. unfold outs. set_solver. }
    pose proof (alloc_node_outs_some h (OElem 5) [a; b] t1) as S1.
    pose proof (alloc_node_spec h (OElem 5) [a; b] t1) as (_ & _ & F1 & _).
    destruct (alloc_node h (OElem 5) [a; b] t1) as [h1 q]. cbn [fst snd] in *.
    set (t2 := [(@None string, ty_or h a)]).
    assert (Hq1 : forall u, u ∈ q -> u ∈ outs \/ hv h u = None /\ is_Some (hv h1 u)).
    { intros u Hu. right. split; [by apply F1|by apply S1]. }
    assert (G2 : grown h outs (alloc_node h1 (OOther 1) q t2).1) by (by apply grown_node).
    pose proof (alloc_node_outs_some h1 (OOther 1) q t2) as S2.
    pose proof (alloc_node_spec h1 (OOther 1) q t2) as (_ & _ & F2 & _).
    pose proof (alloc_node_extends h1 (OOther 1) q t2) as E2.
    destruct (alloc_node h1 (OOther 1) q t2) as [h2 ka]. cbn [fst snd] in *.
    set (t3 := [(@None string, ty_or h b)]).
    assert (G3 : grown h outs (alloc_node h2 (OOther 2) q t3).1).
    { apply grown_node; try done. intros u Hu. right. split; [by apply F1|]. eapply extends_some; [done|]. by apply S1. }
    pose proof (alloc_node_outs_some h2 (OOther 2) q t3) as S3.
    pose proof (alloc_node_spec h2 (OOther 2) q t3) as (_ & _ & F3 & _).
    pose proof (alloc_node_extends h2 (OOther 2) q t3) as E3.
    destruct (alloc_node h2 (OOther 2) q t3) as [h3 kb]. cbn [fst snd] in *.
    destruct ka as [|x [|? ?]]; try done. destruct kb as [|y [|? ?]]; try done. cbn [fst snd].
    destruct G3 as [Gx Gg Gr]. split_and!; [done|done|].
    assert (Hx : hv h x = None /\ is_Some (hv h3 x)).
    { split; [|eapply extends_some; [done|apply S2; by left]].
      apply (extends_none h h1 x (gr_ext _ _ _ G1)). apply F2. by left. }
    assert (Hy : hv h y = None /\ is_Some (hv h3 y)).
    { split; [|apply S3; by left]. apply (extends_none h h2 y (gr_ext _ _ _ G2)). apply F3. by left. }
    assert (Hone : forall d w, hv h w = None /\ is_Some (hv h3 w) ->
      (forall r, r ∈ roots_of (Found d w []) -> is_Some (hv h3 r)) /\
      NoDup (dkeys (f_updates (Found d w []))) /\
      (forall k, k ∈ dkeys (f_updates (Found d w [])) -> owner h3 k = None) /\
      (forall u, reachable h3 (roots_of (Found d w [])) u -> reachable h outs u \/ hv h u = None \/ owner h u = None)).
    { intros d w [Hw1 Hw2]. split_and!.
      - by intros r ->%elem_of_list_singleton.
      - apply NoDup_nil_2.
      - by intros k ?%elem_of_nil.
      - intros u Hu. by apply (Gr w u). }
    intros rv fs f Hd Hin. cbn in Hd. case_decide; [simplify_eq; apply elem_of_list_singleton in Hin as ->; by apply Hone|].
    case_decide; [|done]. simplify_eq. apply elem_of_list_singleton in Hin as ->. by apply Hone.
  - apply (ct_order _ (ex_contracts [])).
  - apply (ct_iter _ (ex_contracts [])).
  - apply (ct_nuts _ (ex_contracts [])).
  - apply (ct_ginputs _ (ex_contracts [])).
Qed.

(** ** A small model: mu ~ d0, tau ~ d1, nu ~ d2(mu), Y ~ d3(mu + nu, tau), Y observed *)
Definition real_ty : vtype := VType false 5.
Definition mk (s : string) (k : kind) (ow : option (nat * nat)) : var := Var (Some s) real_ty k ow.
Definition rngv (k : kind) (ow : option (nat * nat)) : var := Var None rng_ty k ow.
Definition ex_h : heap :=
  Heap (list_to_map
    [(0, rngv (KShared None) None); (1, mk "c0" (KConst 0) None); (2, mk "c1" (KConst 1) None);
     (3, rngv KPlain (Some (0, 0))); (4, mk "mu" KPlain (Some (0, 1)));
     (5, rngv KPlain (Some (1, 0))); (6, mk "tau" KPlain (Some (1, 1)));
     (7, rngv KPlain (Some (2, 0))); (8, mk "nu" KPlain (Some (2, 1)));
     (9, mk "loc" KPlain (Some (3, 0)));
     (10, rngv KPlain (Some (4, 0))); (11, mk "Y" KPlain (Some (4, 1)));
     (12, mk "y" KPlain None)])
   (list_to_map
    [(0, Node (ORV 0) [0; 1; 2] [3; 4]); (1, Node (ORV 1) [0; 1; 2] [5; 6]);
     (2, Node (ORV 2) [0; 4; 2] [7; 8]); (3, Node (OElem 7) [4; 8] [9]);
     (4, Node (ORV 3) [0; 9; 6] [10; 11])]).
Definition ex_obs : dict nat nat := [(11, 12)].
Definition ex_topo : list nid := [0; 1; 2; 3; 4].

Lemma ex_topo_ok : topo_order ex_h (dkeys ex_obs) ex_topo.
Proof. apply topo_check_spec. vm_compute. done. Qed.
Lemma ex_topo_rv_ok : topo_order ex_h (rv_outputs ex_h ex_topo) ex_topo.
Proof. apply topo_check_spec. vm_compute. done. Qed.
Lemma ex_model_ok : model_ok ex_h ex_obs.
Proof. apply (model_check_ok _ _ _ ex_topo_ok). vm_compute. done. Qed.

(** ** Getting at the result without writing it out *)
Definition okP {A} (r : result A) (P : A -> Prop) : Prop := match r with Ok x => P x | Raise _ => False end.
Lemma okP_ex {A} (r : result A) (P : A -> Prop) : okP r P -> exists x, r = Ok x /\ P x.
Proof. destruct r; [by eauto|done]. Qed.

Definition no_sampler : sampler := Sampler (Heap ∅ ∅) [] [] [] [].
Definition the_sampler (o : oracles) : sampler :=
  match construct_sampler o ex_h ex_obs ex_topo ex_topo with Ok s => s | Raise _ => no_sampler end.
Lemma the_sampler_ok o : okP (construct_sampler o ex_h ex_obs ex_topo ex_topo) (fun _ => True) ->
  construct_sampler o ex_h ex_obs ex_topo ex_topo = Ok (the_sampler o).
Proof. unfold the_sampler. by destruct (construct_sampler o ex_h ex_obs ex_topo ex_topo). Qed.

Definition the_init (o : oracles) := sampler_init o ex_h ex_obs ex_topo ex_topo.
Definition init_ir o : ir := (the_init o).1.1.1.
Definition init_outs o : list vid := (the_init o).1.1.2.
Definition init_vals o : list (vid * vid) := (the_init o).1.2.
Definition init_st o : state := (the_init o).2.
Lemma the_init_eq o : sampler_init o ex_h ex_obs ex_topo ex_topo = (init_ir o, init_outs o, init_vals o, init_st o).
Proof.
  unfold init_ir, init_outs, init_vals, init_st, the_init.
  by destruct (sampler_init o ex_h ex_obs ex_topo ex_topo) as [[[? ?] ?] ?].
Qed.

(** an environment giving a name to the listed leaves *)
Definition env_of (l : list vid) (v : vid) : option tm := if decide (v ∈ l) then Some (L v) else None.
Lemma env_of_leaf h l :
  forallb (fun v => bool_decide (is_Some (hv h v)) && bool_decide (owner h v = None)) l = true -> leaf_env h (env_of l).
Proof.
  rewrite forallb_forall. intros H v [x Hx]. unfold env_of in Hx. case_decide as Hd; [|done].
  apply elem_of_list_In in Hd. specialize (H _ Hd). apply andb_true_iff in H as [A B].
  by apply bool_decide_eq_true in A, B.
Qed.

Definition sigma_of (l : list (vid * tm)) (v : vid) : option tm := dget l v.
Lemma sigma_of_out (l : list (vid * tm)) u : u ∉ map fst l -> sigma_of l u = None.
Proof. apply dget_None. Qed.

(** ** The conditions under which construct_sampler returns *)
Lemma ex_pairable kinds : nuts_pairable (ex_o kinds).
Proof.
  intros h ts re Hg Hv. cbn [o_nuts o_ginputs ex_o].
  destruct (nuts_ok h ts re Hg Hv) as (_ & _ & _ & _ & rng & rng' & Hu & Hs & Ho & Hi).
  destruct (ex_nuts h ts re) as [h1 s]. cbn [fst snd] in *. rewrite Hu.
  change (dvalues [(rng, rng')]) with [rng']. cbn [length].
  assert (Hin : rng ∈ filter (fun v => is_shared h1 v = true) (ex_ginputs h1 (ns_results s ++ [rng']))).
  { apply elem_of_list_filter. split; [done|]. apply elem_of_list_filter. split.
    - split; [done|]. unfold is_shared in Hs. destruct (hv h1 rng); [by eauto|done].
    - apply elem_of_elements, elem_of_reach_set. exists rng'. split; [set_solver|]. by apply rtc_once. }
  destruct (filter _ _); [by apply elem_of_nil in Hin|]. cbn. lia.
Qed.

Definition types_check (o : oracles) : bool :=
  forallb (fun rv => match chosen (st_found (init_st o)) rv with
                     | Some f => bool_decide (ty_of (st_heap (init_st o)) (f_step f) = ty_of (st_heap (init_st o)) rv)
                     | None => true end) (init_outs o).
Lemma types_check_spec o : types_check o = true ->
  forall i outs inits st0 rv f, sampler_init o ex_h ex_obs ex_topo ex_topo = (i, outs, inits, st0) ->
     rv ∈ outs -> chosen (st_found st0) rv = Some f -> ty_of (st_heap st0) (f_step f) = ty_of (st_heap st0) rv.
Proof.
  unfold types_check, init_outs, init_st, the_init. intros Hc i outs inits st0 rv f Hi Hrv Hf. rewrite Hi in Hc. cbn [fst snd] in Hc.
  rewrite forallb_forall in Hc. apply elem_of_list_In in Hrv. specialize (Hc _ Hrv). rewrite Hf in Hc.
  by apply bool_decide_eq_true in Hc.
Qed.
