(** Lemmas for C68: the generators that ffbs_step uses. *)
From Verif Require Export M_ffbs_graph L_generators.

(** expressions and assignments draw nothing *)
Lemma expr_passes c B env K e : forall h, good_heap h -> (forall u, u ∈ env -> passes_on c h u K) -> scoped (length env) e = true ->
  let r := mk_expr B env h e in extends h r.1 /\ good_heap r.1 /\ passes_on c r.1 r.2 K.
Proof.
  assert (Hup : forall h h', good_heap h -> extends h h' -> (forall u, u ∈ env -> passes_on c h u K) -> forall u, u ∈ env -> passes_on c h' u K).
  { intros h h' [G _] E H u Hu. eapply passes_extends; [exact G|exact E|by apply H]. }
  induction e as [i| | | |s a IHa|s a IHa b IHb|order a IHa|a IHa b IHb|k a IHa|k a IHa b IHb|k a IHa b IHb d IHd];
    intros h Hg He Hs; cbn [mk_expr scoped] in *;
    repeat match goal with H : (_ && _) = true |- _ => apply andb_true_iff in H as [? ?] end.
  - split; [apply extends_refl|]. split; [done|]. cbn. apply He. apply bool_decide_eq_true in Hs.
    destruct (lookup_lt_is_Some_2 env i Hs) as [v Hv]. rewrite Hv. cbn. by eapply elem_of_list_lookup_2.
  - by apply const_passes.
  - by apply const_passes.
  - by apply const_passes.
  - specialize (IHa h Hg He Hs). destruct (mk_expr B env h a) as [h1 x]. destruct IHa as (E1 & G1 & P1). cbn in *.
    pose proof (elem_passes c B h1 s [x] K G1 ltac:(by intros u ->%elem_of_list_singleton)) as H2. destruct (mk_elem _ _ _ _) as [h2 y]. cbn in *.
    destruct H2 as (E2 & G2 & P2). split; [by eapply extends_trans|done].
  - specialize (IHa h Hg He ltac:(done)). destruct (mk_expr B env h a) as [h1 x]. destruct IHa as (E1 & G1 & P1). cbn in *.
    specialize (IHb h1 G1 (Hup h h1 Hg E1 He) ltac:(done)). destruct (mk_expr B env h1 b) as [h2 y]. destruct IHb as (E2 & G2 & P2). cbn in *.
    pose proof (passes_extends c h1 h2 x K (proj1 G1) E2 P1) as P1'.
    pose proof (elem_passes c B h2 s [x; y] K G2 ltac:(by intros u [->| ->%elem_of_list_singleton]%elem_of_cons)) as H3. destruct (mk_elem _ _ _ _) as [h3 z]. cbn in *.
    destruct H3 as (E3 & G3 & P3). split; [by eapply extends_trans; [eapply extends_trans|]|done].
  - specialize (IHa h Hg He Hs). destruct (mk_expr B env h a) as [h1 x]. destruct IHa as (E1 & G1 & P1). cbn in *.
    pose proof (apply1_passes c h1 (ODimShuffle order) [x] (b_shuffle B order (ty_def h1 x)) K ltac:(done) G1 ltac:(by intros u ->%elem_of_list_singleton)) as H2.
    destruct (apply1 _ _ _ _) as [h2 y]. cbn in *. destruct H2 as (E2 & G2 & P2). split; [by eapply extends_trans|done].
  - specialize (IHa h Hg He ltac:(done)). destruct (mk_expr B env h a) as [h1 x]. destruct IHa as (E1 & G1 & P1). cbn in *.
    specialize (IHb h1 G1 (Hup h h1 Hg E1 He) ltac:(done)). destruct (mk_expr B env h1 b) as [h2 y]. destruct IHb as (E2 & G2 & P2). cbn in *.
    pose proof (passes_extends c h1 h2 x K (proj1 G1) E2 P1) as P1'.
    pose proof (apply1_passes c h2 (OOther K_dot) [x; y] (b_dot B (ty_def h2 x) (ty_def h2 y)) K ltac:(done) G2 ltac:(by intros u [->| ->%elem_of_list_singleton]%elem_of_cons)) as H3.
    destruct (apply1 _ _ _ _) as [h3 z]. cbn in *. destruct H3 as (E3 & G3 & P3). split; [by eapply extends_trans; [eapply extends_trans|]|done].
  - specialize (IHa h Hg He Hs). destruct (mk_expr B env h a) as [h1 x]. destruct IHa as (E1 & G1 & P1). cbn in *. unfold mk_fun.
    pose proof (apply1_passes c h1 (fun_op k) [x] (b_draw B h1 (fun_op k) [x]) K ltac:(done) G1 ltac:(by intros u ->%elem_of_list_singleton)) as H2.
    destruct (apply1 _ _ _ _) as [h2 y]. cbn in *. destruct H2 as (E2 & G2 & P2). split; [by eapply extends_trans|done].
  - specialize (IHa h Hg He ltac:(done)). destruct (mk_expr B env h a) as [h1 x]. destruct IHa as (E1 & G1 & P1). cbn in *.
    specialize (IHb h1 G1 (Hup h h1 Hg E1 He) ltac:(done)). destruct (mk_expr B env h1 b) as [h2 y]. destruct IHb as (E2 & G2 & P2). cbn in *.
    pose proof (passes_extends c h1 h2 x K (proj1 G1) E2 P1) as P1'. unfold mk_fun.
    pose proof (apply1_passes c h2 (fun_op k) [x; y] (b_draw B h2 (fun_op k) [x; y]) K ltac:(done) G2 ltac:(by intros u [->| ->%elem_of_list_singleton]%elem_of_cons)) as H3.
    destruct (apply1 _ _ _ _) as [h3 z]. cbn in *. destruct H3 as (E3 & G3 & P3). split; [by eapply extends_trans; [eapply extends_trans|]|done].
  - specialize (IHa h Hg He ltac:(done)). destruct (mk_expr B env h a) as [h1 x]. destruct IHa as (E1 & G1 & P1). cbn in *.
    pose proof (Hup h h1 Hg E1 He) as He1.
    specialize (IHb h1 G1 He1 ltac:(done)). destruct (mk_expr B env h1 b) as [h2 y]. destruct IHb as (E2 & G2 & P2). cbn in *.
    specialize (IHd h2 G2 (Hup h1 h2 G1 E2 He1) ltac:(done)). destruct (mk_expr B env h2 d) as [h3 z]. destruct IHd as (E3 & G3 & P3). cbn in *.
    pose proof (passes_extends c h1 h3 x K (proj1 G1) (extends_trans _ _ _ E2 E3) P1) as P1'. pose proof (passes_extends c h2 h3 y K (proj1 G2) E3 P2) as P2'. unfold mk_fun.
    pose proof (apply1_passes c h3 (fun_op k) [x; y; z] (b_draw B h3 (fun_op k) [x; y; z]) K ltac:(done) G3
      ltac:(by intros u [->|[->| ->%elem_of_list_singleton]%elem_of_cons]%elem_of_cons)) as H4.
    destruct (apply1 _ _ _ _) as [h4 t]. cbn in *. destruct H4 as (E4 & G4 & P4).
    split; [exact (extends_trans _ _ _ (extends_trans _ _ _ E1 E2) (extends_trans _ _ _ E3 E4))|done].
Qed.

Fixpoint scoped_lets (n : nat) (es : list expr) : bool :=
  match es with [] => true | e :: es' => scoped n e && scoped_lets (S n) es' end.

Lemma lets_passes c B K es : forall h env, good_heap h -> (forall u, u ∈ env -> passes_on c h u K) -> scoped_lets (length env) es = true ->
  let r := mk_code B h env (CLet <$> es) in
  extends h r.1 /\ good_heap r.1 /\ length r.2 = length env + length es /\ forall u, u ∈ r.2 -> passes_on c r.1 u K.
Proof.
  induction es as [|e es IH]; intros h env Hg He Hs; cbn [fmap list_fmap mk_code scoped_lets] in *.
  - cbn. split; [apply extends_refl|]. split; [done|]. split; [lia|done].
  - apply andb_true_iff in Hs as [Hs1 Hs2]. pose proof (expr_passes c B env K e h Hg He Hs1) as H1.
    destruct (mk_expr B env h e) as [h1 x]. cbn in H1. destruct H1 as (E1 & G1 & P1).
    specialize (IH h1 (env ++ [x]) G1). destruct (mk_code B h1 (env ++ [x]) (CLet <$> es)) as [h2 env2]. cbn in *.
    destruct IH as (E2 & G2 & L2 & P2).
    + intros u [Hu| ->%elem_of_list_singleton]%elem_of_app; [|done]. eapply passes_extends; [apply Hg|exact E1|by apply He].
    + rewrite app_length. cbn. by rewrite Nat.add_comm.
    + split; [by eapply extends_trans|]. split; [done|]. split; [rewrite L2, app_length; cbn; lia|done].
Qed.

(** the node of a draw is new, and the draw is not a shared variable *)
Lemma gen_new_node B h o ins :
  let '(h', (r, r', x)) := gen B h o ins in
  forall n nd, hn h' n = Some nd -> owner h' x = Some (n, 1) -> hn h n = None /\ ~ shared_var h' x.
Proof.
  unfold gen. set (w := Var None (b_rng B) (KShared None) None).
  pose proof (alloc_var_new h w) as Hw. pose proof (fun n => alloc_var_hn h w n) as Hh.
  destruct (alloc_var h w) as [h1 r]. cbn [fst snd] in Hw, Hh.
  destruct (alloc_node_spec h1 o (r :: ins) [(None, b_rng B); (None, b_draw B h o ins)]) as (_ & _ & _ & Hval & _ & Hnone & _).
  pose proof (alloc_node_extends h1 o (r :: ins) [(None, b_rng B); (None, b_draw B h o ins)]) as E2.
  rewrite apply_rng_alloc in Hval, E2. destruct (apply_rng h1 o _ _ _) as [[h2 r'] x]. cbn [fst snd] in *.
  pose proof (Hval 1 x None _ eq_refl eq_refl) as Hx. pose proof (proj1 E2 _ _ Hw) as Hr2.
  assert (Hnx : x <> r) by (intros ->; unfold hv in *; rewrite Hx in Hr2; discriminate).
  intros n nd _ Ho. unfold owner in Ho. rewrite set_default_hv in Ho by done. rewrite Hx in Ho. injection Ho as <-.
  split; [by rewrite <- Hh|]. intros (a & b & d & e & H). rewrite set_default_hv in H by done. rewrite Hx in H. done.
Qed.

Section ffbs.
  Context (B : builder).

  Lemma draw_spec d c h w : good_heap h -> extends c h -> (forall K, passes_on c h w K) ->
    let '(h', (r, r', x)) := draw_one B h d w in
    extends h h' /\ good_heap h' /\ hv h r = None /\ owner h' r = None /\ shared_var h' r /\ default_of h' r r' /\
    exists n size dtype, hn h n = None /\ owner h' r' = Some (n, 0) /\ owner h' x = Some (n, 1) /\ is_Some (hv h' x) /\ ~ shared_var h' x /\
      hn h' n = Some (Node (ORV d) [r; size; dtype; w] [r'; x]) /\
      forall K, K r = n -> passes_on c h' x K.
  Proof.
    intros G E Hw. unfold draw_one.
    pose proof (fun K => const_passes c h (b_nosize B) K G) as H1. destruct (mk_const h _) as [h1 size]. cbn in H1.
    destruct (H1 (fun _ => 0)) as (E1 & G1 & _). assert (P1 : forall K, passes_on c h1 size K) by (intros K; apply H1). clear H1.
    pose proof (fun K => const_passes c h1 (b_dtype B) K G1) as H2. destruct (mk_const h1 _) as [h2 dtype]. cbn in H2.
    destruct (H2 (fun _ => 0)) as (E2 & G2 & _). assert (P2 : forall K, passes_on c h2 dtype K) by (intros K; apply H2). clear H2.
    assert (Hin : forall u K, u ∈ [size; dtype; w] -> passes_on c h2 u K).
    { intros u K [->|[->| ->%elem_of_list_singleton]%elem_of_cons]%elem_of_cons.
      - eapply passes_extends; [apply G1|exact E2|apply P1].
      - apply P2.
      - eapply passes_extends; [apply G|exact (extends_trans _ _ _ E1 E2)|apply Hw]. }
    pose proof (gen_full B h2 (ORV d) [size; dtype; w] G2 ltac:(intros u Hu; exact (proj1 (Hin u (fun _ => 0) Hu))) ltac:(done)) as H.
    pose proof (gen_default B h2 (ORV d) [size; dtype; w]) as Hd.
    pose proof (gen_new_node B h2 (ORV d) [size; dtype; w]) as Hnew.
    destruct (gen B h2 _ _) as [h3 [[r r'] x]]. destruct H as (E3 & G3 & Fr & _ & _ & Wr & Sr & _). destruct Hd as (_ & Hdef & _ & _ & n & Wr' & Wx & Nn).
    destruct (Hnew n _ Nn Wx) as [Hn Hns].
    pose proof (extends_trans _ _ _ (extends_trans _ _ _ E1 E2) E3) as E13.
    split; [done|]. split; [done|]. split; [apply (back h h2); [exact (extends_trans _ _ _ E1 E2)|done]|]. split; [done|].
    split; [by apply is_shared_spec|]. split; [done|]. exists n, size, dtype.
    split. { destruct (hn h n) as [nd|] eqn:En; [|done]. apply (proj2 E1), (proj2 E2) in En. congruence. }
    assert (Sx : is_Some (hv h3 x)) by (unfold owner in Wx; by destruct (hv h3 x)).
    split; [done|]. split; [done|]. split; [done|]. split; [done|]. split; [done|]. intros K HK. split; [done|]. split; [|by intros [_ ?]].
    eapply node_draws; [exact Wx|exact Nn| |]; cbn.
    - intros u [->|Hu]%elem_of_cons; [by apply leaf_draws|]. eapply passes_extends; [apply G2|exact E3|by apply Hin].
    - intros u [->|Hu]%elem_of_cons Hf; [done|]. exfalso. eapply (passes_extends c h2 h3 u K); [apply G2|exact E3|by apply Hin|done].
  Qed.

  Lemma placeholder_passes c h v K : good_heap h -> let r := placeholder h v in extends h r.1 /\ good_heap r.1 /\ passes_on c r.1 r.2 K.
  Proof.
    intros Hg. unfold placeholder. set (x := Var None (ty_def h v) KPlain None). pose proof (alloc_var_new h x) as Hn.
    pose proof (alloc_var_extends h x) as E. pose proof (alloc_var_good h x eq_refl Hg) as G.
    destruct (alloc_var h x) as [h1 u]. cbn in *. split; [done|]. split; [done|]. split; [eauto|].
    split; [apply leaf_draws; unfold owner, hv; by rewrite Hn|]. intros [_ (a & b & e & f & H)]. pose proof (eq_trans (eq_sym H) Hn). done.
  Qed.

  Lemma apply1_input h o ins ty u : u ∈ ins -> let r := apply1 h o ins ty in input_of r.1 r.2 u.
  Proof.
    intros Hu. destruct (alloc_node_spec h o ins [(None, ty)]) as (_ & _ & _ & Hv & _ & _ & Hn & _).
    rewrite apply1_alloc in Hv, Hn. cbn in Hv, Hn. specialize (Hv 0 _ None ty eq_refl eq_refl).
    destruct (apply1 h o ins ty) as [h1 v]. cbn in *. unfold input_of, parents, owner, hv, hn in *. rewrite Hv. cbn. by rewrite Hn.
  Qed.
  Lemma reach_self h v : reachable h [v] v.
  Proof. exists v. split; [by left|apply rtc_refl]. Qed.
  Lemma reach_up h h' v u : wf_heap h -> extends h h' -> is_Some (hv h v) -> reachable h [v] u -> reachable h' [v] u.
  Proof. intros. by apply (extends_reachable h h'). Qed.

  (** the last expression: the result is computed from the last state and from the others *)
  Lemma join_spec c h st sts (Kp : (vid -> nid) -> Prop) K0 : good_heap h -> Kp K0 -> (forall K, Kp K -> passes_on c h st K) -> (forall K, Kp K -> passes_on c h sts K) ->
    let r := mk_expr B [st; sts] h (F1 F_reverse (F2 F_join (F1 F_atleast (EV 0)) (EV 1))) in
    extends h r.1 /\ good_heap r.1 /\ (forall K, Kp K -> passes_on c r.1 r.2 K) /\ reachable r.1 [r.2] st /\ reachable r.1 [r.2] sts.
  Proof.
    intros Hg HK0 H1 H2.
    pose proof (fun K HK => expr_passes c B [st; sts] K (F1 F_reverse (F2 F_join (F1 F_atleast (EV 0)) (EV 1))) h Hg
      ltac:(intros u [->| ->%elem_of_list_singleton]%elem_of_cons; [exact (H1 K HK)|exact (H2 K HK)]) eq_refl) as HP. cbv zeta in *.
    destruct (HP K0 HK0) as (E & G & _). split; [done|]. split; [done|]. split; [intros K HK; by apply HP|]. clear HP E G.
    cbn [mk_expr]. unfold mk_fun. cbn [lookup list_lookup default].
    destruct (H1 K0 HK0) as (Sst & _). destruct (H2 K0 HK0) as (Ssts & _).
    pose proof (apply1_passes c h (fun_op F_atleast) [st] (b_draw B h (fun_op F_atleast) [st]) K0 ltac:(done) Hg
      ltac:(intros u ->%elem_of_list_singleton; by apply H1)) as HA.
    pose proof (apply1_input h (fun_op F_atleast) [st] (b_draw B h (fun_op F_atleast) [st]) st ltac:(by left)) as IA.
    destruct (apply1 h _ _ _) as [h1 x]. cbn in HA, IA. destruct HA as (E1 & G1 & P1).
    pose proof (apply1_passes c h1 (fun_op F_join) [x; sts] (b_draw B h1 (fun_op F_join) [x; sts]) K0 ltac:(done) G1
      ltac:(intros u [->| ->%elem_of_list_singleton]%elem_of_cons; [done|eapply passes_extends; [apply Hg|exact E1|by apply H2]])) as HB.
    pose proof (fun u => apply1_input h1 (fun_op F_join) [x; sts] (b_draw B h1 (fun_op F_join) [x; sts]) u) as IB.
    destruct (apply1 h1 _ _ _) as [h2 y]. cbn in HB, IB. destruct HB as (E2 & G2 & P2).
    pose proof (apply1_passes c h2 (fun_op F_reverse) [y] (b_draw B h2 (fun_op F_reverse) [y]) K0 ltac:(done) G2
      ltac:(by intros u ->%elem_of_list_singleton)) as HC.
    pose proof (apply1_input h2 (fun_op F_reverse) [y] (b_draw B h2 (fun_op F_reverse) [y]) y ltac:(by left)) as IC.
    destruct (apply1 h2 _ _ _) as [h3 z]. cbn in HC, IC. destruct HC as (E3 & G3 & P3). cbn.
    destruct P1 as (Sx & _), P2 as (Sy & _).
    split; (eapply reach1_trans; [exact IC|]); (eapply reach_up; [apply G2|exact E3|exact Sy|]).
    - eapply reach1_trans; [apply (IB x); by left|]. eapply reach_up; [apply G1|exact E2|exact Sx|]. eapply reach1_trans; [exact IA|apply reach_self].
    - eapply reach1_trans; [apply (IB sts); right; by left|]. apply reach_self.
  Qed.

  Lemma ffbs_graph_spec h gamma_0 Gammas log_lik : good_heap h ->
    (forall u, u ∈ [gamma_0; Gammas; log_lik] -> is_Some (hv h u)) ->
    let '(h', (out, ups)) := ffbs_graph B h gamma_0 Gammas log_lik in
    extends h h' /\ good_heap h' /\
    exists r1 n1 next1 st ins1 r2 n2 sts next2 ins2 o u0 n0,
      hv h r1 = None /\ shared_var h' r1 /\ hv h r2 = None /\ shared_var h' r2 /\ r1 <> r2 /\ n1 <> n2 /\ n0 <> n2 /\
      default_of h' r1 next1 /\ hn h' n1 = Some (Node (ORV RV_categorical) (r1 :: ins1) [next1; st]) /\ next1 <> st /\ owner h' next1 = Some (n1, 0) /\
      node_reachable h' [out] n1 /\
      ups = [(r2, next2)] /\ hn h' n2 = Some (Node o (ins2 ++ [r2]) [sts; next2]) /\ sts <> next2 /\ owner h' next2 = Some (n2, 1) /\
      st ∈ ins2 /\ node_reachable h' [out] n2 /\
      default_of h' r2 u0 /\ owner h' u0 = Some (n0, 0) /\ reads h' n0 r2 /\
      (forall K, K r1 = n1 -> K r2 = n2 -> draws h h' out K /\ draws h h' next2 K).
  Proof.
    intros Hg Hi. unfold ffbs_graph, categorical.
    pose proof (fun K => lets_passes h B K ffbs_forward_code h [gamma_0; Gammas; log_lik] Hg
      ltac:(intros u Hu; apply passes_old; [apply Hg|apply extends_refl|by apply Hi]) eq_refl) as H1. cbv zeta in H1.
    destruct (mk_code B h _ _) as [h1 env]. cbn [fst snd] in H1. destruct (H1 (fun _ => 0)) as (E1 & G1 & L1 & _). cbn in L1.
    assert (P1 : forall i K, i < 11 -> passes_on h h1 (default 0 (env !! i)) K).
    { intros i K Hlt. destruct (lookup_lt_is_Some_2 env i ltac:(rewrite L1; exact Hlt)) as [v Hv]. rewrite Hv. cbn. apply H1. by eapply elem_of_list_lookup_2. }
    clear H1. set (beta_N := default 0 (env !! 8)). set (sa := default 0 (env !! 9)). set (sG := default 0 (env !! 10)).
    pose proof (draw_spec RV_categorical h h1 beta_N G1 E1 ltac:(intros K; apply P1; lia)) as H2.
    destruct (draw_one B h1 RV_categorical beta_N) as [h2 [[r1 next1] st]].
    destruct H2 as (E2 & G2 & Fr1 & Wr1 & Sr1 & D1 & n1 & sz & dt & Hn1 & Wnx & Wst & Sst & NSst & N1 & Pst).
    pose proof (extends_trans _ _ _ E1 E2) as X2.
    pose proof (fun K => placeholder_passes h h2 sa K G2) as H3. destruct (placeholder h2 sa) as [h3 a]. cbn in H3.
    destruct (H3 (fun _ => 0)) as (E3 & G3 & _). assert (Pa : forall K, passes_on h h3 a K) by (intros K; apply H3). clear H3.
    pose proof (fun K => placeholder_passes h h3 sG K G3) as H4. destruct (placeholder h3 sG) as [h4 G]. cbn in H4.
    destruct (H4 (fun _ => 0)) as (E4 & G4 & _). assert (PG : forall K, passes_on h h4 G K) by (intros K; apply H4). clear H4.
    pose proof (fun K => placeholder_passes h h4 st K G4) as H5. destruct (placeholder h4 st) as [h5 s]. cbn in H5.
    destruct (H5 (fun _ => 0)) as (E5 & G5 & _). assert (Ps : forall K, passes_on h h5 s K) by (intros K; apply H5). clear H5.
    pose proof (extends_trans _ _ _ E3 (extends_trans _ _ _ E4 E5)) as E25. pose proof (extends_trans _ _ _ X2 E25) as X5.
    pose proof (fun K => lets_passes h B K ffbs_backward_code h5 [a; G; s] G5
      ltac:(intros u [->|[->| ->%elem_of_list_singleton]%elem_of_cons]%elem_of_cons;
        [eapply passes_extends; [apply G3|exact (extends_trans _ _ _ E4 E5)|apply Pa]|eapply passes_extends; [apply G4|exact E5|apply PG]|apply Ps]) eq_refl) as H6.
    cbv zeta in H6. destruct (mk_code B h5 _ _) as [h6 inner]. cbn [fst snd] in H6. destruct (H6 (fun _ => 0)) as (E6 & G6 & L6 & _). cbn in L6.
    assert (Pb : forall K, passes_on h h6 (default 0 (inner !! 4)) K).
    { intros K. destruct (lookup_lt_is_Some_2 inner 4 ltac:(rewrite L6; lia)) as [v Hv]. rewrite Hv. cbn. apply H6. by eapply elem_of_list_lookup_2. }
    clear H6. set (beta_n := default 0 (inner !! 4)) in *. pose proof (extends_trans _ _ _ X5 E6) as X6.
    pose proof (draw_spec RV_categorical h h6 beta_n G6 X6 Pb) as H7.
    destruct (draw_one B h6 RV_categorical beta_n) as [h7 [[r2 u0] x0]].
    destruct H7 as (E7 & G7 & Fr2 & Wr2 & Sr2 & D2 & n0 & sz' & dt' & Hn0 & Wu0 & Wx0 & Sx0 & NSx0 & N0 & _).
    pose proof (extends_trans _ _ _ X6 E7) as X7. pose proof (extends_trans _ _ _ E25 (extends_trans _ _ _ E6 E7)) as E27.
    set (o := OOther (8 * fresh (dom (h_nodes h7)) + K_scan)). set (ins := [sa; sG; st; r2]).
    set (n2 := fresh (dom (h_nodes h7))).
    destruct (alloc_node_spec h7 o ins [(None, b_draw B h7 o ins); (None, b_rng B)]) as (_ & Nd8 & Fr8 & Hv8 & _ & Hn2 & N2 & _).
    pose proof (alloc_node_extends h7 o ins [(None, b_draw B h7 o ins); (None, b_rng B)]) as E8.
    pose proof (node_ok h (fun _ => True) h7 o ins [(None, b_draw B h7 o ins); (None, b_rng B)] ltac:(done) (conj X7 G7)) as Hok.
    rewrite apply_rng_alloc in Nd8, Fr8, Hv8, N2, E8, Hok. destruct (apply_rng h7 o ins _ _) as [[h8 sts] next2]. cbn [fst snd] in *.
    assert (Sr2' : is_Some (hv h7 r2)) by by apply shared_some.
    assert (Pin : forall u, u ∈ [sa; sG; st] -> forall K, K r1 = n1 -> passes_on h h7 u K).
    { intros u [->|[->| ->%elem_of_list_singleton]%elem_of_cons]%elem_of_cons K HK.
      - eapply passes_extends; [apply G1|exact (extends_trans _ _ _ E2 E27)|apply P1; lia].
      - eapply passes_extends; [apply G1|exact (extends_trans _ _ _ E2 E27)|apply P1; lia].
      - eapply passes_extends; [apply G2|exact E27|by apply Pst]. }
    assert (Sin : forall u, u ∈ ins -> is_Some (hv h7 u)).
    { intros u Hu. assert (Hu' : u ∈ [sa; sG; st] \/ u = r2) by (unfold ins in Hu; clear -Hu; set_solver).
      destruct Hu' as [Hu'| ->]; [|done]. exact (proj1 (Pin u Hu' (fun _ => n1) eq_refl)). }
    assert (G8 : good_heap h8). { destruct Hok as (_ & [_ G8] & _); [|exact G8]. intros u Hu. split; [by apply Sin|by left]. }
    pose proof (Hv8 0 sts None _ eq_refl eq_refl) as Hsts. pose proof (Hv8 1 next2 None _ eq_refl eq_refl) as Hnx2.
    fold n2 in N2, Hn2, Hsts, Hnx2.
    assert (Hn12 : n1 <> n2). { intros Heq. apply (proj2 E27) in N1. rewrite Heq in N1. congruence. }
    assert (Hn02 : n0 <> n2) by (intros Heq; rewrite Heq in N0; congruence).
    assert (Hr12 : r1 <> r2).
    { intros Heq. rewrite <- Heq in Fr2. destruct (shared_some _ _ Sr1) as [z Hz].
      pose proof (proj1 (extends_trans _ _ _ E25 E6) r1 z Hz). congruence. }
    assert (Hdr : forall K, K r1 = n1 -> K r2 = n2 -> draws h h8 sts K /\ draws h h8 next2 K).
    { intros K HK1 HK2.
      assert (Ha : forall u, u ∈ ins -> draws h h8 u K).
      { intros u Hu. assert (Hu' : u ∈ [sa; sG; st] \/ u = r2) by (unfold ins in Hu; clear -Hu; set_solver).
        destruct Hu' as [Hu'| ->].
        - eapply passes_extends; [apply G7|exact E8|by apply Pin].
        - apply leaf_draws. by rewrite (extends_owner_old h7 h8). }
      assert (Hb : forall u, u ∈ ins -> fresh_gen h h8 u -> K u = n2).
      { intros u Hu Hf. assert (Hu' : u ∈ [sa; sG; st] \/ u = r2) by (unfold ins in Hu; clear -Hu; set_solver).
        destruct Hu' as [Hu'| ->]; [|done]. exfalso. eapply (passes_extends h h7 h8 u K); [apply G7|exact E8|by apply Pin|done]. }
      split; (eapply node_draws; [|exact N2|exact Ha|exact Hb]); unfold owner; [by rewrite Hsts|by rewrite Hnx2]. }
    set (Kp := fun K : vid -> nid => K r1 = n1 /\ K r2 = n2).
    set (K0 := fun q : vid => if decide (q = r1) then n1 else n2).
    assert (HK0 : Kp K0). { unfold Kp, K0. split; [by rewrite decide_True|]. rewrite decide_False; [done|]. by apply not_eq_sym. }
    pose proof (extends_trans _ _ _ E27 E8) as E28.
    pose proof (join_spec h h8 st sts Kp K0 G8 HK0
      ltac:(intros K HK; eapply passes_extends; [apply G2|exact E28|apply Pst; apply HK])
      ltac:(intros K [HK1 HK2]; split; [by exists (Var None (b_draw B h7 o ins) KPlain (Some (n2, 0)))|split; [by apply Hdr|intros [_ (xa & xb & xd & xe & Hx)]; rewrite Hsts in Hx; done]])) as H9.
    cbv zeta in H9. destruct (mk_expr B [st; sts] h8 _) as [h9 out]. cbn [fst snd] in H9. destruct H9 as (E9 & G9 & P9 & R1 & R2).
    pose proof (extends_trans _ _ _ E28 E9) as E29. pose proof (extends_trans _ _ _ E8 E9) as E79.
    assert (Snx1 : is_Some (hv h2 next1)) by (unfold owner in Wnx; by destruct (hv h2 next1)).
    assert (Su0 : is_Some (hv h7 u0)) by (unfold owner in Wu0; by destruct (hv h7 u0)).
    assert (Ssts : is_Some (hv h8 sts)) by eauto. assert (Snx2 : is_Some (hv h8 next2)) by eauto.
    assert (Hdef : forall g g' r u, extends g g' -> default_of g r u -> default_of g' r u).
    { intros g g' r u E (nm & ty & ow & Hr). exists nm, ty, ow. by apply (proj1 E). }
    assert (Hsh : forall g g' r, extends g g' -> shared_var g r -> shared_var g' r).
    { intros g g' r E Hs. apply (shared_extends g g'); [done|by apply shared_some|done]. }
    split; [exact (extends_trans _ _ _ X2 E29)|]. split; [exact G9|].
    exists r1, n1, next1, st, [sz; dt; beta_N], r2, n2, sts, next2, [sa; sG; st], o, u0, n0.
    split; [exact (back _ _ _ E1 Fr1)|]. split; [exact (Hsh _ _ _ E29 Sr1)|]. split; [exact (back _ _ _ X6 Fr2)|].
    split; [exact (Hsh _ _ _ E79 Sr2)|]. split; [done|]. split; [done|]. split; [done|].
    split; [exact (Hdef _ _ _ _ E29 D1)|]. split; [exact (proj2 E29 _ _ N1)|].
    split. { intros ->. rewrite Wst in Wnx. done. }
    split; [by rewrite (extends_owner_old h2 h9)|].
    split. { exists st, 1. split; [exact R1|]. by rewrite (extends_owner_old h2 h9). }
    split. { done. }
    split; [exact (proj2 E9 _ _ N2)|].
    split. { intros ->. rewrite Hsts in Hnx2. done. }
    split. { rewrite (extends_owner_old h8 h9); [|done|done]. unfold owner. by rewrite Hnx2. }
    split. { right. right. by left. }
    split. { exists sts, 0. split; [exact R2|]. rewrite (extends_owner_old h8 h9); [|done|done]. unfold owner. by rewrite Hsts. }
    split; [exact (Hdef _ _ _ _ E79 D2)|]. split; [by rewrite (extends_owner_old h7 h9)|].
    split. { eexists. split; [exact (proj2 E79 _ _ N0)|]. by left. }
    intros K HK1 HK2. split; [by apply P9|]. eapply draws_extends; [apply G8|exact E9|exact Snx2|]. by apply Hdr.
  Qed.
End ffbs.
