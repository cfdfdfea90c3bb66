(** Lemmas for C69: the graph of sample_CRT. *)
From Verif Require L_dist.
From Verif Require Export S_crt_graph L_ffbs_value2.
Global Open Scope nat_scope.

Lemma crt_shuffle order x : crt_base (ODimShuffle order) [x] = Some [x].
Proof. done. Qed.

Definition probabilities (z : Z) (x : R) : list R := map (fun n => x / (INR n - 1 + x))%R (arange2 z).

Lemma crt_values (cval : nat -> crtval) B z x : (forall k, cval (b_int B k).1 = CInt k) ->
  exists vals, vals_of crt_base cval B [CInt z; CReal x] crt_code = Some vals /\ vals !! 3 = Some (CReals (probabilities z x)).
Proof.
  intros Hc. eexists. split.
  - eapply (step _ _ _ _ _ _ (CRange (arange2 z))).
    { cbn [val lookup list_lookup mbind option_bind]. rewrite !Hc.
      change (Some (CRange (seq 2 (Z.to_nat (z + 1 - 2)))) = Some (CRange (arange2 z))). unfold arange2. do 3 f_equal. lia. }
    cbn [app]. eapply (step _ _ _ _ _ _ (CReals (probabilities z x))); [|reflexivity].
    cbn [val lookup list_lookup mbind option_bind]. rewrite !Hc.
    change (Some (CReals (map (fun y => x / y)%R (map (fun y => y + x)%R (map (fun n => INR n - IZR 1)%R (arange2 z))))) = Some (CReals (probabilities z x))).
    unfold probabilities. by rewrite !map_map.
  - reflexivity.
Qed.
Lemma crt_result_value (cval : nat -> crtval) B z bs : (forall k, cval (b_int B k).1 = CInt k) ->
  val crt_base cval B [CInt z; CBits bs] crt_result = Some (CCount (if (z <? 1)%Z then 0 else 1 + list_sum bs)).
Proof. intros Hc. unfold crt_result. cbn [val lookup list_lookup mbind option_bind]. rewrite !Hc. cbn. reflexivity. Qed.

Lemma single_law z x (P : option nat -> bool) :
  dprob (single_sample_CRT z x) P = dprob (dbind (dberns (probabilities z x)) (fun bs => dret (if (z <? 1)%Z then 0 else 1 + list_sum bs))) P.
Proof.
  rewrite !L_dist.dprob_dexp. unfold single_sample_CRT, probabilities. rewrite !L_dist.dexp_bind.
  generalize (arange2 z). intros ns. set (f := fun s => if (z <? 1)%Z then 0 else 1 + s).
  enough (H : forall g, L_dist.dexp (bern_sum x ns) g = L_dist.dexp (dberns (map (fun n => x / (INR n - 1 + x))%R ns)) (fun o => g (list_sum <$> o))).
  { rewrite H. apply L_dist.dexp_ext. intros [bs|]; [|done]. cbn. done. }
  induction ns as [|n ns IH]; intros g; cbn [bern_sum dberns map].
  - by rewrite !L_dist.dexp_ret.
  - rewrite !L_dist.dexp_bind. apply L_dist.dexp_ext. intros [b|]; [|done].
    rewrite !L_dist.dexp_bind, IH. apply L_dist.dexp_ext. intros [bs|]; cbn [fmap option_fmap option_map]; [|done].
    by rewrite !L_dist.dexp_ret.
Qed.

Section graph.
  Context (B : builder).

  Lemma crt_graph_spec h y hh : good_heap h -> (forall u, u ∈ [y; hh] -> is_Some (hv h u)) ->
    let '(h', (out, ups, result)) := crt_graph B h y hh in
    extends h h' /\ good_heap h' /\
    exists n2 scan ys r res next n0 size dtype probs next0 draw y_i h_i,
      hv h r = None /\ shared_var h' r /\ n0 <> n2 /\
      hn h' n2 = Some (Node scan [ys; r; hh] [res; next]) /\ owner h' next = Some (n2, 1) /\ node_reachable h' [out] n2 /\
      hn h' n0 = Some (Node (ORV RV_bernoulli) [r; size; dtype; probs] [next0; draw]) /\
      ups = [(r, next)] /\ default_of h' r next0 /\ owner h' next0 = Some (n0, 0) /\
      (forall K, K r = n2 -> draws h h' out K /\ draws h h' next K) /\
      NoDup [res; draw; y_i; h_i] /\ (forall u, u ∈ [res; draw; y_i; h_i] -> hv h u = None) /\
      forall (cval : nat -> crtval) (rho : vid -> option crtval),
        (forall k, cval (b_int B k).1 = CInt k) ->
        (forall u, hv h u = None -> u ∉ [res; draw; y_i; h_i] -> rho u = None) ->
        (forall yv, rho y = Some (CArr yv) -> evals crt_base cval h' rho ys (CList (M_crt.a_data yv))) /\
        (forall z x, rho y_i = Some (CInt z) -> rho h_i = Some (CReal x) ->
          evals crt_base cval h' rho probs (CReals (probabilities z x))) /\
        (forall z bs, rho y_i = Some (CInt z) -> rho draw = Some (CBits bs) ->
          evals crt_base cval h' rho result (CCount (if (z <? 1)%Z then 0 else 1 + list_sum bs))) /\
        (forall yv l, rho y = Some (CArr yv) -> rho res = Some (CCounts l) ->
          evals crt_base cval h' rho out (CTables (M_crt.Arr (M_crt.a_shape yv) l))).
  Proof.
    intros Hg Hi. unfold crt_graph.
    assert (Iy : is_Some (hv h y)) by (apply Hi; by left). assert (Ih : is_Some (hv h hh)) by (apply Hi; right; by left).
    pose proof (fun K => expr_passes h B [y] K (F1 F_ravel (EV 0)) h Hg
      ltac:(intros u ->%elem_of_list_singleton; apply passes_old; [apply Hg|apply extends_refl|done]) eq_refl) as H1. cbv zeta in H1.
    pose proof (fun cval rho vals => kept_expr crt_base cval B crt_shuffle rho [y] vals (F1 F_ravel (EV 0)) h) as V1.
    destruct (mk_expr B [y] h _) as [h1 ys]. cbn [fst snd] in H1, V1.
    destruct (H1 (fun _ => 0)) as (E1 & G1 & _). assert (Pys : forall K, passes_on h h1 ys K) by (intros K; apply H1). clear H1.
    pose proof (fun K => placeholder_passes h h1 ys K G1) as H2. pose proof (placeholder_fresh h1 ys) as Fy. destruct (placeholder h1 ys) as [h2 y_i]. cbn in H2, Fy.
    destruct (H2 (fun _ => 0)) as (E2 & G2 & _). assert (Py : forall K, passes_on h h2 y_i K) by (intros K; apply H2). clear H2.
    pose proof (fun K => placeholder_passes h h2 hh K G2) as H3. pose proof (placeholder_fresh h2 hh) as Fh. destruct (placeholder h2 hh) as [h3 h_i]. cbn in H3, Fh.
    destruct (H3 (fun _ => 0)) as (E3 & G3 & _). assert (Ph : forall K, passes_on h h3 h_i K) by (intros K; apply H3). clear H3.
    pose proof (extends_trans _ _ _ E1 E2) as X2. pose proof (extends_trans _ _ _ X2 E3) as X3.
    pose proof (fun K => lets_passes h B K crt_code h3 [y_i; h_i] G3
      ltac:(intros u [->| ->%elem_of_list_singleton]%elem_of_cons; [eapply passes_extends; [apply G2|exact E3|apply Py]|apply Ph]) eq_refl) as H4.
    pose proof (fun cval rho => kept_lets crt_base cval B crt_shuffle rho crt_code h3 [y_i; h_i]) as V4. cbv zeta in H4, V4.
    destruct (mk_code B h3 _ _) as [h4 env]. cbn [fst snd] in H4, V4. destruct (H4 (fun _ => 0)) as (E4 & G4 & L4 & _). cbn in L4.
    assert (Pp : forall K, passes_on h h4 (default 0 (env !! 3)) K).
    { intros K. destruct (lookup_lt_is_Some_2 env 3 ltac:(rewrite L4; lia)) as [v Hv]. rewrite Hv. cbn. apply H4. by eapply elem_of_list_lookup_2. }
    clear H4. set (probs := default 0 (env !! 3)) in *. pose proof (extends_trans _ _ _ X3 E4) as X4.
    pose proof (draw_spec B RV_bernoulli h h4 probs G4 X4 Pp) as H5.
    destruct (draw_one B h4 RV_bernoulli probs) as [h5 [[r next0] draw]].
    destruct H5 as (E5 & G5 & Fr & Wr & Sr & Dr & n0 & sz & dt & Hn0 & Wnx0 & Wd & Sd & NSd & N0 & _).
    pose proof (extends_trans _ _ _ X4 E5) as X5.
    assert (Sy : is_Some (hv h2 y_i)) by exact (proj1 (Py (fun _ => 0))). assert (Sh : is_Some (hv h3 h_i)) by exact (proj1 (Ph (fun _ => 0))).
    pose proof (extends_trans _ _ _ E4 E5) as E35. pose proof (extends_trans _ _ _ E3 E35) as E25.
    destruct (unit_expr B [y_i; draw] h5 crt_result G5
      ltac:(intros u [->| ->%elem_of_list_singleton]%elem_of_cons; [exact (extends_some _ _ _ E25 Sy)|done]) tt eq_refl) as (E6 & G6).
    pose proof (fun cval rho vals => kept_expr crt_base cval B crt_shuffle rho [y_i; draw] vals crt_result h5) as V6.
    destruct (mk_expr B [y_i; draw] h5 _) as [h6 result]. cbn [fst snd] in E6, G6, V6.
    pose proof (extends_trans _ _ _ X5 E6) as X6. pose proof (extends_trans _ _ _ E25 E6) as E26.
    set (o := OOther (8 * fresh (dom (h_nodes h6)) + K_scan)). set (ins := [ys; r; hh]). set (n2 := fresh (dom (h_nodes h6))).
    destruct (alloc_node_spec h6 o ins [(None, b_draw B h6 o ins); (None, b_rng B)]) as (_ & Nd7 & Fr7 & Hv7 & _ & Hn2 & N2 & _).
    pose proof (alloc_node_extends h6 o ins [(None, b_draw B h6 o ins); (None, b_rng B)]) as E7.
    pose proof (node_ok h (fun _ => True) h6 o ins [(None, b_draw B h6 o ins); (None, b_rng B)] ltac:(done) (conj X6 G6)) as Hok.
    rewrite apply_rng_alloc in Nd7, Fr7, Hv7, N2, E7, Hok. destruct (apply_rng h6 o ins _ _) as [[h7 res] next]. cbn [fst snd] in *.
    assert (Sr5 : is_Some (hv h5 r)) by by apply shared_some.
    assert (Pys6 : forall K, passes_on h h6 ys K) by (intros K; eapply passes_extends; [apply G1|exact (extends_trans _ _ _ E2 E26)|apply Pys]).
    assert (Phh6 : forall K, passes_on h h6 hh K) by (intros K; apply passes_old; [apply Hg|exact X6|done]).
    assert (Sin : forall u, u ∈ ins -> is_Some (hv h6 u)).
    { intros u [->|[->| ->%elem_of_list_singleton]%elem_of_cons]%elem_of_cons; [exact (proj1 (Pys6 (fun _ => 0)))|exact (extends_some _ _ _ E6 Sr5)|exact (proj1 (Phh6 (fun _ => 0)))]. }
    assert (G7 : good_heap h7). { destruct Hok as (_ & [_ G7] & _); [|exact G7]. intros u Hu. split; [by apply Sin|by left]. }
    pose proof (Hv7 0 res None _ eq_refl eq_refl) as Hres. pose proof (Hv7 1 next None _ eq_refl eq_refl) as Hnx.
    fold n2 in N2, Hn2, Hres, Hnx.
    assert (Hn02 : n0 <> n2) by (intros Heq; apply (proj2 E6) in N0; rewrite Heq in N0; congruence).
    assert (Hdr : forall K, K r = n2 -> draws h h7 res K /\ draws h h7 next K).
    { intros K HK.
      assert (Hr7 : owner h7 r = None).
      { rewrite (extends_owner_old h5 h7); [done|exact (extends_trans _ _ _ E6 E7)|done]. }
      assert (Ha : forall u, u ∈ ins -> draws h h7 u K).
      { intros u [->|[->| ->%elem_of_list_singleton]%elem_of_cons]%elem_of_cons.
        - eapply passes_extends; [apply G6|exact E7|apply Pys6].
        - by apply leaf_draws.
        - eapply passes_extends; [apply G6|exact E7|apply Phh6]. }
      assert (Hb : forall u, u ∈ ins -> fresh_gen h h7 u -> K u = n2).
      { intros u [->|[->| ->%elem_of_list_singleton]%elem_of_cons]%elem_of_cons Hf; [|done|].
        - exfalso. eapply (passes_extends h h6 h7 ys K); [apply G6|exact E7|apply Pys6|done].
        - exfalso. eapply (passes_extends h h6 h7 hh K); [apply G6|exact E7|apply Phh6|done]. }
      split; (eapply node_draws; [|exact N2|exact Ha|exact Hb]); unfold owner; [by rewrite Hres|by rewrite Hnx]. }
    assert (Sres : is_Some (hv h7 res)) by eauto. pose proof (extends_trans _ _ _ X6 E7) as X7.
    pose proof (fun K (HK : K r = n2) => expr_passes h B [res; y] K (F2 F_reshape (EV 0) (EV 1)) h7 G7
      ltac:(intros u [->| ->%elem_of_list_singleton]%elem_of_cons;
        [split; [done|]; split; [apply Hdr, HK|]; intros [_ (xa & xb & xd & xe & Hx)]; rewrite Hres in Hx; done|apply passes_old; [apply Hg|exact X7|done]]) eq_refl) as H8. cbv zeta in H8.
    pose proof (fun cval rho vals => kept_expr crt_base cval B crt_shuffle rho [res; y] vals (F2 F_reshape (EV 0) (EV 1)) h7) as V8.
    pose proof (apply1_input h7 (fun_op F_reshape) [res; y] (b_draw B h7 (fun_op F_reshape) [res; y]) res ltac:(by left)) as I8.
    change (apply1 h7 (fun_op F_reshape) [res; y] (b_draw B h7 (fun_op F_reshape) [res; y])) with (mk_expr B [res; y] h7 (F2 F_reshape (EV 0) (EV 1))) in I8.
    destruct (mk_expr B [res; y] h7 _) as [h8 out]. cbn [fst snd] in H8, V8, I8.
    destruct (H8 (fun _ => n2) eq_refl) as (E8 & G8 & _).
    pose proof (extends_trans _ _ _ E7 E8) as E68. pose proof (extends_trans _ _ _ E6 E68) as E58.
    pose proof (Fr7 res ltac:(by left)) as Fres.
    assert (Fd : hv h4 draw = None).
    { destruct (hv h4 draw) eqn:Ed; [|done]. pose proof (extends_owner_old h4 h5 draw E5 ltac:(by eauto)) as Hw. rewrite Wd in Hw. symmetry in Hw.
      destruct (wf_owner h4 (proj1 G4) _ _ _ Hw) as (nd & Hnd & _). congruence. }
    assert (Fres5 : hv h5 res = None) by exact (back _ _ _ E6 Fres). assert (Fres4 : hv h4 res = None) by exact (back _ _ _ E5 Fres5).
    assert (Fd3 : hv h3 draw = None) by exact (back _ _ _ E4 Fd). assert (Fres3 : hv h3 res = None) by exact (back _ _ _ E4 Fres4).
    assert (Fd1 : hv h1 draw = None) by exact (back _ _ _ (extends_trans _ _ _ E2 E3) Fd3).
    assert (Fres1 : hv h1 res = None) by exact (back _ _ _ (extends_trans _ _ _ E2 E3) Fres3).
    assert (Fh1 : hv h1 h_i = None) by exact (back _ _ _ E2 Fh).
    pose proof (extends_some _ _ _ E3 Sy) as Sy3. pose proof (extends_some _ _ _ E25 Sy) as Sy5. pose proof (extends_some _ _ _ E35 Sh) as Sh5.
    split; [exact (extends_trans _ _ _ X7 E8)|]. split; [exact G8|].
    exists n2, o, ys, r, res, next, n0, sz, dt, probs, next0, draw, y_i, h_i.
    split; [exact (back _ _ _ X4 Fr)|].
    split; [apply (shared_extends h5 h8); [exact E58|exact Sr5|exact Sr]|]. split; [exact Hn02|].
    split; [exact (proj2 E8 _ _ N2)|].
    split. { rewrite (extends_owner_old h7 h8); [|exact E8|by eauto]. unfold owner. by rewrite Hnx. }
    split. { exists res, 0. split; [|rewrite (extends_owner_old h7 h8); [|exact E8|done]; unfold owner; by rewrite Hres].
      eapply reach1_trans; [exact I8|apply reach_self]. }
    split; [exact (proj2 E58 _ _ N0)|]. split; [done|].
    split. { destruct Dr as (nm & ty & ow & Hr). exists nm, ty, ow. by apply (proj1 E58). }
    split. { rewrite (extends_owner_old h5 h8); [done|exact E58|]. unfold owner in Wnx0. by destruct (hv h5 next0). }
    split. { intros K HK. split; [by apply H8|]. eapply draws_extends; [apply G7|exact E8|by eauto|]. by apply Hdr. }
    split.
    { assert (Hd : forall g a b, is_Some (hv g a) -> hv g b = None -> a <> b) by (intros g a b Ha Hb ->; by eapply none_some).
      pose proof (Hd h5 draw res Sd Fres5). pose proof (Hd h3 y_i res Sy3 Fres3). pose proof (Hd h3 h_i res Sh Fres3).
      pose proof (Hd h3 y_i draw Sy3 Fd3). pose proof (Hd h3 h_i draw Sh Fd3). pose proof (Hd h2 y_i h_i Sy Fh).
      repeat apply NoDup_cons_2; [..|apply NoDup_nil_2]; rewrite ?not_elem_of_cons; repeat split; try apply not_elem_of_nil; congruence. }
    split.
    { intros u Hu. repeat (apply elem_of_cons in Hu as [->|Hu]); [exact (back _ _ _ E1 Fres1)|exact (back _ _ _ E1 Fd1)|exact (back _ _ _ E1 Fy)|exact (back _ _ _ E1 Fh1)|].
      by apply elem_of_nil in Hu. }
    intros cval rho Hc Hrho.
    split; [|split; [|split]].
    - intros yv Hy. destruct (V1 cval (cut h rho) [CArr yv] (CList (M_crt.a_data yv)) Hg) as (_ & _ & Hv); [apply cut_old| |reflexivity|].
      { constructor; [by apply ok_given|constructor]. }
      eapply (uncut _ _ h h1 h8); [exact G1|exact E1|exact (extends_trans _ _ _ E2 (extends_trans _ _ _ E26 E68))| |exact Hv].
      intros u Hu Hu1. apply Hrho; [done|]. intros Hin. eapply none_some; [exact Hu1|].
      repeat (apply elem_of_cons in Hin as [->|Hin]); [exact Fres1|exact Fd1|exact Fy|exact Fh1|]. by apply elem_of_nil in Hin.
    - intros z x Hz Hx. destruct (crt_values cval B z x Hc) as (vals & Hvals & H3).
      assert (Hoks : Forall2 (ok crt_base cval (cut h3 rho) h4) env vals).
      { apply (V4 cval (cut h3 rho) [CInt z; CReal x]); [done|apply cut_old| |done].
        constructor; [by apply ok_given|]. constructor; [by apply ok_given|constructor]. }
      destruct (Forall2_lookup_r _ _ _ _ _ Hoks H3) as (v & Hv & Hv'). unfold probs. rewrite Hv. cbn [default].
      eapply (uncut _ _ h3 h4 h8); [exact G4|exact E4|exact (extends_trans _ _ _ E5 E58)| |exact Hv'].
      intros u Hu Hu1. apply Hrho; [exact (back _ _ _ X3 Hu)|]. intros Hin.
      repeat (apply elem_of_cons in Hin as [->|Hin]);
        [eapply none_some; [exact Hu1|exact Fres4]|eapply none_some; [exact Hu1|exact Fd]|eapply none_some; [exact Sy3|exact Hu]|eapply none_some; [exact Sh|exact Hu]|].
      by apply elem_of_nil in Hin.
    - intros z bs Hz Hbs.
      destruct (V6 cval (cut h5 rho) [CInt z; CBits bs] (CCount (if (z <? 1)%Z then 0 else 1 + list_sum bs)) G5) as (_ & _ & Hv); [apply cut_old| |by apply crt_result_value|].
      { constructor; [by apply ok_given|]. constructor; [by apply ok_given|constructor]. }
      eapply (uncut _ _ h5 h6 h8); [exact G6|exact E6|exact E68| |exact Hv].
      intros u Hu Hu1. apply Hrho; [exact (back _ _ _ X5 Hu)|]. intros Hin.
      repeat (apply elem_of_cons in Hin as [->|Hin]);
        [eapply none_some; [exact Hu1|exact Fres]|eapply none_some; [exact Sd|exact Hu]|eapply none_some; [exact Sy5|exact Hu]|eapply none_some; [exact Sh5|exact Hu]|].
      by apply elem_of_nil in Hin.
    - intros yv l Hy Hl.
      destruct (V8 cval (cut h7 rho) [CCounts l; CArr yv] (CTables (M_crt.Arr (M_crt.a_shape yv) l)) G7) as (_ & _ & Hv); [apply cut_old| |reflexivity|].
      { constructor; [by apply ok_given|]. constructor; [apply ok_given; [exact (extends_some _ _ _ X7 Iy)|done]|constructor]. }
      eapply (uncut _ _ h7 h8 h8); [exact G8|exact E8|apply extends_refl| |exact Hv].
      intros u Hu Hu1. pose proof (extends_trans _ _ _ E6 E7) as E57. apply Hrho; [exact (back _ _ _ X7 Hu)|]. intros Hin.
      repeat (apply elem_of_cons in Hin as [->|Hin]);
        [eapply none_some; [exact Sres|exact Hu]|eapply none_some; [exact (extends_some _ _ _ E57 Sd)|exact Hu]|eapply none_some; [exact (extends_some _ _ _ E57 Sy5)|exact Hu]
        |eapply none_some; [exact (extends_some _ _ _ E57 Sh5)|exact Hu]|]. by apply elem_of_nil in Hin.
  Qed.
End graph.
