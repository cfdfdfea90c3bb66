(** Lemmas for C68: the graph of ffbs_step computes what M_ffbs.v says. *)
From Verif Require Export L_ffbs_value.
From Coq Require Import Lra.
Global Open Scope nat_scope.

Definition single (l : list fval) : option fval := match l with [z] => Some z | _ => None end.
Lemma step {D} base (cval : nat -> D) B vals e es x r : val base cval B vals e = Some x -> vals_of base cval B (vals ++ [x]) es = Some r -> vals_of base cval B vals (e :: es) = Some r.
Proof. intros H1 H2. cbn [vals_of]. by rewrite H1. Qed.
Lemma base_div bound v : lsum v <> 0%R -> ffbs_base bound (OElem E_truediv) [FVec v; FNum (lsum v)] = Some [FVec (normed v)].
Proof. intros Hs. cbn. by destruct (Req_EM_T (lsum v) 0). Qed.
Lemma base_broadcast bound Gs N : ffbs_base bound (fun_op F_broadcast_to) [FMats Gs; FSize N] = (fun G => [FMats G]) <$> broadcast Gs N.
Proof. change (((fun x => [x]) <$> (FMats <$> broadcast Gs N)) = ((fun G => [FMats G]) <$> broadcast Gs N)). by destruct (broadcast Gs N). Qed.
Lemma base_scan bound obs Gs g : ffbs_base bound (fun_op F_forward_scan) [FObs obs; FMats Gs; FVec g] =
  (fun l => [FAlphas (rev l)]) <$> forward bound (length g) (combine obs Gs) g [].
Proof.
  change (((fun x => [x]) <$> ((fun l => FAlphas (rev l)) <$> forward bound (length g) (combine obs Gs) g [])) = ((fun l => [FAlphas (rev l)]) <$> forward bound (length g) (combine obs Gs) g [])).
  by destruct (forward _ _ _ _ _).
Qed.
Lemma base_at_last bound l N : ffbs_base bound (fun_op F_at_last) [FAlphasT l; FSize N] = (fun v => [FVec v]) <$> l !! (N - 1).
Proof. change (((fun x => [x]) <$> (FVec <$> l !! (N - 1))) = ((fun v => [FVec v]) <$> l !! (N - 1))). by destruct (l !! (N - 1)). Qed.

Lemma forward_length bound M steps : forall g acc l, forward bound M steps g acc = Some l -> length l = length steps + length acc.
Proof.
  induction steps as [|[ll G] steps IH]; intros g acc l H; cbn in H; [by injection H as <-|].
  destruct (forward_step bound M ll G g); [|done]. apply IH in H. cbn in *. lia.
Qed.
Lemma broadcast_length (Gammas : list mat) N Gs : broadcast Gammas N = Some Gs -> length Gs = N.
Proof.
  unfold broadcast. destruct (Nat.eqb_spec (length Gammas) N) as [He|_]; [by intros [= <-]|].
  destruct Gammas as [|G [|]]; try done. intros [= <-]. apply repeat_length.
Qed.
Lemma normed_length v : length (normed v) = length v.
Proof. apply map_length. Qed.

Lemma forward_values cval B bound g0 (Gs0 : list mat) ll N (Gs : list mat) alpha_N earlier : lsum g0 <> 0%R -> broadcast Gs0 N = Some Gs ->
  forward bound (length g0) (combine (M_ffbs.transpose ll N) Gs) (normed g0) [] = Some (alpha_N :: earlier) -> lsum alpha_N <> 0%R ->
  exists vals, vals_of (ffbs_base bound) cval B [FVec g0; FMats Gs0; FLogLik ll N] ffbs_forward_code = Some vals /\ length vals = 11 /\
    vals !! 8 = Some (FVec (normed alpha_N)) /\ vals !! 9 = Some (FAlphas (rev earlier)) /\ vals !! 10 = Some (FMats (tl Gs)).
Proof.
  intros Hg HGs Hf Hs.
  assert (Hlen : N - 1 = length earlier /\ N <> 0).
  { pose proof (forward_length _ _ _ _ _ _ Hf) as H. cbn in H. rewrite combine_length, (broadcast_length _ _ _ HGs) in H.
    unfold M_ffbs.transpose in H. rewrite map_length, seq_length in H. lia. }
  set (gn := normed g0). set (al := rev (alpha_N :: earlier)).
  eexists. split; [|split; [|split; [|split]]].
  - eapply (step _ _ _ _ _ _ (FVec gn)).
    { change ((ffbs_base bound (OElem E_truediv) [FVec g0; FNum (lsum g0)] ≫= single) = Some (FVec gn)). by rewrite base_div. }
    cbn [app]. eapply (step _ _ _ _ _ _ (FSize N)); [reflexivity|].
    cbn [app]. eapply (step _ _ _ _ _ _ (FMats Gs)).
    { change ((ffbs_base bound (fun_op F_broadcast_to) [FMats Gs0; FSize N] ≫= single) = Some (FMats Gs)). by rewrite base_broadcast, HGs. }
    cbn [app]. eapply (step _ _ _ _ _ _ (FAlphasT al)).
    { change (((ffbs_base bound (fun_op F_forward_scan) [FObs (M_ffbs.transpose ll N); FMats Gs; FVec gn] ≫= single)
                ≫= (fun x => ffbs_base bound (fun_op F_transpose) [x] ≫= single)) = Some (FAlphasT al)).
      rewrite base_scan. unfold gn at 1. rewrite normed_length. unfold gn. by rewrite Hf. }
    cbn [app]. eapply (step _ _ _ _ _ _ (FVec alpha_N)).
    { change ((ffbs_base bound (fun_op F_at_last) [FAlphasT al; FSize N] ≫= single) = Some (FVec alpha_N)). rewrite base_at_last.
      replace (al !! (N - 1)) with (Some alpha_N); [done|]. symmetry. unfold al. cbn [rev]. rewrite (proj1 Hlen).
      rewrite lookup_app_r by (by rewrite rev_length). by rewrite rev_length, Nat.sub_diag. }
    cbn [app]. eapply (step _ _ _ _ _ _ (FVec (normed alpha_N))).
    { change ((ffbs_base bound (OElem E_truediv) [FVec alpha_N; FNum (lsum alpha_N)] ≫= single) = Some (FVec (normed alpha_N))). by rewrite base_div. }
    cbn [app]. eapply (step _ _ _ _ _ _ (FAlphas (rev earlier))).
    { change (Some (FAlphas (take (N - 1) al)) = Some (FAlphas (rev earlier))). do 2 f_equal. unfold al. cbn [rev]. rewrite (proj1 Hlen).
      rewrite take_app_alt; [done|]. by rewrite rev_length. }
    cbn [app]. eapply (step _ _ _ _ _ _ (FMats (tl Gs))); [reflexivity|]. reflexivity.
  - reflexivity.
  - reflexivity.
  - reflexivity.
  - reflexivity.
Qed.

Lemma backward_values cval B bound al (Gam : mat) s : lsum (vmul (length al) al (matrix_column Gam s)) <> 0%R ->
  exists vals, vals_of (ffbs_base bound) cval B [FVec al; FMat Gam; FState s] ffbs_backward_code = Some vals /\ length vals = 5 /\
    vals !! 4 = Some (FVec (normed (vmul (length al) al (matrix_column Gam s)))).
Proof.
  intros Hs. set (b := vmul (length al) al (matrix_column Gam s)) in *. eexists. split; [|split].
  - eapply (step _ _ _ _ _ _ (FVec b)); [reflexivity|]. cbn [app]. eapply (step _ _ _ _ _ _ (FVec (normed b))); [|reflexivity].
    change ((ffbs_base bound (OElem E_truediv) [FVec b; FNum (lsum b)] ≫= single) = Some (FVec (normed b))). by rewrite base_div.
  - reflexivity.
  - reflexivity.
Qed.

Lemma shuffle_base bound order x : ffbs_base bound (ODimShuffle order) [x] = Some [x].
Proof. done. Qed.
Lemma placeholder_fresh h v : hv h (placeholder h v).2 = None.
Proof. apply alloc_var_fresh. Qed.
Lemma unit_expr B env h e : good_heap h -> (forall u, u ∈ env -> is_Some (hv h u)) ->
  forall t, val (fun _ _ => Some [tt]) (fun _ => tt) B ((fun _ => tt) <$> env) e = Some t -> extends h (mk_expr B env h e).1 /\ good_heap (mk_expr B env h e).1.
Proof.
  intros Hg Hi t Ht.
  destruct (kept_expr (fun _ _ => Some [tt]) (fun _ => tt) B ltac:(by intros ? []) (cut h (fun _ => Some tt)) env ((fun _ => tt) <$> env) e h t Hg) as (E & G & _); [apply cut_old| |done|done].
  clear Ht t. induction env as [|u env IH]; cbn; constructor; [apply ok_given; [apply Hi; by left|done]|]. apply IH. intros w Hw. apply Hi. by right.
Qed.
Lemma none_some h (v : vid) : is_Some (hv h v) -> hv h v = None -> False.
Proof. intros [? ?]. congruence. Qed.

(** the nodes of the graph and the values of what they are applied to *)
Definition graph_values (h h' : heap) (gamma_0 Gammas log_lik states w1 last sa sG wn a G s others : vid) : Prop :=
  forall (bound : R) (cval : nat -> fval) (rho : vid -> option fval),
    (forall u, hv h u = None -> u ∉ [last; others; a; G; s] -> rho u = None) ->
    (forall g0 Gs0 ll N Gs alpha_N earlier,
      rho gamma_0 = Some (FVec g0) -> rho Gammas = Some (FMats Gs0) -> rho log_lik = Some (FLogLik ll N) ->
      lsum g0 <> 0%R -> broadcast Gs0 N = Some Gs ->
      forward bound (length g0) (combine (M_ffbs.transpose ll N) Gs) (normed g0) [] = Some (alpha_N :: earlier) -> lsum alpha_N <> 0%R ->
      evals (ffbs_base bound) cval h' rho w1 (FVec (normed alpha_N)) /\
      evals (ffbs_base bound) cval h' rho sa (FAlphas (rev earlier)) /\
      evals (ffbs_base bound) cval h' rho sG (FMats (tl Gs))) /\
    (forall al (Gam : mat) q, rho a = Some (FVec al) -> rho G = Some (FMat Gam) -> rho s = Some (FState q) ->
      lsum (vmul (length al) al (matrix_column Gam q)) <> 0%R ->
      evals (ffbs_base bound) cval h' rho wn (FVec (normed (vmul (length al) al (matrix_column Gam q))))) /\
    (forall q rest, rho last = Some (FState q) -> rho others = Some (FStates rest) ->
      evals (ffbs_base bound) cval h' rho states (FStates (rev (q :: rest)))).

Section graph.
  Context (B : builder).

  Lemma ffbs_graph_values h gamma_0 Gammas log_lik : good_heap h ->
    (forall u, u ∈ [gamma_0; Gammas; log_lik] -> is_Some (hv h u)) ->
    let '(h', (states, ups)) := ffbs_graph B h gamma_0 Gammas log_lik in
    exists n1 r1 size1 dtype1 w1 next1 last n2 scan sa sG r2 others next2 n0 size0 dtype0 wn next0 x0 a G s,
      hn h' n1 = Some (Node (ORV RV_categorical) [r1; size1; dtype1; w1] [next1; last]) /\
      hn h' n2 = Some (Node scan [sa; sG; last; r2] [others; next2]) /\
      hn h' n0 = Some (Node (ORV RV_categorical) [r2; size0; dtype0; wn] [next0; x0]) /\
      NoDup [last; others; a; G; s] /\ (forall u, u ∈ [last; others; a; G; s] -> hv h u = None) /\
      ups = [(r2, next2)] /\
      graph_values h h' gamma_0 Gammas log_lik states w1 last sa sG wn a G s others.
  Proof.
    intros Hg Hi. unfold ffbs_graph, categorical.
    pose proof (fun K => lets_passes h B K ffbs_forward_code h [gamma_0; Gammas; log_lik] Hg
      ltac:(intros u Hu; apply passes_old; [apply Hg|apply extends_refl|by apply Hi]) eq_refl) as H1. cbv zeta in H1.
    pose proof (fun bound cval rho => kept_lets (ffbs_base bound) cval B (shuffle_base bound) rho ffbs_forward_code h [gamma_0; Gammas; log_lik]) as V1. cbv zeta in V1.
    destruct (mk_code B h _ _) as [h1 env]. cbn [fst snd] in H1, V1. destruct (H1 (fun _ => 0)) as (E1 & G1 & L1 & _). cbn in L1.
    assert (P1 : forall i K, i < 11 -> passes_on h h1 (default 0 (env !! i)) K).
    { intros i K Hlt. destruct (lookup_lt_is_Some_2 env i ltac:(rewrite L1; exact Hlt)) as [v Hv]. rewrite Hv. cbn. apply H1. by eapply elem_of_list_lookup_2. }
    clear H1. set (beta_N := default 0 (env !! 8)). set (sa := default 0 (env !! 9)). set (sG := default 0 (env !! 10)).
    pose proof (draw_spec B RV_categorical h h1 beta_N G1 E1 ltac:(intros K; apply P1; lia)) as H2.
    destruct (draw_one B h1 RV_categorical beta_N) as [h2 [[r1 next1] st]].
    destruct H2 as (E2 & G2 & Fr1 & Wr1 & Sr1 & D1 & n1 & sz & dt & Hn1 & Wnx & Wst & Sst & NSst & N1 & Pst).
    pose proof (extends_trans _ _ _ E1 E2) as X2.
    pose proof (fun K => placeholder_passes h h2 sa K G2) as H3. pose proof (placeholder_fresh h2 sa) as Fa. destruct (placeholder h2 sa) as [h3 a]. cbn in H3, Fa.
    destruct (H3 (fun _ => 0)) as (E3 & G3 & _). assert (Pa : forall K, passes_on h h3 a K) by (intros K; apply H3). clear H3.
    pose proof (fun K => placeholder_passes h h3 sG K G3) as H4. pose proof (placeholder_fresh h3 sG) as FG. destruct (placeholder h3 sG) as [h4 G]. cbn in H4, FG.
    destruct (H4 (fun _ => 0)) as (E4 & G4 & _). assert (PG : forall K, passes_on h h4 G K) by (intros K; apply H4). clear H4.
    pose proof (fun K => placeholder_passes h h4 st K G4) as H5. pose proof (placeholder_fresh h4 st) as Fs. destruct (placeholder h4 st) as [h5 s]. cbn in H5, Fs.
    destruct (H5 (fun _ => 0)) as (E5 & G5 & _). assert (Ps : forall K, passes_on h h5 s K) by (intros K; apply H5). clear H5.
    pose proof (extends_trans _ _ _ E3 (extends_trans _ _ _ E4 E5)) as E25. pose proof (extends_trans _ _ _ X2 E25) as X5.
    pose proof (fun K => lets_passes h B K ffbs_backward_code h5 [a; G; s] G5
      ltac:(intros u [->|[->| ->%elem_of_list_singleton]%elem_of_cons]%elem_of_cons;
        [eapply passes_extends; [apply G3|exact (extends_trans _ _ _ E4 E5)|apply Pa]|eapply passes_extends; [apply G4|exact E5|apply PG]|apply Ps]) eq_refl) as H6.
    pose proof (fun bound cval rho => kept_lets (ffbs_base bound) cval B (shuffle_base bound) rho ffbs_backward_code h5 [a; G; s]) as V6. cbv zeta in V6.
    cbv zeta in H6. destruct (mk_code B h5 _ _) as [h6 inner]. cbn [fst snd] in H6, V6. destruct (H6 (fun _ => 0)) as (E6 & G6 & L6 & _). cbn in L6.
    assert (Pb : forall K, passes_on h h6 (default 0 (inner !! 4)) K).
    { intros K. destruct (lookup_lt_is_Some_2 inner 4 ltac:(rewrite L6; lia)) as [v Hv]. rewrite Hv. cbn. apply H6. by eapply elem_of_list_lookup_2. }
    clear H6. set (beta_n := default 0 (inner !! 4)) in *. pose proof (extends_trans _ _ _ X5 E6) as X6.
    pose proof (draw_spec B RV_categorical h h6 beta_n G6 X6 Pb) as H7.
    destruct (draw_one B h6 RV_categorical beta_n) as [h7 [[r2 u0] x0]].
    destruct H7 as (E7 & G7 & Fr2 & Wr2 & Sr2 & D2 & n0 & sz' & dt' & Hn0 & Wu0 & Wx0 & Sx0 & NSx0 & N0 & _).
    pose proof (extends_trans _ _ _ X6 E7) as X7. pose proof (extends_trans _ _ _ E25 (extends_trans _ _ _ E6 E7)) as E27.
    set (o := OOther (8 * fresh (dom (h_nodes h7)) + K_scan)). set (ins := [sa; sG; st; r2]).
    set (n2 := fresh (dom (h_nodes h7))).
    destruct (alloc_node_spec h7 o ins [(None, b_draw B h7 o ins); (None, b_rng B)]) as (_ & Nd8 & Fr8 & Hv8 & _ & Hn2 & N2 & _).
    pose proof (alloc_node_extends h7 o ins [(None, b_draw B h7 o ins); (None, b_rng B)]) as E8.
    pose proof (node_ok h (fun _ => True) h7 o ins [(None, b_draw B h7 o ins); (None, b_rng B)] ltac:(done) (conj X7 G7)) as Hok.
    rewrite apply_rng_alloc in Nd8, Fr8, Hv8, N2, E8, Hok. destruct (apply_rng h7 o ins _ _) as [[h8 sts] next2]. cbn [fst snd] in *.
    assert (Sr2' : is_Some (hv h7 r2)) by by apply shared_some.
    assert (Pin : forall u, u ∈ [sa; sG; st] -> forall K, K r1 = n1 -> passes_on h h7 u K).
    { intros u [->|[->| ->%elem_of_list_singleton]%elem_of_cons]%elem_of_cons K HK.
      - eapply passes_extends; [apply G1|exact (extends_trans _ _ _ E2 E27)|apply P1; lia].
      - eapply passes_extends; [apply G1|exact (extends_trans _ _ _ E2 E27)|apply P1; lia].
      - eapply passes_extends; [apply G2|exact E27|by apply Pst]. }
    assert (Sin : forall u, u ∈ ins -> is_Some (hv h7 u)).
    { intros u Hu. assert (Hu' : u ∈ [sa; sG; st] \/ u = r2) by (unfold ins in Hu; clear -Hu; set_solver).
      destruct Hu' as [Hu'| ->]; [|done]. exact (proj1 (Pin u Hu' (fun _ => n1) eq_refl)). }
    assert (G8 : good_heap h8). { destruct Hok as (_ & [_ G8] & _); [|exact G8]. intros u Hu. split; [by apply Sin|by left]. }
    pose proof (Hv8 0 sts None _ eq_refl eq_refl) as Hsts. pose proof (Hv8 1 next2 None _ eq_refl eq_refl) as Hnx2.
    fold n2 in N2, Hn2, Hsts, Hnx2.
    assert (Hn12 : n1 <> n2). { intros Heq. apply (proj2 E27) in N1. rewrite Heq in N1. congruence. }
    assert (Hn02 : n0 <> n2) by (intros Heq; rewrite Heq in N0; congruence).
    assert (Hr12 : r1 <> r2).
    { intros Heq. rewrite <- Heq in Fr2. destruct (shared_some _ _ Sr1) as [z Hz].
      pose proof (proj1 (extends_trans _ _ _ E25 E6) r1 z Hz). congruence. }

    pose proof (Fr8 sts ltac:(by left)) as Fsts.
    assert (Ssts : is_Some (hv h8 sts)) by eauto. pose proof (extends_trans _ _ _ E27 E8) as E28.
    assert (Sst8 : is_Some (hv h8 st)) by (by eapply extends_some).
    pose proof (unit_expr B [st; sts] h8 (F1 F_reverse (F2 F_join (F1 F_atleast (EV 0)) (EV 1))) G8
      ltac:(intros u [->| ->%elem_of_list_singleton]%elem_of_cons; done) tt eq_refl) as (E9 & G9).
    pose proof (fun bound cval rho => kept_expr (ffbs_base bound) cval B (shuffle_base bound) rho [st; sts]) as V9.
    specialize (fun bound cval rho vals => V9 bound cval rho vals (F1 F_reverse (F2 F_join (F1 F_atleast (EV 0)) (EV 1))) h8) as V9'. clear V9.
    destruct (mk_expr B [st; sts] h8 _) as [h9 out]. cbn [fst snd] in E9, G9, V9'.
    pose proof (extends_trans _ _ _ E28 E9) as E29. pose proof (extends_trans _ _ _ E7 (extends_trans _ _ _ E8 E9)) as E69.
    assert (Fst : hv h1 st = None).
    { destruct (hv h1 st) eqn:Est; [|done]. pose proof (extends_owner_old h1 h2 st E2 ltac:(by eauto)) as Hw. rewrite Wst in Hw. symmetry in Hw.
      destruct (wf_owner h1 (proj1 G1) _ _ _ Hw) as (nd & Hnd & _). congruence. }
    assert (Sa : is_Some (hv h3 a)) by exact (proj1 (Pa (fun _ => 0))). assert (SG : is_Some (hv h4 G)) by exact (proj1 (PG (fun _ => 0))).
    assert (Ss : is_Some (hv h5 s)) by exact (proj1 (Ps (fun _ => 0))).
    exists n1, r1, sz, dt, beta_N, next1, st, n2, o, sa, sG, r2, sts, next2, n0, sz', dt', beta_n, u0, x0, a, G, s.
    split; [exact (proj2 E29 _ _ N1)|]. split; [exact (proj2 E9 _ _ N2)|].
    split; [exact (proj2 (extends_trans _ _ _ E8 E9) _ _ N0)|].
    assert (Xst : hv h st = None) by exact (back _ _ _ E1 Fst). assert (Xa : hv h1 a = None) by exact (back _ _ _ E2 Fa).
    assert (XG : hv h2 G = None) by exact (back _ _ _ E3 FG). assert (Xs : hv h2 s = None) by exact (back _ _ _ (extends_trans _ _ _ E3 E4) Fs).
    assert (Xsts : hv h6 sts = None) by exact (back _ _ _ E7 Fsts).
    assert (Xsts5 : hv h5 sts = None) by exact (back _ _ _ E6 Xsts).
    assert (Xsts2 : hv h2 sts = None) by exact (back _ _ _ E25 Xsts5).
    pose proof (extends_trans _ _ _ E4 E5) as E35.
    split.
    { assert (Hd : forall g x y, is_Some (hv g x) -> hv g y = None -> x <> y) by (intros g x y Hx Hy ->; by eapply none_some).
      assert (Fs3 : hv h3 s = None) by exact (back _ _ _ E4 Fs).
      pose proof (extends_some _ _ _ E35 Sa) as Sa5. pose proof (extends_some _ _ _ E5 SG) as SG5.
      pose proof (Hd h2 st sts Sst Xsts2). pose proof (Hd h2 st a Sst Fa). pose proof (Hd h2 st G Sst XG). pose proof (Hd h2 st s Sst Xs).
      pose proof (Hd h5 a sts Sa5 Xsts5). pose proof (Hd h5 G sts SG5 Xsts5). pose proof (Hd h5 s sts Ss Xsts5).
      pose proof (Hd h3 a G Sa FG). pose proof (Hd h3 a s Sa Fs3). pose proof (Hd h4 G s SG Fs).
      repeat apply NoDup_cons_2; [..|apply NoDup_nil_2]; rewrite ?not_elem_of_cons; repeat split; try apply not_elem_of_nil; congruence. }
    split.
    { intros u Hu. repeat (apply elem_of_cons in Hu as [->|Hu]); [exact Xst|exact (back _ _ _ X2 Xsts2)|exact (back _ _ _ E1 Xa)|exact (back _ _ _ X2 XG)|exact (back _ _ _ X2 Xs)|].
      by apply elem_of_nil in Hu. }
    split; [done|]. intros bound cval rho Hrho. split; [|split].
    - intros g0 Gs0 ll N Gs alpha_N earlier Hg0 HGs0 Hll Hs0 Hbc Hfw HsN.
      destruct (forward_values cval B bound g0 Gs0 ll N Gs alpha_N earlier Hs0 Hbc Hfw HsN) as (vals & Hvals & _ & H8 & H9 & H10).
      assert (Hoks : Forall2 (ok (ffbs_base bound) cval (cut h rho) h1) env vals).
      { apply (V1 bound cval (cut h rho) [FVec g0; FMats Gs0; FLogLik ll N]); [done|apply cut_old| |done].
        constructor; [apply ok_given; [apply Hi; by left|done]|]. constructor; [apply ok_given; [apply Hi; right; by left|done]|].
        constructor; [apply ok_given; [apply Hi; right; right; by left|done]|constructor]. }
      assert (Hget : forall i x, vals !! i = Some x -> evals (ffbs_base bound) cval h9 rho (default 0 (env !! i)) x).
      { intros i x Hx. destruct (Forall2_lookup_r _ _ _ _ _ Hoks Hx) as (v & Hv & Hv'). rewrite Hv. cbn.
        eapply (uncut _ _ h h1 h9); [exact G1|exact E1|exact (extends_trans _ _ _ E2 E29)| |exact Hv'].
        intros u Hu Hu1. apply Hrho; [done|]. intros Hin. eapply none_some; [exact Hu1|].
        repeat (apply elem_of_cons in Hin as [->|Hin]); [exact Fst|exact (back _ _ _ E2 Xsts2)|exact Xa|exact (back _ _ _ E2 XG)|exact (back _ _ _ E2 Xs)|].
        by apply elem_of_nil in Hin. }
      split; [by apply Hget|]. split; by apply Hget.
    - intros al Gam q Ha HG Hq Hs0. destruct (backward_values cval B bound al Gam q Hs0) as (vals & Hvals & _ & H4).
      assert (Hoks : Forall2 (ok (ffbs_base bound) cval (cut h5 rho) h6) inner vals).
      { apply (V6 bound cval (cut h5 rho) [FVec al; FMat Gam; FState q]); [done|apply cut_old| |done].
        constructor; [apply ok_given; [exact (extends_some _ _ _ E35 Sa)|done]|]. constructor; [apply ok_given; [exact (extends_some _ _ _ E5 SG)|done]|].
        constructor; [by apply ok_given|constructor]. }
      destruct (Forall2_lookup_r _ _ _ _ _ Hoks H4) as (v & Hv & Hv'). unfold beta_n. rewrite Hv. cbn.
      eapply (uncut _ _ h5 h6 h9); [exact G6|exact E6|exact E69| |exact Hv'].
      intros u Hu Hu1. apply Hrho; [exact (back _ _ _ X5 Hu)|]. intros Hin.
      repeat (apply elem_of_cons in Hin as [->|Hin]);
        [eapply none_some; [exact (extends_some _ _ _ E25 Sst)|exact Hu]|eapply none_some; [exact Hu1|exact Xsts]
        |eapply none_some; [exact (extends_some _ _ _ E35 Sa)|exact Hu]|eapply none_some; [exact (extends_some _ _ _ E5 SG)|exact Hu]
        |eapply none_some; [exact Ss|exact Hu]|]. by apply elem_of_nil in Hin.
    - intros q rest Hq Hrest.
      destruct (V9' bound cval (cut h8 rho) [FState q; FStates rest] (FStates (rev (q :: rest))) G8) as (_ & _ & Hout); [apply cut_old| |reflexivity|].
      { constructor; [by apply ok_given|]. constructor; [by apply ok_given|constructor]. }
      eapply (uncut _ _ h8 h9 h9); [exact G9|exact E9|apply extends_refl| |exact Hout].
      intros u Hu Hu1. pose proof (extends_trans _ _ _ E6 (extends_trans _ _ _ E7 E8)) as E58. apply Hrho; [exact (back _ _ _ (extends_trans _ _ _ X5 E58) Hu)|]. intros Hin.
      repeat (apply elem_of_cons in Hin as [->|Hin]);
        [eapply none_some; [exact Sst8|exact Hu]|eapply none_some; [exact Ssts|exact Hu]
        |eapply none_some; [exact (extends_some _ _ _ (extends_trans _ _ _ E35 E58) Sa)|exact Hu]|eapply none_some; [exact (extends_some _ _ _ (extends_trans _ _ _ E5 E58) SG)|exact Hu]
        |eapply none_some; [exact (extends_some _ _ _ E58 Ss)|exact Hu]|]. by apply elem_of_nil in Hin.
  Qed.
End graph.
