(** Lemmas for C61: the forward transform undoes the backward transform. *)
From Verif Require Export L_nuts_value.
From Coq Require Import Lra.

Lemma logit_sigmoid y : let p := (/ (1 + exp (- y)))%R in (ln p - ln (1 - p) = y)%R.
Proof.
  cbn zeta. pose proof (exp_pos (- y)) as He.
  replace (1 - / (1 + exp (- y)))%R with (exp (- y) * / (1 + exp (- y)))%R by (field; lra).
  rewrite ln_mult, ln_exp; [lra|done|apply Rinv_0_lt_compat; lra].
Qed.

Lemma bwd_inv k bs x0 y : k <> KCircular -> kind_support k bs x0 ->
  exists x, bwd_elem k (Some y :: (Some <$> bs)) = Some (Some x) /\ fwd_elem k (Some x :: (Some <$> bs)) = Some (Some y).
Proof.
  intros Hk. pose proof (sigmoid_range y) as Hs. pose proof (logit_sigmoid y) as Hl. cbn zeta in Hl.
  destruct k; destruct bs as [|a [|b [|c bs]]]; cbn [kind_support]; intros H; try done; (eexists; split; [reflexivity|]);
    cbn [fwd_elem fmap list_fmap]; change (nsub (Some ?u) (Some ?v)) with (Some (u - v)%R).
  - rewrite nlog_pos by apply exp_pos. by rewrite ln_exp.
  - set (p := (/ (1 + exp (- y)))%R) in *. rewrite ndiv_some by lra. rewrite nlog_pos by (apply Rdiv_lt_0_compat; lra).
    do 2 f_equal. unfold Rdiv. rewrite ln_mult, ln_Rinv; try lra. apply Rinv_0_lt_compat; lra.
  - set (p := (/ (1 + exp (- y)))%R) in *.
    replace (p * b + (1 - p) * a - a)%R with (p * (b - a))%R by ring.
    replace (b - (p * b + (1 - p) * a))%R with ((1 - p) * (b - a))%R by ring.
    rewrite !nlog_pos by (apply Rmult_lt_0_compat; lra). cbn. do 2 f_equal. rewrite !ln_mult by lra. lra.
  - replace (exp y + a - a)%R with (exp y) by ring. rewrite nlog_pos by apply exp_pos. by rewrite ln_exp.
  - replace (a - (a - exp y))%R with (exp y) by ring. rewrite nlog_pos by apply exp_pos. by rewrite ln_exp.
Qed.

Lemma backward_inv k x y bs : k <> KSimplex -> k <> KCircular -> tensor_ok x -> length bs = karity k -> Forall (fits (t_shape x)) bs ->
  elem_support k bs x -> tensor_ok y -> t_shape y = t_shape x -> finite y ->
  exists x', backward k (y :: bs) = Some x' /\ forward k (x' :: bs) = Some y.
Proof.
  intros Hk Hc Hok Hl Hbs Hsup Hyok Hys Hyf. rewrite backward_elem by done.
  destruct (numpy_full (bwd_elem k) y bs Hyok) as (x' & Hx' & Hxok & Hxs & Hxat).
  { by rewrite Hys. }
  { intros vals Hv. apply bwd_elem_total; [done|]. by rewrite Hv, Hl. }
  exists x'. split; [done|]. rewrite forward_elem by done.
  destruct (numpy_full (fwd_elem k) x' bs Hxok) as (y' & Hy' & Hyok' & Hys' & Hyat).
  { by rewrite Hxs, Hys. }
  { intros vals Hv. apply fwd_elem_total; [done|]. by rewrite Hv, Hl. }
  rewrite Hy'. f_equal. apply tensor_ext; [done|done|congruence|]. intros idx Hi. rewrite Hys' in Hi. rewrite (Hyat idx Hi).
  rewrite Hxs in Hi. rewrite (Hxat idx Hi).
  destruct (proj1 (finite_at y Hyok) Hyf idx Hi) as [v Hv]. rewrite Hys in Hi.
  destruct (Hsup idx Hi) as (b & r & Hb & Hr & Hs). rewrite Hb, Hv.
  destruct (bwd_inv k b r v Hc Hs) as (x1 & H1 & H2). cbn in H1 |- *. rewrite H1. exact H2.
Qed.

Lemma rsum_ln l : Forall (fun r => 0 < r)%R l -> forall c, (0 < c)%R -> ((fun v => ln v) <$> ((fun v => v / c)%R <$> l)) = (fun v => v - ln c)%R <$> (ln <$> l).
Proof.
  intros Hl c Hc. rewrite <- !list_fmap_compose. apply list_fmap_ext. intros i v Hv. cbn.
  assert (Hp : (0 < v)%R) by (rewrite Forall_forall in Hl; apply Hl; by eapply elem_of_list_lookup_2).
  unfold Rdiv. rewrite ln_mult, ln_Rinv; [lra|done|done|by apply Rinv_0_lt_compat].
Qed.
Lemma bwd_row_inv y : exists v, bwd_row (Some <$> y) = Some <$> v /\ length v = S (length y) /\ fwd_row (Some <$> v) = Some <$> y.
Proof.
  destruct (bwd_row_val y) as [m Hm]. cbn zeta in Hm. set (z := y ++ [(- rsum y)%R]) in *. set (e := (fun v => exp (v - m)) <$> z) in *.
  set (v := (fun v => v / rsum e)%R <$> e) in *.
  assert (Hz : z <> []) by (unfold z; by destruct y).
  assert (He : Forall (fun r => 0 < r)%R e) by (apply Forall_fmap, Forall_forall; intros; apply exp_pos).
  assert (Hs : (0 < rsum e)%R) by (apply rsum_pos; [unfold e; by destruct z|done]).
  assert (Hlz : length z = S (length y)) by (unfold z; rewrite app_length; cbn; lia).
  assert (Hlv : length v = S (length y)) by (unfold v, e; by rewrite !fmap_length).
  assert (Hvp : Forall (fun r => 0 < r)%R v) by (apply Forall_fmap; eapply Forall_impl; [exact He|]; intros; by apply Rdiv_lt_0_compat).
  exists v. split; [done|]. split; [done|].
  assert (Hlog : nlog <$> (Some <$> v) = Some <$> (ln <$> v)).
  { rewrite <- !list_fmap_compose. apply list_fmap_ext. intros i r Hr. apply nlog_pos.
    rewrite Forall_forall in Hvp. apply Hvp. by eapply elem_of_list_lookup_2. }
  assert (Hlv' : ln <$> v = (fun r => r - (m + ln (rsum e)))%R <$> z).
  { transitivity ((fun v => v - ln (rsum e))%R <$> (ln <$> e)); [exact (rsum_ln e He (rsum e) Hs)|].
    unfold e at 2. rewrite <- !list_fmap_compose. apply list_fmap_ext. intros i r _. cbn. rewrite ln_exp. lra. }
  set (C := (m + ln (rsum e))%R) in *.
  assert (Hz0 : rsum z = 0%R) by (unfold z; rewrite rsum_app; cbn; lra).
  unfold fwd_row. rewrite Hlog, nsum_some, fmap_length, Hlv, Hlv'. rewrite rsum_sub, Hz0, Hlz.
  rewrite ndiv_some by (apply not_0_INR; lia).
  replace ((0 - INR (S (length y)) * C) / INR (S (length y)))%R with (- C)%R by (field; apply not_0_INR; lia).
  cbn [Nat.sub]. rewrite Nat.sub_0_r. rewrite <- !list_fmap_compose.
  assert (Hid : (fun v0 => nsub v0 (Some (- C)%R)) ∘ Some ∘ (fun r => r - C)%R <$> z = Some <$> z).
  { apply list_fmap_ext. intros i r _. cbn. f_equal. lra. }
  transitivity (take (length y) (Some <$> z)); [by rewrite <- Hid|]. unfold z. rewrite fmap_app. apply take_app_alt. by rewrite fmap_length.
Qed.

Lemma backward_simplex_inv P x y y' : tensor_ok x -> in_support RV_dirichlet P x -> forward KSimplex [x] = Some y ->
  tensor_ok y' -> t_shape y' = t_shape y -> finite y' ->
  exists x', backward KSimplex [y'] = Some x' /\ forward KSimplex [x'] = Some y'.
Proof.
  intros Hok Hsup Hy Hok' Hsh' Hf. pose proof Hsup as (s & n & Hsh & Hn & _). destruct n as [|n]; [lia|].
  assert (Hys : t_shape y = s ++ [n]).
  { unfold forward, fwd_simplex in Hy. rewrite Hsh, last_snoc, (on_rows_val _ _ _ _ _ Hsh) in Hy. cbn [Nat.sub] in Hy.
    rewrite Nat.sub_0_r in Hy. by injection Hy as <-. }
  rewrite Hys in Hsh'. assert (Hlen : length (t_data y') = size_of s * n) by (rewrite Hok', Hsh', size_of_app; cbn; lia).
  destruct (reshape_rows _ _ _ Hlen) as (L1 & L2 & L3). unfold backward, bwd_simplex. rewrite (on_rows_val _ _ _ _ _ Hsh').
  set (rows := reshape (replicate (size_of s) n) (t_data y')) in *. eexists. split; [reflexivity|].
  assert (Hrow : forall r, r ∈ rows -> length (bwd_row r) = S n /\ fwd_row (bwd_row r) = r).
  { intros r Hr. assert (Hv : exists v, r = Some <$> v).
    { assert (Hfr : Forall is_Some r).
      { apply Forall_forall. intros a Ha. unfold finite in Hf. rewrite Forall_forall in Hf. apply Hf. rewrite <- L3.
        apply elem_of_list_join. by exists r. }
      clear -Hfr. induction Hfr as [|a r [w ->] H [v ->]]; [by exists []|by exists (w :: v)]. }
    destruct Hv as [v ->]. destruct (bwd_row_inv v) as (w & Hw & Hl & Hs). rewrite Hw. split; [|done].
    rewrite Forall_forall in L2. specialize (L2 _ Hr). rewrite fmap_length in *. congruence. }
  assert (Hb : Forall (fun r => length r = S n) (bwd_row <$> rows)).
  { apply Forall_fmap, Forall_forall. intros r Hr. by apply Hrow. }
  destruct (reshape_join (S n) (bwd_row <$> rows) Hb) as [J1 J2]. rewrite fmap_length, L1 in J1, J2.
  unfold forward, fwd_simplex. cbn [t_shape]. rewrite last_snoc. rewrite (on_rows_val _ _ _ s (S n)) by done. cbn [t_data]. rewrite J1.
  cbn [Nat.sub]. rewrite Nat.sub_0_r. destruct y' as [sy dy]. cbn in *. rewrite Hsh'. do 2 f_equal. rewrite <- L3. f_equal.
  rewrite <- list_fmap_compose. transitivity ((fun r : list num => r) <$> rows); [|by rewrite list_fmap_id].
  apply list_fmap_ext. intros i r Hi. cbn. apply Hrow. by eapply elem_of_list_lookup_2.
Qed.

Lemma circular_only d k pos : aeppl_default d = Some (k, pos) -> d <> RV_vonmises -> d <> RV_dirichlet -> k <> KCircular.
Proof.
  intros Hd Hv Hn. pose proof (covered d k pos Hd Hn) as Hc.
  repeat (apply elem_of_cons in Hc as [->|Hc]; [cbn in Hd; injection Hd as <- <-; done|]). by apply elem_of_nil in Hc.
Qed.

(** the forward transform undoes the backward transform, except for angles *)
Lemma change_back d P x y y' : nparams d = Some (length P) -> tensor_ok x -> Forall (fits (t_shape x)) P -> in_support d P x ->
  d <> RV_vonmises -> let t := aeppl_default d in let args := arg_values P t in
  tforward t x args = Some y -> tensor_ok y' -> t_shape y' = t_shape y -> finite y' ->
  exists x', tbackward t y' args = Some x' /\ tforward t x' args = Some y'.
Proof.
  intros Hn Hok Hfit Hs Hvm t args. destruct (decide (d = RV_dirichlet)) as [->|Hnd].
  - cbn. intros Hy H1 H2 H3. by apply (backward_simplex_inv P x y).
  - destruct t as [[k pos]|] eqn:Ht; unfold t in *.
    + destruct (covered_kind d k pos P Ht Hnd Hn) as (Hk & Hl & Hsub).
      assert (Hbs : Forall (fits (t_shape x)) args).
      { apply Forall_forall. intros p Hp. rewrite Forall_forall in Hfit. by apply Hfit, Hsub. }
      pose proof (support_elem d P x k pos Ht Hnd Hn Hs) as He. cbn [tforward tbackward].
      destruct (forward_support k x args Hk Hok Hl Hbs He) as (y0 & Hy0 & _ & Hys & _). intros Hy. rewrite Hy0 in Hy. injection Hy as <-.
      intros H1 H2 H3. rewrite Hys in H2. apply (backward_inv k x y' args Hk); try done. by eapply circular_only.
    + cbn. intros _ _ _ _. by exists y'.
Qed.
