(** Lemmas for the change of variables and the flattening of M_nuts.v. *)
From Verif Require Export S_nuts L_broadcast.
From Coq Require Import Lra.

Ltac inv_opt := repeat match goal with H : Some _ = Some _ |- _ => injection H as H; subst end.

(** ** One element *)
Definition kind_support (k : tkind) (bs : list R) (x : R) : Prop :=
  match k, bs with
  | KLog, [] => 0 < x
  | KLogOdds, [] => 0 < x < 1
  | KInterval, [a; b] => a < x < b
  | KLower, [a] => a < x
  | KUpper, [b] => x < b
  | KCircular, [] => - PI < x <= PI
  | _, _ => False
  end%R.

Lemma sigmoid_range y : (0 < / (1 + exp (- y)) < 1)%R.
Proof.
  pose proof (exp_pos (- y)) as He. split; [apply Rinv_0_lt_compat; lra|].
  rewrite <- Rinv_1 at 2. apply Rinv_lt_contravar; lra.
Qed.
Lemma sigmoid_logit p : (0 < p < 1)%R -> (/ (1 + exp (- (ln p - ln (1 - p)))) = p)%R.
Proof.
  intros Hp. replace (- (ln p - ln (1 - p)))%R with (ln (1 - p) - ln p)%R by lra. unfold Rminus at 1. rewrite exp_plus, exp_Ropp, !exp_ln by lra.
  field. lra.
Qed.

Lemma Int_part_range z : (IZR (Int_part z) <= z < IZR (Int_part z) + 1)%R.
Proof. destruct (base_Int_part z) as [H1 H2]. lra. Qed.
Lemma wrap_range x : (- PI < wrap x <= PI)%R.
Proof.
  unfold wrap. pose proof PI_RGT_0 as HP. rewrite opp_IZR. set (z := (- ((x - PI) / (2 * PI)))%R).
  pose proof (Int_part_range z) as Hz. assert (Hx : x = (PI - 2 * PI * z)%R) by (unfold z; field; lra).
  rewrite Hx. nra.
Qed.
Lemma wrap_id x : (- PI < x <= PI)%R -> wrap x = x.
Proof.
  intros Hx. unfold wrap. pose proof PI_RGT_0 as HP. rewrite opp_IZR. set (z := (- ((x - PI) / (2 * PI)))%R).
  assert (Hz : (0 <= z < 1)%R).
  { unfold z. assert (H : (- ((x - PI) / (2 * PI)) = (PI - x) / (2 * PI))%R) by (field; lra). rewrite H. split.
    - apply Rmult_le_pos; [lra|]. left. apply Rinv_0_lt_compat. lra.
    - apply (Rmult_lt_reg_r (2 * PI)); [lra|]. unfold Rdiv. rewrite Rmult_assoc, Rinv_l by lra. lra. }
  assert (Hi : Int_part z = 0%Z).
  { pose proof (Int_part_range z) as [H1 H2]. apply Z.le_antisymm.
    - apply Z.lt_succ_r. apply lt_IZR. rewrite succ_IZR. lra.
    - apply Z.lt_succ_r. apply lt_IZR. rewrite succ_IZR. lra. }
  rewrite Hi. lra.
Qed.
(** it is the same angle *)
Lemma wrap_angle x : exists k : Z, wrap x = (x + 2 * PI * IZR k)%R.
Proof. exists (Int_part (- ((x - PI) / (2 * PI)))). unfold wrap. rewrite opp_IZR. lra. Qed.

Lemma bwd_in k bs x0 y : kind_support k bs x0 ->
  exists x, bwd_elem k (Some y :: (Some <$> bs)) = Some (Some x) /\ kind_support k bs x.
Proof.
  destruct k; destruct bs as [|a [|b [|c bs]]]; cbn; intros H; try done; (eexists; split; [reflexivity|]).
  - apply exp_pos.
  - apply sigmoid_range.
  - pose proof (sigmoid_range y) as Hs. nra.
  - pose proof (exp_pos y). lra.
  - pose proof (exp_pos y). lra.
  - apply wrap_range.
Qed.

Lemma nlog_pos x : (0 < x)%R -> nlog (Some x) = Some (ln x).
Proof. intros H. unfold nlog. cbn. by destruct (Rlt_dec 0 x). Qed.
Lemma ndiv_some x y : y <> 0%R -> ndiv (Some x) (Some y) = Some (x / y)%R.
Proof. intros H. unfold ndiv. cbn. by destruct (Req_EM_T y 0). Qed.

Lemma fwd_inv k bs x : kind_support k bs x ->
  exists y, fwd_elem k (Some x :: (Some <$> bs)) = Some (Some y) /\ bwd_elem k (Some y :: (Some <$> bs)) = Some (Some x).
Proof.
  destruct k; destruct bs as [|a [|b [|c bs]]]; cbn [kind_support fwd_elem bwd_elem fmap list_fmap]; intros H; try done.
  all: change (nsub (Some ?u) (Some ?v)) with (Some (u - v)%R) in *.
  - rewrite nlog_pos by done. eexists. split; [reflexivity|]. cbn. by rewrite exp_ln.
  - rewrite ndiv_some by lra. rewrite nlog_pos by (apply Rdiv_lt_0_compat; lra). eexists. split; [reflexivity|].
    unfold nsigmoid, nlift. cbn. do 2 f_equal.
    assert (Hl : ln (x / (1 - x)) = (ln x - ln (1 - x))%R).
    { unfold Rdiv. rewrite ln_mult, ln_Rinv; try lra. apply Rinv_0_lt_compat; lra. }
    rewrite Hl. by apply sigmoid_logit.
  - rewrite !nlog_pos by lra. eexists. split; [reflexivity|]. cbn. do 2 f_equal.
    set (p := ((x - a) / (b - a))%R).
    assert (Hp : (0 < p < 1)%R).
    { unfold p. split; [apply Rdiv_lt_0_compat; lra|]. apply (Rmult_lt_reg_r (b - a)); [lra|]. unfold Rdiv. rewrite Rmult_assoc, Rinv_l by lra. lra. }
    assert (He : (ln (x - a) - ln (b - x) = ln p - ln (1 - p))%R).
    { assert (H1 : (1 - p = (b - x) / (b - a))%R) by (unfold p; field; lra). rewrite H1. unfold p, Rdiv.
      rewrite !ln_mult by (try apply Rinv_0_lt_compat; lra). lra. }
    rewrite He, sigmoid_logit by done. unfold p. field. lra.
  - rewrite nlog_pos by lra. eexists. split; [reflexivity|]. cbn. do 2 f_equal. rewrite exp_ln by lra. lra.
  - rewrite nlog_pos by lra. eexists. split; [reflexivity|]. cbn. do 2 f_equal. rewrite exp_ln by lra. lra.
  - eexists. split; [reflexivity|]. cbn. by rewrite wrap_id.
Qed.

(** ** Arrays *)
Section arrays.
  Context {A : Type}.
  Lemma indices_NoDup_nuts s : NoDup (indices s).
  Proof.
    induction s as [|d s IH]; cbn; [apply NoDup_singleton|]. generalize 0 as b. induction d as [|d IHd]; intros b; cbn; [constructor|].
    apply NoDup_app. split; [apply (NoDup_fmap_2 (cons b)); exact IH|]. split; [|apply IHd].
    intros idx Hi Hj. apply (elem_of_list_fmap_2 (cons b)) in Hi as (i & -> & _). apply elem_of_list_In, in_flat_map in Hj as (c & Hc & Hj).
    apply in_map_iff in Hj as (j & Hj & _). apply in_seq in Hc. injection Hj as -> _. lia.
  Qed.
  Lemma index_of s i idx : indices s !! i = Some idx -> in_range s idx /\ ravel s idx = i.
  Proof.
    intros Hi. assert (Hr : in_range s idx) by (apply elem_of_indices; by eapply elem_of_list_lookup_2). split; [done|].
    eapply NoDup_lookup; [apply indices_NoDup_nuts|by apply indices_ravel|done].
  Qed.
  Lemma t_at_lookup (x : tensor A) i a : tensor_ok x -> t_data x !! i = Some a ->
    exists idx, in_range (t_shape x) idx /\ t_at x idx = Some a.
  Proof.
    intros Hok Hi. assert (Hl : i < length (indices (t_shape x))).
    { rewrite indices_length, <- Hok. by eapply lookup_lt_Some. }
    apply lookup_lt_is_Some in Hl as [idx Hidx]. apply index_of in Hidx as [Hr He]. exists idx. split; [done|].
    unfold t_at. by rewrite He.
  Qed.
  Lemma tensor_ext (x y : tensor A) : tensor_ok x -> tensor_ok y -> t_shape x = t_shape y ->
    (forall idx, in_range (t_shape x) idx -> t_at x idx = t_at y idx) -> x = y.
  Proof.
    intros Hx Hy Hs He. assert (Hd : t_data x = t_data y); [|destruct x, y; cbn in *; congruence].
    apply list_eq_same_length with (n := length (t_data x)); [unfold tensor_ok in *; by rewrite Hx, Hy, Hs|done|].
    intros i a b _ Ha Hb. destruct (t_at_lookup x i a Hx Ha) as (idx & Hi & Hat).
    assert (Hl : i < length (indices (t_shape x))) by (rewrite indices_length, <- Hx; by eapply lookup_lt_Some).
    apply lookup_lt_is_Some in Hl as [idx' Hidx]. apply index_of in Hidx as [Hr Hrv].
    specialize (He idx' Hr). unfold t_at in He. rewrite <- Hs, Hrv, Ha, Hb in He. congruence.
  Qed.
End arrays.

Lemma finite_at x : tensor_ok x -> (finite x <-> forall idx, in_range (t_shape x) idx -> exists r, t_at x idx = Some (Some r)).
Proof.
  intros Hok. unfold finite. rewrite Forall_lookup. split.
  - intros Hf idx Hi. destruct (t_at_some x idx Hok Hi) as [a Ha]. destruct (Hf _ _ Ha) as [r Hr]. exists r. by rewrite Ha, Hr.
  - intros Hf i a Ha. destruct (t_at_lookup x i a Hok Ha) as (idx & Hi & Hat). destruct (Hf idx Hi) as [r Hr]. exists r. congruence.
Qed.

(** ** Elementwise transforms *)
Definition karity (k : tkind) : nat := match k with KInterval => 2 | KLower | KUpper => 1 | _ => 0 end.
Definition elem_support (k : tkind) (bs : list (tensor num)) (x : tensor num) : Prop :=
  forall idx, in_range (t_shape x) idx -> exists b r,
    mapM (fun p => bget p idx) bs = Some (Some <$> b) /\ t_at x idx = Some (Some r) /\ kind_support k b r.

Lemma fwd_elem_total k vals : k <> KSimplex -> length vals = S (karity k) -> is_Some (fwd_elem k vals).
Proof. intros Hk Hl. destruct k; try done; destruct vals as [|a [|b [|c [|d vals]]]]; cbn in *; try discriminate Hl; by eexists. Qed.
Lemma bwd_elem_total k vals : k <> KSimplex -> length vals = S (karity k) -> is_Some (bwd_elem k vals).
Proof. intros Hk Hl. destruct k; try done; destruct vals as [|a [|b [|c [|d vals]]]]; cbn in *; try discriminate Hl; by eexists. Qed.
Lemma forward_elem k xs : k <> KSimplex -> forward k xs = numpy_elemwise (fwd_elem k) xs.
Proof. by destruct k. Qed.
Lemma backward_elem k xs : k <> KSimplex -> backward k xs = numpy_elemwise (bwd_elem k) xs.
Proof. by destruct k. Qed.

Lemma numpy_full (f : list num -> option num) x bs : tensor_ok x -> Forall (fits (t_shape x)) bs ->
  (forall vals, length vals = S (length bs) -> is_Some (f vals)) ->
  exists z, numpy_elemwise f (x :: bs) = Some z /\ tensor_ok z /\ t_shape z = t_shape x /\
    forall idx, in_range (t_shape x) idx -> t_at z idx = vs ← mapM (fun p => bget p idx) bs; a ← t_at x idx; f (a :: vs).
Proof.
  intros Hok Hbs Hf.
  destruct (numpy_elemwise_spec f (t_shape x) (x :: bs)) as (z & Hz & Hfit & _ & Hget & Hsh).
  - done.
  - apply Forall_cons_2; [by apply fits_full|done].
  - intros vals Hv. apply Hf. exact Hv.
  - assert (Hs : t_shape z = t_shape x) by (apply Hsh; exists x; split; [by left|done]).
    exists z. split; [done|]. split; [by destruct Hfit|]. split; [done|]. intros idx Hi.
    rewrite <- (bget_full z) by (by rewrite Hs). rewrite (Hget idx Hi).
    change (mapM (fun x0 => bget x0 idx) (x :: bs)) with (a ← bget x idx; vs ← mapM (fun x0 => bget x0 idx) bs; Some (a :: vs)).
    rewrite (bget_full x idx Hi). destruct (t_at_some x idx Hok Hi) as [a Ha]. rewrite Ha. cbn.
    by destruct (mapM (fun x0 => bget x0 idx) bs).
Qed.

Lemma forward_support k x bs : k <> KSimplex -> tensor_ok x -> length bs = karity k -> Forall (fits (t_shape x)) bs -> elem_support k bs x ->
  exists y, forward k (x :: bs) = Some y /\ tensor_ok y /\ t_shape y = t_shape x /\ finite y /\ backward k (y :: bs) = Some x.
Proof.
  intros Hk Hok Hl Hbs Hsup. rewrite forward_elem by done.
  destruct (numpy_full (fwd_elem k) x bs Hok Hbs) as (y & Hy & Hyok & Hys & Hyat).
  { intros vals Hv. apply fwd_elem_total; [done|]. by rewrite Hv, Hl. }
  exists y. split; [done|]. split; [done|]. split; [done|]. split.
  - apply finite_at; [done|]. intros idx Hi. rewrite Hys in Hi. destruct (Hsup idx Hi) as (b & r & Hb & Hr & Hs).
    rewrite (Hyat idx Hi), Hb, Hr. destruct (fwd_inv k b r Hs) as (v & Hv & _). exists v. exact Hv.
  - rewrite backward_elem by done. destruct (numpy_full (bwd_elem k) y bs Hyok) as (x' & Hx' & Hxok & Hxs & Hxat).
    { by rewrite Hys. }
    { intros vals Hv. apply bwd_elem_total; [done|]. by rewrite Hv, Hl. }
    rewrite Hx'. f_equal. apply tensor_ext; [done|done|congruence|]. intros idx Hi. rewrite Hxs in Hi. rewrite (Hxat idx Hi).
    rewrite Hys in Hi. rewrite (Hyat idx Hi). destruct (Hsup idx Hi) as (b & r & Hb & Hr & Hs).
    rewrite Hb, Hr. destruct (fwd_inv k b r Hs) as (v & Hv & Hv'). cbn in Hv |- *. rewrite Hv. exact Hv'.
Qed.

Lemma backward_support k x y bs : k <> KSimplex -> tensor_ok x -> length bs = karity k -> Forall (fits (t_shape x)) bs -> elem_support k bs x ->
  tensor_ok y -> t_shape y = t_shape x -> finite y ->
  exists x', backward k (y :: bs) = Some x' /\ tensor_ok x' /\ t_shape x' = t_shape x /\ elem_support k bs x'.
Proof.
  intros Hk Hok Hl Hbs Hsup Hyok Hys Hyf. rewrite backward_elem by done.
  destruct (numpy_full (bwd_elem k) y bs Hyok) as (x' & Hx' & Hxok & Hxs & Hxat).
  { by rewrite Hys. }
  { intros vals Hv. apply bwd_elem_total; [done|]. by rewrite Hv, Hl. }
  exists x'. split; [done|]. split; [done|]. split; [congruence|]. intros idx Hi. rewrite Hxs in Hi. rewrite (Hxat idx Hi).
  apply finite_at with (idx := idx) in Hyf as [v Hv]; [|done|done].
  rewrite Hys in Hi. destruct (Hsup idx Hi) as (b & r & Hb & Hr & Hs). destruct (bwd_in k b r v Hs) as (x1 & Hx1 & Hs1).
  exists b, x1. split; [done|]. split; [|done]. rewrite Hb, Hv. exact Hx1.
Qed.

(** ** The simplex *)
Definition rsum (l : list R) : R := foldr Rplus 0%R l.
Lemma nsum_some l : nsum (Some <$> l) = Some (rsum l).
Proof. induction l as [|a l IH]; [done|]. cbn. unfold nsum in IH. by rewrite IH. Qed.
Lemma nmax_some a l : exists m, nmax (Some <$> (a :: l)) = Some m.
Proof. cbn. induction l as [|b l [m IH]]; cbn; [by exists a|]. rewrite IH. by eexists. Qed.
Lemma rsum_app l k : rsum (l ++ k) = (rsum l + rsum k)%R.
Proof. unfold rsum in *. induction l as [|a l IH]; cbn; [by rewrite Rplus_0_l|]. rewrite IH. lra. Qed.
Lemma rsum_scale (c : R) l : rsum ((fun v => v * c)%R <$> l) = (rsum l * c)%R.
Proof. unfold rsum in *. induction l as [|a l IH]; cbn; [lra|]. cbn in IH. rewrite IH. lra. Qed.
Lemma rsum_sub (c : R) l : rsum ((fun v => v - c)%R <$> l) = (rsum l - INR (length l) * c)%R.
Proof. induction l as [|a l IH]; [cbn; lra|]. rewrite fmap_cons. cbn [rsum foldr length]. rewrite S_INR. unfold rsum in IH. rewrite IH. lra. Qed.
Lemma rsum_pos l : l <> [] -> Forall (fun r => 0 < r)%R l -> (0 < rsum l)%R.
Proof.
  intros Hl Hp. destruct l as [|a l]; [done|]. apply Forall_cons in Hp as [Ha Hp]. cbn. clear Hl. revert a Ha.
  induction Hp as [|b l Hb Hp IH]; intros a Ha; cbn; [lra|]. specialize (IH b Hb). lra.
Qed.

(** a vector divided by its sum *)
Lemma softmax_simplex l (f : R -> R) : l <> [] -> (forall x, 0 < f x)%R ->
  open_simplex ((fun v => v / rsum (f <$> l))%R <$> (f <$> l)).
Proof.
  intros Hl Hf. assert (Hp : Forall (fun r => 0 < r)%R (f <$> l)) by (apply Forall_fmap, Forall_forall; intros; apply Hf).
  assert (Hs : (0 < rsum (f <$> l))%R) by (apply rsum_pos; [by destruct l|done]).
  split.
  - apply Forall_fmap. eapply Forall_impl; [exact Hp|]. intros r Hr. cbn. by apply Rdiv_lt_0_compat.
  - change (foldr Rplus 0%R ?l) with (rsum l).
    transitivity (rsum ((fun v => v * / rsum (f <$> l))%R <$> (f <$> l))); [done|]. rewrite rsum_scale. apply Rinv_r. lra.
Qed.

Lemma bwd_row_val y : exists m,
  let z := y ++ [(- rsum y)%R] in let e := (fun v => exp (v - m)) <$> z in
  bwd_row (Some <$> y) = Some <$> ((fun v => v / rsum e)%R <$> e).
Proof.
  unfold bwd_row. rewrite nsum_some. change [nlift Ropp (Some (rsum y))] with (Some <$> [(- rsum y)%R]).
  rewrite <- fmap_app. set (z := y ++ [(- rsum y)%R]).
  assert (Hm : exists m, nmax (Some <$> z) = Some m).
  { unfold z. destruct (y ++ [(- rsum y)%R]) as [|a l] eqn:E; [by destruct y|]. apply nmax_some. }
  destruct Hm as [m Hm]. exists m. cbn zeta. rewrite Hm.
  assert (He : (fun v => nexp (nsub v (Some m))) <$> (Some <$> z) = Some <$> ((fun v => exp (v - m)) <$> z)).
  { by rewrite <- !list_fmap_compose. }
  rewrite He, nsum_some, <- !list_fmap_compose. apply list_fmap_ext. intros i v Hv. cbn [compose]. unfold compose.
  apply ndiv_some. apply Rgt_not_eq, rsum_pos; [unfold z; by destruct y|]. apply Forall_fmap, Forall_forall. intros; apply exp_pos.
Qed.
Lemma bwd_row_simplex y : exists v, bwd_row (Some <$> y) = Some <$> v /\ length v = S (length y) /\ open_simplex v.
Proof.
  destruct (bwd_row_val y) as [m Hm]. cbn zeta in Hm. eexists. split; [exact Hm|]. split.
  - rewrite !fmap_length, app_length. cbn. lia.
  - apply (softmax_simplex _ (fun v => exp (v - m))); [by destruct y|intros; apply exp_pos].
Qed.

Lemma fwd_row_inv x : open_simplex x -> 
  exists y, fwd_row (Some <$> x) = Some <$> y /\ S (length y) = length x /\ bwd_row (Some <$> y) = Some <$> x.
Proof.
  intros [Hp Hs]. destruct x as [|a0 x0 _] using rev_ind; [cbn in Hs; lra|]. rename x0 into x. rename a0 into a.
  set (N := INR (length (x ++ [a]))). assert (HN : (0 < N)%R) by (unfold N; apply lt_0_INR; rewrite app_length; cbn; lia).
  set (l := ln <$> (x ++ [a])). set (c := (rsum l / N)%R).
  assert (Hlog : nlog <$> (Some <$> (x ++ [a])) = Some <$> l).
  { unfold l. rewrite <- !list_fmap_compose. apply list_fmap_ext. intros i v Hv. apply nlog_pos.
    rewrite Forall_forall in Hp. apply Hp. by eapply elem_of_list_lookup_2. }
  set (y := (fun v => v - c)%R <$> (ln <$> x)).
  assert (Hz : y ++ [(- rsum y)%R] = (fun v => v - c)%R <$> l).
  { unfold l. rewrite !fmap_app. fold y. f_equal. cbn. f_equal. 
    assert (H0 : rsum ((fun v => v - c)%R <$> l) = 0%R).
    { rewrite rsum_sub. unfold l at 2. rewrite fmap_length. fold N. unfold c. field. lra. }
    unfold l in H0. rewrite !fmap_app in H0. fold y in H0. rewrite rsum_app in H0. cbn in H0. lra. }
  exists y. split; [|split].
  - unfold fwd_row. rewrite Hlog, nsum_some, fmap_length. fold N. rewrite ndiv_some by lra. fold c.
    rewrite <- list_fmap_compose, app_length. cbn [length]. rewrite Nat.add_sub. unfold l, y. rewrite !fmap_app.
    rewrite take_app_alt by (rewrite !fmap_length; done). rewrite <- !list_fmap_compose. reflexivity.
  - unfold y. rewrite !fmap_length, app_length. cbn. lia.
  - destruct (bwd_row_val y) as [m Hm]. cbn zeta in Hm. rewrite Hz in Hm. rewrite Hm. f_equal.
    set (C := exp (- c - m)). assert (HC : (0 < C)%R) by apply exp_pos.
    assert (He : (fun v => exp (v - m)) <$> ((fun v => v - c)%R <$> l) = (fun v => v * C)%R <$> (x ++ [a])).
    { unfold l. rewrite <- !list_fmap_compose. apply list_fmap_ext. intros i v Hv. cbn. unfold C.
      assert (Hv' : (0 < v)%R). { rewrite Forall_forall in Hp. apply Hp. by eapply elem_of_list_lookup_2. }
      rewrite <- (exp_ln v Hv') at 2. rewrite <- exp_plus. f_equal. lra. }
    rewrite He, rsum_scale. change (rsum (x ++ [a])) with (foldr Rplus 0%R (x ++ [a])). rewrite Hs, <- list_fmap_compose.
    transitivity ((fun v : R => v) <$> (x ++ [a])); [|by rewrite list_fmap_id]. apply list_fmap_ext. intros i v _. cbn. field. lra.
Qed.

(** rows of an array *)
Section rows.
  Context {A : Type}.
  Lemma reshape_rows k n (l : list A) : length l = k * n ->
    length (reshape (replicate k n) l) = k /\ Forall (fun r => length r = n) (reshape (replicate k n) l) /\
    mjoin (reshape (replicate k n) l) = l.
  Proof.
    revert l. induction k as [|k IH]; intros l Hl; cbn.
    - by destruct l.
    - destruct (IH (drop n l)) as (H1 & H2 & H3); [rewrite drop_length; cbn in Hl; lia|].
      split; [by rewrite H1|]. split; [constructor; [rewrite take_length; cbn in Hl; lia|done]|].
      transitivity (take n l ++ drop n l); [f_equal; exact H3|apply take_drop].
  Qed.
  Lemma reshape_join m (rows : list (list A)) : Forall (fun r => length r = m) rows ->
    reshape (replicate (length rows) m) (mjoin rows) = rows /\ length (mjoin rows) = length rows * m.
  Proof.
    induction 1 as [|r rows Hr H [IH1 IH2]]; [done|].
    change (mjoin (r :: rows)) with (r ++ mjoin rows). cbn [length replicate reshape].
    rewrite take_app_alt, drop_app_alt by done. split; [by f_equal|]. rewrite app_length, IH2. cbn. lia.
  Qed.
  Lemma row_at k n (l : list A) i j r : length l = k * n -> reshape (replicate k n) l !! i = Some r -> j < n ->
    r !! j = l !! (i * n + j).
  Proof.
    revert l i. induction k as [|k IH]; intros l i Hl Hi Hj; cbn in Hi; [done|]. destruct i as [|i]; cbn in Hi.
    - injection Hi as <-. by rewrite lookup_take.
    - rewrite (IH (drop n l) i) by (try done; rewrite drop_length; cbn in Hl; lia). rewrite lookup_drop. f_equal. cbn. lia.
  Qed.
End rows.
Lemma size_of_app s t : size_of (s ++ t) = size_of s * size_of t.
Proof.
  induction s as [|a s IH]; [symmetry; apply Nat.mul_1_l|]. change (size_of ((a :: s) ++ t)) with (a * size_of (s ++ t)).
  change (size_of (a :: s)) with (a * size_of s). by rewrite IH, Nat.mul_assoc.
Qed.
Lemma ravel_app s n idx j : in_range s idx -> ravel (s ++ [n]) (idx ++ [j]) = ravel s idx * n + j.
Proof.
  induction 1 as [|a i s idx Hi H IH]; [cbn; lia|]. cbn [app ravel]. rewrite IH, size_of_app. change (size_of [n]) with (n * 1). lia.
Qed.

Definition simplex_rows (x : tensor num) (s : list nat) (n : nat) : Prop :=
  Forall (fun r => exists v, r = Some <$> v /\ open_simplex v) (reshape (replicate (size_of s) n) (t_data x)).
Lemma dirichlet_support P x s n : tensor_ok x -> t_shape x = s ++ [n] -> 0 < n ->
  (in_support RV_dirichlet P x <-> simplex_rows x s n).
Proof.
  intros Hok Hsh Hn0. assert (Hlen : length (t_data x) = size_of s * n).
  { rewrite Hok, Hsh, size_of_app. cbn. lia. }
  destruct (reshape_rows _ _ _ Hlen) as (L1 & L2 & L3). unfold in_support. rewrite decide_True by done. split.
  - intros (s' & n' & Hsh' & _ & H). rewrite Hsh in Hsh'. apply app_inj_tail in Hsh' as [<- <-].
    apply Forall_lookup. intros i r Hi. assert (Hi' : i < length (indices s)) by (rewrite indices_length, <- L1; by eapply lookup_lt_Some).
    apply lookup_lt_is_Some in Hi' as [idx Hidx]. apply index_of in Hidx as [Hr Hrv]. destruct (H idx Hr) as (v & Hvl & Hv & Hat).
    exists v. split; [|done]. rewrite Forall_lookup in L2. specialize (L2 _ _ Hi).
    apply list_eq_same_length with (n := n); [by rewrite fmap_length|done|]. intros j a b Hj Ha Hb.
    rewrite (row_at _ _ _ _ _ _ Hlen Hi Hj) in Ha. rewrite list_lookup_fmap in Hb. destruct (v !! j) as [w|] eqn:Hw; [|done].
    injection Hb as <-. specialize (Hat j w Hw). unfold t_at in Hat. rewrite Hsh, ravel_app, Hrv, Ha in Hat by done. congruence.
  - intros H. exists s, n. split; [done|]. split; [done|]. intros idx Hr.
    assert (Hi : ravel s idx < length (reshape (replicate (size_of s) n) (t_data x))) by (rewrite L1; by apply ravel_lt).
    apply lookup_lt_is_Some in Hi as [r Hi]. unfold simplex_rows in H. rewrite Forall_lookup in H, L2. specialize (L2 _ _ Hi).
    destruct (H _ _ Hi) as (v & -> & Hv). rewrite fmap_length in L2. exists v. split; [done|]. split; [done|]. intros j w Hw.
    unfold t_at. rewrite Hsh, ravel_app by done.
    rewrite <- (row_at _ _ _ _ j _ Hlen Hi) by (rewrite <- L2; by eapply lookup_lt_Some). by rewrite list_lookup_fmap, Hw.
Qed.

Lemma on_rows_val f g x s n : t_shape x = s ++ [n] ->
  on_rows f g x = Some (Tensor (s ++ [g n]) (mjoin (f <$> reshape (replicate (size_of s) n) (t_data x)))).
Proof.
  intros Hs. unfold on_rows. rewrite Hs, reverse_snoc. rewrite reverse_involutive. done.
Qed.

Lemma forward_simplex P x : tensor_ok x -> in_support RV_dirichlet P x ->
  exists y, forward KSimplex [x] = Some y /\ tensor_ok y /\ finite y /\ backward KSimplex [y] = Some x.
Proof.
  intros Hok Hsup. pose proof Hsup as (s & n & Hsh & Hn & _).
  apply (dirichlet_support P x s n Hok Hsh Hn) in Hsup. destruct n as [|n]; [lia|].
  assert (Hlen : length (t_data x) = size_of s * S n) by (rewrite Hok, Hsh, size_of_app; cbn; lia).
  destruct (reshape_rows _ _ _ Hlen) as (L1 & L2 & L3). unfold forward, fwd_simplex. rewrite Hsh, last_snoc.
  rewrite (on_rows_val _ _ _ _ _ Hsh). cbn [Nat.sub]. rewrite Nat.sub_0_r. unfold simplex_rows in Hsup.
  set (rows := reshape (replicate (size_of s) (S n)) (t_data x)) in *.
  eexists. split; [reflexivity|].
  assert (Hf : Forall (fun r => length r = n) (fwd_row <$> rows)).
  { apply Forall_fmap, Forall_forall. intros r Hr. cbn. rewrite Forall_forall in Hsup, L2. destruct (Hsup r Hr) as (v & -> & Hv).
    destruct (fwd_row_inv v Hv) as (y & -> & Hy & _). specialize (L2 _ Hr). rewrite fmap_length in *. lia. }
  destruct (reshape_join n (fwd_row <$> rows) Hf) as [J1 J2]. rewrite fmap_length, L1 in J1, J2.
  split; [|split].
  - unfold tensor_ok. cbn. rewrite J2, size_of_app. cbn. lia.
  - unfold finite. cbn. apply Forall_forall. intros a Ha. apply elem_of_list_join in Ha as (r & Har & Hr).
    apply elem_of_list_fmap in Hr as (r0 & -> & Hr0). rewrite Forall_forall in Hsup. destruct (Hsup _ Hr0) as (v & -> & Hv).
    destruct (fwd_row_inv v Hv) as (y & E & _). rewrite E in Har. apply elem_of_list_fmap in Har as (w & -> & _). by eexists.
  - unfold backward, bwd_simplex. rewrite (on_rows_val _ _ _ s n) by done. cbn [t_data]. rewrite J1.
    destruct x as [sx dx]. cbn in *. rewrite Hsh. do 2 f_equal. rewrite <- L3 at 1. f_equal.
    rewrite <- list_fmap_compose. transitivity ((fun r : list num => r) <$> rows); [|by rewrite list_fmap_id].
    apply list_fmap_ext. intros i r Hi. cbn. rewrite Forall_lookup in Hsup. destruct (Hsup _ _ Hi) as (v & -> & Hv).
    by destruct (fwd_row_inv v Hv) as (y & -> & _ & ->).
Qed.

Lemma backward_simplex P x y y' : tensor_ok x -> in_support RV_dirichlet P x -> forward KSimplex [x] = Some y ->
  tensor_ok y' -> t_shape y' = t_shape y -> finite y' ->
  exists x', backward KSimplex [y'] = Some x' /\ tensor_ok x' /\ t_shape x' = t_shape x /\ in_support RV_dirichlet P x'.
Proof.
  intros Hok Hsup Hy Hok' Hsh' Hf. pose proof Hsup as (s & n & Hsh & Hn & _). destruct n as [|n]; [lia|].
  assert (Hys : t_shape y = s ++ [n]).
  { unfold forward, fwd_simplex in Hy. rewrite Hsh, last_snoc, (on_rows_val _ _ _ _ _ Hsh) in Hy. cbn [Nat.sub] in Hy.
    rewrite Nat.sub_0_r in Hy. by injection Hy as <-. }
  rewrite Hys in Hsh'. assert (Hlen : length (t_data y') = size_of s * n) by (rewrite Hok', Hsh', size_of_app; cbn; lia).
  destruct (reshape_rows _ _ _ Hlen) as (L1 & L2 & L3). unfold backward, bwd_simplex. rewrite (on_rows_val _ _ _ _ _ Hsh').
  set (rows := reshape (replicate (size_of s) n) (t_data y')) in *. eexists. split; [reflexivity|].
  assert (Hrow : forall r, r ∈ rows -> exists v, bwd_row r = Some <$> v /\ length v = S n /\ open_simplex v).
  { intros r Hr. assert (Hv : exists v, r = Some <$> v).
    { assert (Hfr : Forall is_Some r).
      { apply Forall_forall. intros a Ha. unfold finite in Hf. rewrite Forall_forall in Hf. apply Hf. rewrite <- L3.
        apply elem_of_list_join. by exists r. }
      clear -Hfr. induction Hfr as [|a r [w ->] H [v ->]]; [by exists []|by exists (w :: v)]. }
    destruct Hv as [v ->]. destruct (bwd_row_simplex v) as (w & Hw & Hl & Hs). exists w. split; [done|]. split; [|done].
    rewrite Forall_forall in L2. specialize (L2 _ Hr). rewrite fmap_length in L2. congruence. }
  assert (Hb : Forall (fun r => length r = S n) (bwd_row <$> rows)).
  { apply Forall_fmap, Forall_forall. intros r Hr. cbn. destruct (Hrow r Hr) as (v & -> & Hv & _). by rewrite fmap_length. }
  destruct (reshape_join (S n) (bwd_row <$> rows) Hb) as [J1 J2]. rewrite fmap_length, L1 in J1, J2.
  assert (Hokx : tensor_ok (Tensor (s ++ [S n]) (mjoin (bwd_row <$> rows)))).
  { unfold tensor_ok. cbn [t_data t_shape]. rewrite J2, size_of_app. change (size_of [S n]) with (S n * 1). lia. }
  split; [done|]. split; [by rewrite Hsh|].
  apply (dirichlet_support P _ s (S n)); [done|done|lia|]. unfold simplex_rows. cbn [t_data]. rewrite J1.
  apply Forall_fmap, Forall_forall. intros r Hr. destruct (Hrow r Hr) as (v & Hv & _ & Hs). exists v. by split.
Qed.

(** ** By distribution *)
Definition arg_values (P : list (tensor num)) (t : option (tkind * list nat)) : list (tensor num) :=
  match t with Some (_, pos) => omap (fun i => P !! (i - 3)) pos | None => [] end.
Definition tforward (t : option (tkind * list nat)) (x : tensor num) (args : list (tensor num)) : option (tensor num) :=
  match t with Some (k, _) => forward k (x :: args) | None => Some x end.
Definition tbackward (t : option (tkind * list nat)) (y : tensor num) (args : list (tensor num)) : option (tensor num) :=
  match t with Some (k, _) => backward k (y :: args) | None => Some y end.

Lemma covered d k pos : aeppl_default d = Some (k, pos) -> d <> RV_dirichlet ->
  d ∈ [1; 2; 3; 8; 9; 10; 11; 12; 13; 14; 15].
Proof.
  intros Hd Hn. do 16 (destruct d as [|d]; [first [discriminate Hd|set_solver]|]). by destruct d.
Qed.
Lemma covered_kind d k pos (P : list (tensor num)) : aeppl_default d = Some (k, pos) -> d <> RV_dirichlet -> nparams d = Some (length P) ->
  k <> KSimplex /\ length (arg_values P (Some (k, pos))) = karity k /\ arg_values P (Some (k, pos)) ⊆ P.
Proof.
  intros Hd Hnd Hn. pose proof (covered d k pos Hd Hnd) as Hc.
  repeat (apply elem_of_cons in Hc as [->|Hc]; [cbn in Hd; injection Hd as <- <-; vm_compute in Hn; injection Hn as Hn;
    destruct P as [|p1 [|p2 [|p3 [|p4 P]]]]; try discriminate Hn; (split; [done|]); (split; [done|]); cbn; set_solver|]).
  by apply elem_of_nil in Hc.
Qed.
Lemma support_point d P idx ps k pos : aeppl_default d = Some (k, pos) -> d <> RV_dirichlet -> nparams d = Some (length P) ->
  mapM (fun p : tensor num => bget p idx) P = Some (Some <$> ps) ->
  exists b S, mapM (fun p : tensor num => bget p idx) (arg_values P (Some (k, pos))) = Some (Some <$> b) /\
    scalar_support d ps = Some S /\ forall r, S r <-> kind_support k b r.
Proof.
  intros Hd Hnd Hn Hm. pose proof (covered d k pos Hd Hnd) as Hc.
  assert (Hlen : length ps = length P).
  { apply mapM_length in Hm. by rewrite fmap_length in Hm. }
  apply mapM_Some in Hm.
  assert (Hres : forall (b : list R) Q, Forall2 (fun p y => bget p idx = Some y) Q (Some <$> b) ->
    mapM (fun p : tensor num => bget p idx) Q = Some (Some <$> b)) by (intros b Q HQ; by apply mapM_Some).
  repeat (apply elem_of_cons in Hc as [->|Hc]; [cbn in Hd; injection Hd as <- <-; vm_compute in Hn; injection Hn as Hn;
    destruct P as [|p1 [|p2 [|p3 [|p4 P]]]]; try discriminate Hn; destruct ps as [|q1 [|q2 [|q3 [|q4 ps]]]]; try discriminate Hlen;
    repeat (apply Forall2_cons in Hm as [? Hm])|]); try by apply elem_of_nil in Hc.
  all: cbn [arg_values omap list_omap Nat.sub lookup list_lookup].
  1: exists [q1]. 2,3: exists []. 4: exists [q1; q2]. 5: exists [q1; q3]. 6: exists [q2]. 7: exists [q1]. 8-11: exists [].
  all: eexists; (split; [apply Hres; repeat constructor; done|]); (split; [reflexivity|]); intros r; reflexivity.
Qed.
Lemma support_elem d P x k pos : aeppl_default d = Some (k, pos) -> d <> RV_dirichlet -> nparams d = Some (length P) ->
  in_support d P x -> elem_support k (arg_values P (Some (k, pos))) x.
Proof.
  intros Hd Hnd Hn Hs idx Hi. unfold in_support in Hs. rewrite decide_False in Hs by done.
  destruct (Hs idx Hi) as (ps & S & r & Hm & HS & Hr & HSr). destruct (support_point d P idx ps k pos Hd Hnd Hn Hm) as (b & S' & Hb & HS' & Heq).
  exists b, r. split; [done|]. split; [done|]. apply Heq. rewrite HS in HS'. by injection HS' as <-.
Qed.
Lemma elem_to_support d P x x' k pos : aeppl_default d = Some (k, pos) -> d <> RV_dirichlet -> nparams d = Some (length P) ->
  in_support d P x -> t_shape x' = t_shape x -> elem_support k (arg_values P (Some (k, pos))) x' -> in_support d P x'.
Proof.
  intros Hd Hnd Hn Hs Hsh He. unfold in_support in *. rewrite decide_False in Hs |- * by done. intros idx Hi.
  destruct (He idx Hi) as (b & r & Hb & Hr & Hk). rewrite Hsh in Hi. destruct (Hs idx Hi) as (ps & _ & _ & Hm & _).
  destruct (support_point d P idx ps k pos Hd Hnd Hn Hm) as (b' & S & Hb' & HS & Heq).
  exists ps, S, r. split; [done|]. split; [done|]. split; [done|]. apply Heq. rewrite Hb in Hb'. injection Hb' as Hb'.
  apply (inj (fmap Some)) in Hb'. by rewrite <- Hb'.
Qed.

(** the change of variables of a random variable *)
Lemma change_of_variables d P x : nparams d = Some (length P) -> tensor_ok x -> Forall (fits (t_shape x)) P -> in_support d P x ->
  let t := aeppl_default d in let args := arg_values P t in
  exists y, tforward t x args = Some y /\ tensor_ok y /\ finite y /\ tbackward t y args = Some x /\
    forall y', tensor_ok y' -> t_shape y' = t_shape y -> finite y' ->
      exists x', tbackward t y' args = Some x' /\ tensor_ok x' /\ t_shape x' = t_shape x /\ in_support d P x'.
Proof.
  intros Hn Hok Hfit Hs t args. destruct (decide (d = RV_dirichlet)) as [->|Hnd].
  - cbn. destruct (forward_simplex P x Hok Hs) as (y & Hy & Hyok & Hyf & Hyb). exists y. split_and!; try done.
    intros y' H1 H2 H3. by apply (backward_simplex P x y).
  - destruct t as [[k pos]|] eqn:Ht; unfold t in *.
    + destruct (covered_kind d k pos P Ht Hnd Hn) as (Hk & Hl & Hsub).
      assert (Hbs : Forall (fits (t_shape x)) args).
      { apply Forall_forall. intros p Hp. rewrite Forall_forall in Hfit. by apply Hfit, Hsub. }
      pose proof (support_elem d P x k pos Ht Hnd Hn Hs) as He. cbn [tforward tbackward].
      destruct (forward_support k x args Hk Hok Hl Hbs He) as (y & Hy & Hyok & Hys & Hyf & Hyb).
      exists y. split_and!; try done. intros y' H1 H2 H3. rewrite Hys in H2.
      destruct (backward_support k x y' args Hk Hok Hl Hbs He H1 H2 H3) as (x' & Hx' & Hxok & Hxs & He').
      exists x'. split_and!; try done. by apply (elem_to_support d P x x' k pos).
    + cbn. assert (Hdn : d = RV_normal).
      { destruct d as [|d]; [done|]. do 15 (destruct d as [|d]; [first [discriminate Ht|discriminate Hn|done]|]). destruct d; [done|].
        vm_compute in Hn. discriminate Hn. }
      subst d. exists x. split; [done|]. split; [done|]. split.
      { apply finite_at; [done|]. intros idx Hi. destruct (Hs idx Hi) as (ps & S & r & _ & _ & Hr & _). by exists r. }
      split; [done|]. intros y' H1 H2 H3. exists y'. split; [done|]. split; [done|]. split; [done|].
      intros idx Hi. destruct (proj1 (finite_at y' H1) H3 idx Hi) as [r Hr]. rewrite H2 in Hi. destruct (Hs idx Hi) as (ps & S & _ & Hm & HS & _).
      exists ps, S, r. split; [done|]. split; [done|]. split; [done|]. unfold scalar_support in HS. cbn in HS. by injection HS as <-.
Qed.
