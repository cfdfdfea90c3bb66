(** The inner graph of the dispersion kernel: values. *)
From Coq Require Import Lra.
From Verif Require Export S_dispersion_graph L_code_value.
From Verif Require L_dispersion.
From Verif Require Import L_array L_match L_match_fun L_build L_conjugates L_inner L_gibbs S_gibbs L_elem_value L_eval L_horseshoe_graph L_kernel_runs.
Global Open Scope nat_scope.

Definition sum_of (l : list R) : R := foldr Rplus 0%R l.
Definition tail_prog (av bv : R) (n : nat) (pf : nat -> R) (ls : list nat) : tprog :=
  TDraw RV_gamma [number (av + sum_of (INR <$> ls)); number (1 / (/ bv - sum_of ((fun j => ln (1 - pf j)) <$> seq 0 n)))]%R [] (fun v => TRet [v]).

(** dispersion_inner after the scan *)
Definition dispersion_tail (B : builder) (h : heap) (scan_rng scan_next res p a b y : vid) : heap * dispersion_graph :=
  let '(h1, Ls) := mk_fun B h F_reshape [res; y] in
  let '(h2, L_sum) := mk_fun B h1 F_sum [Ls] in
  let '(h3, shape) := mk_elem B h2 E_add [a; L_sum] in
  let '(h4, inv_b) := mk_elem B h3 E_reciprocal [b] in
  let '(h5, one) := mk_const h4 (b_int B 1) in
  let '(h6, q) := mk_elem B h5 E_sub [one; p] in
  let '(h7, log_q) := mk_elem B h6 E_log [q] in
  let '(h8, log_sum) := mk_fun B h7 F_sum [log_q] in
  let '(h9, rate) := mk_elem B h8 E_sub [inv_b; log_sum] in
  let '(h10, one') := mk_const h9 (b_float B 1) in
  let '(h11, scale) := mk_elem B h10 E_truediv [one'; rate] in
  let '(h12, size) := mk_const h11 (b_nosize B) in
  let '(h13, dtype) := mk_const h12 (b_dtype B) in
  let '(h14, (rng, next, x)) := gen B h13 (ORV RV_gamma) [size; dtype; shape; scale] in
  (h14, DispersionGraph x rng next scan_rng scan_next).
Lemma dispersion_inner_split B h hh p a b y : dispersion_inner B h hh p a b y =
  let '(h1, ys) := mk_fun B h F_ravel [y] in
  let '(h2, (scan_rng, _, _)) := gen B h1 (OOther (8 * fresh (dom (h_nodes h1)) + K_inner)) [hh] in
  let o := OOther (8 * fresh (dom (h_nodes h2)) + K_scan) in
  let '(h3, res, scan_next) := apply_rng h2 o [ys; scan_rng; hh] (b_draw B h2 o [ys; scan_rng; hh]) (b_rng B) in
  dispersion_tail B h3 scan_rng scan_next res p a b y.
Proof.
  unfold dispersion_inner, sample_CRT_graph, dispersion_tail.
  destruct (mk_fun B h F_ravel [y]) as [h1 ys]. destruct (gen B h1 _ _) as [h2 [[sr sr'] d]].
  destruct (apply_rng h2 _ _ _ _) as [[h3 res] sn]. destruct (mk_fun B h3 _ _) as [h4 Ls]. reflexivity.
Qed.

Section value.
  Context (B : builder) (HB : builder_ok B).
  Context (scalar : nat -> list R -> option R) (other : op -> list (tensor R) -> option (list (tensor R))) (cval : nat -> tensor R).
  Context (HR : ranks_ok B other) (HC : constants_ok B cval) (HA : arithmetic_ok scalar) (HF : sums_ok other) (HT : tables_ok B scalar other).
  Notation hasv h rho := (has_value B scalar other cval h rho).
  Notation keep := (keeps B scalar other cval).

  Lemma fun_keeps rho h k vs xs z : good_heap h -> gives_old h rho -> Forall2 (hasv h rho) vs xs -> other (fun_op k) xs = Some [z] ->
    keep rho h (mk_fun B h k vs).1 (mk_fun B h k vs).2 z.
  Proof using HR.
    intros Hg Ho Hv Hz. unfold mk_fun. eapply apply1_has; [done|exact Hg|exact Ho|exact Hv|exact Hz|].
    eapply (rk_fun B other HR); [|exact Hz]. eapply ranks_of, Hv.
  Qed.
  Lemma elem_keep rho h s vs xs z : good_heap h -> gives_old h rho -> Forall2 (hasv h rho) vs xs -> numpy_elemwise (scalar s) xs = Some z ->
    keep rho h (mk_elem B h s vs).1 (mk_elem B h s vs).2 z.
  Proof using HB. exact (elem_keeps B HB scalar other cval rho h s vs xs z). Qed.

  Lemma elem_vec1 g s f c : (forall j, j < size_of s -> scalar g [f j] = Some (c j)) -> numpy_elemwise (scalar g) [mkt s f] = Some (mkt s c).
  Proof using Type.
    intros Hc. apply (elem_components _ s _ [f]).
    - apply Forall2_cons_2; [apply components_mkt|apply Forall2_nil_2].
    - exists (mkt s f). split; [by left|done].
    - intros j Hj. cbn. by apply Hc.
  Qed.
  Lemma elem_nv g s a f c : (forall j, j < size_of s -> scalar g [a; f j] = Some (c j)) -> numpy_elemwise (scalar g) [number a; mkt s f] = Some (mkt s c).
  Proof using Type.
    intros Hc. apply (elem_components _ s _ [fun _ => a; f]).
    - apply Forall2_cons_2; [exact (components_ones s 0 a ltac:(lia))|]. apply Forall2_cons_2; [apply components_mkt|apply Forall2_nil_2].
    - exists (mkt s f). split; [right; by left|done].
    - intros j Hj. cbn. by apply Hc.
  Qed.
  Lemma elem_num2 s x y z : scalar s [x; y] = Some z -> numpy_elemwise (scalar s) [number x; number y] = Some (number z).
  Proof using Type. intros H. exact (elem_nv s [] x (fun _ => y) (fun _ => z) (fun _ _ => H)). Qed.
  Lemma elem_num1 s x z : scalar s [x] = Some z -> numpy_elemwise (scalar s) [number x] = Some (number z).
  Proof using Type. intros H. exact (elem_vec1 s [] (fun _ => x) (fun _ => z) (fun _ _ => H)). Qed.
  Lemma F1' h rho x a : hasv h rho x a -> Forall2 (hasv h rho) [x] [a].
  Proof using Type. intros. by apply Forall2_cons_2; [|apply Forall2_nil_2]. Qed.
  Lemma F2' h rho x a y b : hasv h rho x a -> hasv h rho y b -> Forall2 (hasv h rho) [x; y] [a; b].
  Proof using Type. intros. apply Forall2_cons_2; [done|]. by apply F1'. Qed.
  Lemma upv rho h h' v t w u : good_heap h -> gives_old h rho -> keep rho h h' w u -> hasv h rho v t -> hasv h' rho v t.
  Proof using Type. intros G O (E & _) H. eapply has_extends; [apply G|exact E|done|done]. Qed.

  Lemma sum_nonneg (f : nat -> R) l : (forall j, j ∈ l -> f j <= 0)%R -> (sum_of (f <$> l) <= 0)%R.
  Proof using Type.
    induction l as [|j l IH]; intros H; cbn; [lra|]. pose proof (H j ltac:(by left)). specialize (IH ltac:(intros i Hi; apply H; by right)).
    unfold sum_of in IH. lra.
  Qed.

  Lemma tail_value h rho sr sn res p a b y ls av bv n pf yv : good_heap h -> gives_old h rho -> is_Some (hv h sr) ->
    hasv h rho res (count_vector ls) -> hasv h rho y (count_vector yv) -> length ls = length yv -> hasv h rho p (mkt [n] pf) ->
    hasv h rho a (number av) -> hasv h rho b (number bv) -> (0 < bv)%R -> (forall j, j < n -> (0 < pf j < 1)%R) ->
    let '(h', g) := dispersion_tail B h sr sn res p a b y in extends h h' /\ good_heap h' /\
      (exists k, owner h' (dg_sample g) = Some (k, 1) /\ owner h' (dg_next g) = Some (k, 0)) /\
      dg_scan_rng g = sr /\ dg_scan_next g = sn /\
      realises scalar other cval h' [sr] rho [dg_sample g] (tail_prog av bv n pf ls).
  Proof using All.
    intros G0 O0 Ssr V0 Vy Hlen Vp Va Vb Pb Hpf. unfold dispersion_tail.
    assert (Hsz : forall m, size_of [m] = m) by (intros m; unfold size_of; cbn; lia).
    pose proof (fun_keeps rho h F_reshape [res; y] _ (count_vector ls) G0 O0 (F2' _ _ _ _ _ _ V0 Vy)) as K1.
    destruct (mk_fun B h F_reshape [res; y]) as [h1 Ls]. cbn [fst snd] in K1.
    specialize (K1 ltac:(rewrite (tb_reshape B scalar other HT) by (cbn [count_vector t_shape]; by rewrite Hlen); unfold count_vector; cbn [t_shape t_data]; by rewrite Hlen)).
    pose proof K1 as (X1 & G1 & O1 & W1).
    pose proof (fun_keeps rho h1 F_sum [Ls] _ _ G1 O1 (F1' _ _ _ _ W1) (fn_sum other HF _)) as K2.
    destruct (mk_fun B h1 F_sum [Ls]) as [h2 Lsum]. cbn [fst snd] in K2. pose proof K2 as (X2 & G2 & O2 & W2).
    pose proof (keeps_trans B scalar other cval _ _ _ _ _ _ _ _ K1 K2) as K02.
    pose proof (elem_keep rho h2 E_add [a; Lsum] _ _ G2 O2 (F2' _ _ _ _ _ _ (upv _ _ _ _ _ _ _ G0 O0 K02 Va) W2) (elem_num2 _ _ _ _ (ar_add scalar HA _ _))) as K3.
    destruct (mk_elem B h2 E_add [a; Lsum]) as [h3 shape]. cbn [fst snd] in K3. pose proof K3 as (X3 & G3 & O3 & W3).
    pose proof (keeps_trans B scalar other cval _ _ _ _ _ _ _ _ K02 K3) as K03.
    pose proof (elem_keep rho h3 E_reciprocal [b] _ _ G3 O3 (F1' _ _ _ _ (upv _ _ _ _ _ _ _ G0 O0 K03 Vb)) (elem_num1 _ _ _ (ar_reciprocal scalar HA bv ltac:(lra)))) as K4.
    destruct (mk_elem B h3 E_reciprocal [b]) as [h4 invb]. cbn [fst snd] in K4. pose proof K4 as (X4 & G4 & O4 & W4).
    pose proof (keeps_trans B scalar other cval _ _ _ _ _ _ _ _ K03 K4) as K04.
    pose proof (const_keeps B scalar other cval rho h4 (b_int B 1) (number 1) G4 O4 (cn_int B cval HC 1) ltac:(by rewrite (bo_int B HB))) as K5.
    destruct (mk_const h4 (b_int B 1)) as [h5 one]. cbn [fst snd] in K5. pose proof K5 as (X5 & G5 & O5 & W5).
    pose proof (keeps_trans B scalar other cval _ _ _ _ _ _ _ _ K04 K5) as K05.
    pose proof (elem_keep rho h5 E_sub [one; p] _ _ G5 O5 (F2' _ _ _ _ _ _ W5 (upv _ _ _ _ _ _ _ G0 O0 K05 Vp))
      (elem_nv E_sub [n] 1%R pf (fun j => 1 - pf j)%R ltac:(intros j _; apply (ar_sub scalar HA)))) as K6.
    destruct (mk_elem B h5 E_sub [one; p]) as [h6 q]. cbn [fst snd] in K6. pose proof K6 as (X6 & G6 & O6 & W6).
    pose proof (elem_keep rho h6 E_log [q] _ _ G6 O6 (F1' _ _ _ _ W6)
      (elem_vec1 E_log [n] _ (fun j => ln (1 - pf j)) ltac:(intros j Hj; apply (tb_log B scalar other HT); rewrite Hsz in Hj; specialize (Hpf j Hj); lra))) as K7.
    destruct (mk_elem B h6 E_log [q]) as [h7 lq]. cbn [fst snd] in K7. pose proof K7 as (X7 & G7 & O7 & W7).
    pose proof (fun_keeps rho h7 F_sum [lq] _ _ G7 O7 (F1' _ _ _ _ W7) (fn_sum other HF _)) as K8.
    destruct (mk_fun B h7 F_sum [lq]) as [h8 lsum]. cbn [fst snd] in K8. pose proof K8 as (X8 & G8 & O8 & W8).
    set (S := sum_of ((fun j => ln (1 - pf j)) <$> seq 0 n)).
    assert (HS : (S <= 0)%R).
    { apply sum_nonneg. intros j Hj. apply elem_of_seq in Hj. specialize (Hpf j ltac:(lia)). rewrite <- ln_1.
      destruct (Req_dec (1 - pf j) 1) as [->|Hne]; [lra|]. left. apply ln_increasing; lra. }
    assert (W8' : hasv h8 rho lsum (number S)).
    { unfold S. unfold mkt in W8. cbn [t_data] in W8. rewrite Hsz in W8. exact W8. }
    pose proof (keeps_trans B scalar other cval _ _ _ _ _ _ _ _ K5 (keeps_trans B scalar other cval _ _ _ _ _ _ _ _ K6 (keeps_trans B scalar other cval _ _ _ _ _ _ _ _ K7 K8))) as K48.
    pose proof (elem_keep rho h8 E_sub [invb; lsum] _ _ G8 O8 (F2' _ _ _ _ _ _ (upv _ _ _ _ _ _ _ G4 O4 K48 W4) W8') (elem_num2 _ _ _ _ (ar_sub scalar HA _ _))) as K9.
    destruct (mk_elem B h8 E_sub [invb; lsum]) as [h9 rate]. cbn [fst snd] in K9. pose proof K9 as (X9 & G9 & O9 & W9).
    pose proof (const_keeps B scalar other cval rho h9 (b_float B 1) (number 1) G9 O9 (cn_float B cval HC 1) ltac:(by rewrite (bo_float B HB))) as K10.
    destruct (mk_const h9 (b_float B 1)) as [h10 one']. cbn [fst snd] in K10. pose proof K10 as (X10 & G10 & O10 & W10).
    assert (Hrate : (/ bv - S <> 0)%R). { pose proof (Rinv_0_lt_compat _ Pb). lra. }
    pose proof (elem_keep rho h10 E_truediv [one'; rate] _ _ G10 O10 (F2' _ _ _ _ _ _ W10 (upv _ _ _ _ _ _ _ G9 O9 K10 W9)) (elem_num2 _ _ _ _ (ar_div scalar HA _ _ Hrate))) as K11.
    destruct (mk_elem B h10 E_truediv [one'; rate]) as [h11 scale]. cbn [fst snd] in K11. pose proof K11 as (X11 & G11 & O11 & W11).
    pose proof (const_keeps B scalar other cval rho h11 (b_nosize B) (size_vector []) G11 O11 (cn_nosize B cval HC) ltac:(by rewrite (cn_nosize_rank B cval HC))) as K12.
    destruct (mk_const h11 (b_nosize B)) as [h12 size]. cbn [fst snd] in K12. pose proof K12 as (X12 & G12 & O12 & W12).
    pose proof (mk_const_struct h12 (b_dtype B) G12) as K13. destruct (mk_const h12 (b_dtype B)) as [h13 dt]. cbn in K13. destruct K13 as (X13 & G13 & S13).
    pose proof (gives_old_extends rho _ _ X13 O12) as O13.
    pose proof (extends_trans _ _ _ X9 (extends_trans _ _ _ X10 (extends_trans _ _ _ X11 (extends_trans _ _ _ X12 X13)))) as X8_13.
    pose proof (extends_trans _ _ _ X4 (extends_trans _ _ _ (proj1 K48) X8_13)) as X3_13.
    pose proof (extends_trans _ _ _ X12 X13) as X11_13.
    pose proof (extends_trans _ _ _ (proj1 K03) X3_13) as X0_13.
    pose proof (has_extends B scalar other cval rho _ _ _ _ (proj1 G3) X3_13 O3 W3) as V3.
    pose proof (has_extends B scalar other cval rho _ _ _ _ (proj1 G11) X11_13 O11 W11) as V11.
    pose proof (has_extends B scalar other cval rho _ _ _ _ (proj1 G12) X13 O12 W12) as V12.
    assert (Hin : forall u, u ∈ [size; dt; shape; scale] -> is_Some (hv h13 u)).
    { intros u [->|[->|[->|[->|?%elem_of_nil]%elem_of_cons]%elem_of_cons]%elem_of_cons]%elem_of_cons; [|exact S13| | |done];
        (eapply ev_exists; [exact O13|]); [exact (proj1 V12)|exact (proj1 V3)|exact (proj1 V11)]. }
    pose proof (L_inner.gen_full B h13 (ORV RV_gamma) [size; dt; shape; scale] G13 Hin ltac:(done)) as K14.
    pose proof (gen_facts B h13 RV_gamma [size; dt; shape; scale] G13 Hin) as K14'.
    destruct (gen B h13 (ORV RV_gamma) [size; dt; shape; scale]) as [h14 [[r r'] x]].
    destruct K14 as (X14 & G14 & Fr & Fr' & Fx & Wr & Sr & (k & Wr' & Wx & Nn) & _). destruct K14' as (Hr & _).
    cbn [dg_sample dg_next dg_scan_rng dg_scan_next].
    split; [exact (extends_trans _ _ _ X0_13 X14)|]. split; [exact G14|]. split; [exists k; by split|]. split; [done|]. split; [done|].
    unfold tail_prog. cbn [realises]. fold S.
    exists k, r, r', x, size, dt, [shape; scale], [], None, (b_rng B). split; [exact Nn|]. split; [exact Wx|]. split; [exact Hr|]. split.
    { intros ->%elem_of_list_singleton. destruct (extends_some _ _ _ X0_13 Ssr) as [z Hz]. rewrite Fr in Hz. discriminate Hz. }
    split; [eapply gives_old_None; [exact O13|exact Fx]|].
    split; [apply (has_extends B scalar other cval rho h13 h14 size _ (proj1 G13) X14 O13 V12)|].
    split.
    { apply Forall2_cons_2; [exact (proj1 (has_extends B scalar other cval rho h13 h14 shape _ (proj1 G13) X14 O13 V3))|].
      apply Forall2_cons_2; [exact (proj1 (has_extends B scalar other cval rho h13 h14 scale _ (proj1 G13) X14 O13 V11))|apply Forall2_nil_2]. }
    split; [apply draw_shape_in; [by left|]; repeat constructor|].
    intros v Hv. apply Forall2_cons_2; [|apply Forall2_nil_2]. apply ev_given. unfold assign. by rewrite decide_True.
  Qed.

  Lemma inner_value h rho hh p a b y t av bv n pf yv : good_heap h -> gives_old h rho ->
    hasv h rho hh t -> hasv h rho y (count_vector yv) -> hasv h rho p (mkt [n] pf) ->
    hasv h rho a (number av) -> hasv h rho b (number bv) -> (0 < bv)%R -> (forall j, j < n -> (0 < pf j < 1)%R) ->
    let '(h', g) := dispersion_inner B h hh p a b y in extends h h' /\ good_heap h' /\
      exists m o ys res k,
        hn h' m = Some (Node (OOther (8 * o + K_scan)) [ys; dg_scan_rng g; hh] [res; dg_scan_next g]) /\ owner h' res = Some (m, 0) /\
        owner h' (dg_scan_next g) = Some (m, 1) /\ shared_var h' (dg_scan_rng g) /\ rho res = None /\
        evals (tensor_base scalar other) cval h' rho ys (count_vector yv) /\ evals (tensor_base scalar other) cval h' rho hh t /\
        owner h' (dg_sample g) = Some (k, 1) /\ owner h' (dg_next g) = Some (k, 0) /\
        forall ls, length ls = length yv ->
          realises scalar other cval h' [dg_scan_rng g] (assign rho res (count_vector ls)) [dg_sample g] (tail_prog av bv n pf ls).
  Proof using All.
    intros G0 O0 Vh Vy Vp Va Vb Pb Hpf. rewrite dispersion_inner_split.
    pose proof (fun_keeps rho h F_ravel [y] _ _ G0 O0 (F1' _ _ _ _ Vy) (tb_ravel B scalar other HT _)) as K1.
    destruct (mk_fun B h F_ravel [y]) as [h1 ys]. cbn [fst snd] in K1. pose proof K1 as (X1 & G1 & O1 & W1).
    assert (W1' : hasv h1 rho ys (count_vector yv)).
    { unfold count_vector in W1. cbn [t_shape t_data] in W1. unfold size_of in W1. cbn [foldr] in W1. rewrite Nat.mul_1_r in W1. exact W1. }
    clear W1. pose proof (upv _ _ _ _ _ _ _ G0 O0 K1 Vh) as Vh1.
    set (oi := OOther (8 * fresh (dom (h_nodes h1)) + K_inner)).
    pose proof (L_inner.gen_full B h1 oi [hh] G1 ltac:(intros u ->%elem_of_list_singleton; eapply ev_exists; [exact O1|exact (proj1 Vh1)]) ltac:(done)) as K2.
    destruct (gen B h1 oi [hh]) as [h2 [[sr sr'] d]].
    destruct K2 as (X2 & G2 & Fsr & _ & _ & _ & Ssr & _ & _). pose proof (gives_old_extends rho _ _ X2 O1) as O2.
    pose proof (extends_trans _ _ _ X1 X2) as X02.
    pose proof (has_extends B scalar other cval rho _ _ _ _ (proj1 G1) X2 O1 W1') as Vys2.
    pose proof (has_extends B scalar other cval rho _ _ _ _ (proj1 G0) X02 O0 Vh) as Vh2.
    apply is_shared_spec in Ssr.
    assert (Ssr2 : is_Some (hv h2 sr)). { destruct Ssr as (? & ? & ? & ? & Hs). eauto. }
    set (o := fresh (dom (h_nodes h2))). set (ty := b_draw B h2 (OOther (8 * o + K_scan)) [ys; sr; hh]). cbv zeta.
    assert (Hin : forall u, u ∈ [ys; sr; hh] -> is_Some (hv h2 u)).
    { intros u [->|[->|[->|?%elem_of_nil]%elem_of_cons]%elem_of_cons]%elem_of_cons; [|exact Ssr2| |done];
        (eapply ev_exists; [exact O2|]); [exact (proj1 Vys2)|exact (proj1 Vh2)]. }
    pose proof (node_ok h2 (fun _ => True) h2 (OOther (8 * o + K_scan)) [ys; sr; hh] [(None, ty); (None, b_rng B)] ltac:(done) ltac:(split; [apply extends_refl|done])
      ltac:(intros u Hu; split; [by apply Hin|by left])) as H3.
    destruct (alloc_node_spec h2 (OOther (8 * o + K_scan)) [ys; sr; hh] [(None, ty); (None, b_rng B)]) as (_ & _ & Fr3 & V3 & _ & _ & N3 & _).
    cbv zeta in H3. rewrite apply_rng_alloc in H3, V3, N3, Fr3. destruct (apply_rng h2 _ _ _ _) as [[h3 res] sn]. cbn [fst snd] in H3, V3, N3, Fr3.
    destruct H3 as (X3 & [_ G3] & _). pose proof (V3 0 res _ _ eq_refl eq_refl) as Hres. pose proof (V3 1 sn _ _ eq_refl eq_refl) as Hsn.
    pose proof (extends_trans _ _ _ X02 X3) as X03. pose proof (gives_old_extends rho _ _ X3 O2) as O3.
    pose proof (Fr3 res ltac:(by left)) as Fres.
    assert (Hrn : rho res = None) by (eapply gives_old_None; [exact O2|exact Fres]).
    assert (Fres0 : hv h res = None). { destruct (hv h res) as [z|] eqn:Ez; [|done]. apply (proj1 X02) in Ez. congruence. }
    (* old values are the same whatever is drawn *)
    assert (Hkeep : forall ls v x, hasv h rho v x -> hasv h3 (assign rho res (count_vector ls)) v x).
    { intros ls v x [Hx Hr]. pose proof (ev_exists scalar other cval rho h v x O0 Hx) as Hs. split.
      - apply (extends_evals_iff _ _ h h3); [apply G0|done|done|].
        apply (proj1 (evals_rho_agree _ cval h rho (assign rho res (count_vector ls)) (proj1 G0)
          ltac:(intros w Hw; unfold assign; rewrite decide_False; [done|intros ->; rewrite Fres0 in Hw; by destruct Hw]))); done.
      - by rewrite (ty_def_extends h h3). }
    assert (Htail : forall ls, length ls = length yv ->
      let '(h', g) := dispersion_tail B h3 sr sn res p a b y in extends h3 h' /\ good_heap h' /\
        (exists k, owner h' (dg_sample g) = Some (k, 1) /\ owner h' (dg_next g) = Some (k, 0)) /\
        dg_scan_rng g = sr /\ dg_scan_next g = sn /\
        realises scalar other cval h' [sr] (assign rho res (count_vector ls)) [dg_sample g] (tail_prog av bv n pf ls)).
    { intros ls Hls. apply (tail_value h3 (assign rho res (count_vector ls)) sr sn res p a b y ls av bv n pf yv); try done.
      - intros u. unfold assign. case_decide as Hd; [subst u; intros _; by rewrite Hres|]. intros Hu. by apply O3.
      - exact (extends_some _ _ _ X3 Ssr2).
      - split; [apply ev_given; unfold assign; by rewrite decide_True|]. unfold ty_def, ty_of. rewrite Hres. cbn [fmap option_fmap option_map default v_ty].
        exact (eq_sym (tb_scan B scalar other HT h2 o [ys; sr; hh])).
      - by apply Hkeep. - by apply Hkeep. - by apply Hkeep. - by apply Hkeep. }
    pose proof (Htail yv eq_refl) as Hy0. destruct (dispersion_tail B h3 sr sn res p a b y) as [h' g].
    destruct Hy0 as (X4 & G4 & (k & Kx & Kn) & Esr & Esn & _). rewrite Esr, Esn.
    split; [exact (extends_trans _ _ _ X03 X4)|]. split; [exact G4|].
    exists o, o, ys, res, k. split; [apply (proj2 X4); exact N3|].
    split. { rewrite (extends_owner_old h3 h'); [|done|by rewrite Hres]. unfold owner. by rewrite Hres. }
    split. { rewrite (extends_owner_old h3 h'); [|done|by rewrite Hsn]. unfold owner. by rewrite Hsn. }
    pose proof (extends_trans _ _ _ X3 X4) as X24.
    split; [apply (shared_extends h2 h'); [done|done|done]|]. split; [done|].
    split; [exact (proj1 (has_extends B scalar other cval rho _ _ _ _ (proj1 G2) X24 O2 Vys2))|].
    split; [exact (proj1 (has_extends B scalar other cval rho _ _ _ _ (proj1 G2) X24 O2 Vh2))|].
    split; [done|]. split; [done|]. intros ls Hls. apply (Htail ls Hls).
  Qed.
End value.

(** ** The kernel *)
Lemma given_values_at B scalar other cval h rho vs xs :
  (forall v nm ty c ow, v ∈ vs -> hv h v = Some (Var nm ty (KConst c) ow) -> ow = None /\ rho v = None) ->
  Forall2 (has_value B scalar other cval h rho) vs xs ->
  exists vals, Forall2 (evals (tensor_base scalar other) cval h rho) (remove_constants h (PVar <$> vs)) vals /\
    Forall2 (has_value B scalar other cval h (given (remove_constants h (PVar <$> vs)) vals)) vs xs.
Proof.
  intros Hcl Hv. destruct (Forall2_remove _ h vs xs Hv) as [vals Hvals].
  assert (He : Forall2 (evals (tensor_base scalar other) cval h rho) (remove_constants h (PVar <$> vs)) vals).
  { eapply Forall2_impl; [exact Hvals|]. by intros ? ? [? ?]. }
  exists vals. split; [exact He|]. apply Forall2_same_length_lookup. split; [by eapply Forall2_length|].
  intros i v x Hiv Hix. destruct (Forall2_lookup_lr _ _ _ _ _ _ Hv Hiv Hix) as [Hev Hrk]. split; [|exact Hrk].
  destruct (is_constant h v) eqn:Hc.
  - assert (Hg : given (remove_constants h (PVar <$> vs)) vals v = None).
    { destruct (given _ vals v) eqn:Hgv; [|done]. exfalso. pose proof (given_elem _ vals v ltac:(eauto)) as Hin.
      apply remove_constants_elem in Hin as [_ Hin]. congruence. }
    unfold is_constant in Hc. destruct (hv h v) as [[nm ty kd ow]|] eqn:Hw; [|done]. cbn in Hc.
    destruct kd as [c| |]; try done. destruct (Hcl v _ _ _ _ ltac:(by eapply elem_of_list_lookup_2) Hw) as [-> Hrv].
    assert (x = cval c) as ->.
    { eapply evals_det; [exact Hev|]. by eapply ev_const. }
    by eapply ev_const.
  - apply ev_given. eapply given_det; [exact He| |exact Hev]. apply remove_constants_elem. split; [by eapply elem_of_list_lookup_2|done].
Qed.

Lemma dispersion_values B h1 X hh bp y a b h' r : builder_ok B -> good_heap h1 ->
  is_Some (hv h1 X) -> is_Some (hv h1 hh) -> is_Some (hv h1 bp) -> is_Some (hv h1 y) -> is_Some (hv h1 a) -> is_Some (hv h1 b) ->
  (forall v nm ty c ow, v ∈ [hh; a; b; y] -> hv h1 v = Some (Var nm ty (KConst c) ow) -> ow = None) ->
  dispersion_step B h1 X hh bp y a b = (h', Ok r) ->
  exists m p ins inner hp u1 u2 upd, r = (hh, hp, upd) /\ extends h1 h' /\ hv h1 hp = None /\ hv h1 p = None /\
    kernel_node h' m ins inner [hp; u1; u2] /\
    (forall v, v ∈ ins <-> v ∈ [hh; p; a; b; y] /\ is_constant h' v = false) /\
    forall scalar other cval, ranks_ok B other -> constants_ok B cval -> arithmetic_ok scalar -> sums_ok other -> tables_ok B scalar other ->
    forall rho, gives_old h1 rho -> (forall v, v ∈ [hh; a; b; y] -> is_constant h1 v = true -> rho v = None) ->
    forall xv nx bpv n psi t av bv yv, has_value B scalar other cval h1 rho X xv -> numpy_elemwise (scalar E_neg) [xv] = Some nx ->
      has_value B scalar other cval h1 rho bp bpv -> other (OOther K_dot) [nx; bpv] = Some [mkt [n] psi] ->
      has_value B scalar other cval h1 rho hh t -> has_value B scalar other cval h1 rho y (count_vector yv) ->
      has_value B scalar other cval h1 rho a (number av) -> has_value B scalar other cval h1 rho b (number bv) -> (0 < bv)%R ->
      table_kernel_runs scalar other cval h' rho ins inner yv t (tail_prog av bv n (fun j => / (1 + exp (- psi j)))%R).
Proof.
  intros HB G1 SX Sh Sb Sy Sa Sb' Hcl. unfold dispersion_step.
  pose proof (mk_elem_struct B h1 E_neg [X] G1 ltac:(by intros u ->%elem_of_list_singleton)) as T2.
  pose proof (fun scalar other cval rho xv nx => elem_keep B HB scalar other cval rho h1 E_neg [X] [xv] nx G1) as V2.
  destruct (mk_elem B h1 _ _) as [h2 nX]. cbn [fst snd] in T2, V2. destruct T2 as (E2 & G2 & S2).
  set (dty := b_dot B (ty_def h2 nX) (ty_def h2 bp)).
  pose proof (apply1_ok h2 (fun _ => True) h2 (OOther K_dot) [nX; bp] dty ltac:(done)
    ltac:(split; [apply extends_refl|done])) as T3. cbv zeta in T3.
  pose proof (fun scalar other cval rho xs z => apply1_has B scalar other cval rho h2 (OOther K_dot) [nX; bp] dty xs z ltac:(done) G2) as V3.
  destruct (apply1 h2 _ _ _) as [h3 psiv]. cbn [fst snd] in T3, V3. destruct T3 as (E3 & [_ G3] & [S3 _] & _).
  { intros u [->|[->|?%elem_of_nil]%elem_of_cons]%elem_of_cons; [| |done]; (split; [|by left]); [exact S2|exact (extends_some _ _ _ E2 Sb)]. }
  pose proof (mk_elem_struct B h3 E_sigmoid [psiv] G3 ltac:(by intros u ->%elem_of_list_singleton)) as T4.
  pose proof (fun scalar other cval rho xv nx => elem_keep B HB scalar other cval rho h3 E_sigmoid [psiv] [xv] nx G3) as V4.
  pose proof (mk_elem_plain B h3 E_sigmoid [psiv]) as Pp. cbv zeta in Pp.
  pose proof (elem_full B h3 (fun _ => True) h3 E_sigmoid [psiv] ltac:(split; [apply extends_refl|done])
    ltac:(intros u ->%elem_of_list_singleton; split; [done|by left])) as Fp. cbv zeta in Fp. destruct Fp as (_ & _ & _ & Fp & _).
  destruct (mk_elem B h3 _ _) as [h4 p]. cbn [fst snd] in T4, V4, Pp, Fp. destruct T4 as (E4 & G4 & S4). destruct Pp as [pow Pp].
  pose proof (extends_trans _ _ _ (extends_trans _ _ _ E2 E3) E4) as E14.
  assert (Hi : forall u, u ∈ [hh; p; a; b; y] -> is_Some (hv h4 u)).
  { intros u [->|[->|[->|[->|[->|?%elem_of_nil]%elem_of_cons]%elem_of_cons]%elem_of_cons]%elem_of_cons]%elem_of_cons; try done;
      (eapply extends_some; [exact E14|done]). }
  pose proof (dispersion_inner_ok B h4 (fun _ => True) h4 hh p a b y ltac:(split; [apply extends_refl|done])
    ltac:(intros u Hu; split; [by apply Hi|by left])) as T5.
  pose proof (fun scalar other cval HR HC HA HF HT rho t av bv n pf yv => inner_value B HB scalar other cval HR HC HA HF HT h4 rho hh p a b y t av bv n pf yv G4) as V5.
  destruct (dispersion_inner B h4 hh p a b y) as [h5 g].
  destruct T5 as (E5 & [_ G5] & Hr & _). pose proof (extends_trans _ _ _ E14 E5) as E15.
  change [PVar hh; PVar p; PVar a; PVar b; PVar y] with (PVar <$> [hh; p; a; b; y]).
  set (vs := [hh; p; a; b; y]) in *.
  assert (Hrc : remove_constants h5 (PVar <$> vs) = remove_constants h4 (PVar <$> vs)).
  { clear - E5 Hi. clearbody vs. induction vs as [|v l IH]; [done|]. cbn.
    assert (is_constant h5 v = is_constant h4 v) as ->.
    { unfold is_constant. destruct (Hi v ltac:(by left)) as [x Hx]. by rewrite Hx, (proj1 E5 v x Hx). }
    rewrite IH; [done|]. intros u Hu. apply Hi. by right. }
  assert (Hback : forall w, hv h4 w = None -> hv h1 w = None).
  { intros w Hw. destruct (hv h1 w) as [x|] eqn:Ex; [|done]. apply (proj1 E14) in Ex. congruence. }
  destruct (mk_kernel_cases h5 K_dispersion vs (dispersion_outputs g) [posterior_name h1 hh "h"; None; None] G5) as [[_ ->]|[_ H]].
  - intros u Hu. eapply extends_some; [exact E5|by apply Hi].
  - intros u Hu. by apply Hr.
  - done.
  - done.
  - destruct H as (h6 & outs & m & -> & E6 & G6 & Hlen & _ & Hm & Ho).
    destruct outs as [|hp [|u1 [|u2 [|]]]]; try done. intros Hres.
    assert (Heq : h6 = h' /\ exists upd, r = (hh, hp, upd)).
    { cbv zeta in Hres. destruct (_ !! _) as [r1|]; [|discriminate Hres]. destruct (_ !! _) as [r2|]; [|discriminate Hres]. injection Hres as <- <-. eauto. }
    clear Hres. destruct Heq as [<- [upd ->]].
    pose proof (extends_trans _ _ _ E15 E6) as E16. pose proof (extends_trans _ _ _ E5 E6) as E46.
    exists m, p, (remove_constants h4 (PVar <$> vs)), (dispersion_outputs g), hp, u1, u2, upd. split; [done|]. split; [exact E16|]. split.
    { destruct (Ho 0 hp eq_refl) as (_ & Hf & _). destruct (hv h1 hp) as [x|] eqn:Ex; [|done]. apply (proj1 E15) in Ex. congruence. }
    split.
    { destruct (hv h1 p) as [x|] eqn:Ex; [|done]. apply (proj1 (extends_trans _ _ _ E2 E3)) in Ex. congruence. }
    split.
    { split; [done|]. exists K_dispersion. rewrite Hm, Hrc. do 3 f_equal. symmetry.
      apply shared_inputs_extends; [exact E6|apply G5|]. intros u Hu. by apply Hr. }
    split.
    { intros v. rewrite remove_constants_elem. split; intros [Hv Hc]; (split; [exact Hv|]); destruct (Hi v Hv) as [x Hx]; unfold is_constant in *;
        rewrite Hx in *; rewrite (proj1 E46 v x Hx) in *; exact Hc. }
    intros scalar other cval HR HC HA HF HT rho O1 Hnc xv nx bpv n psi t av bv yv VX Hnx Vbp Hdot Vh Vy Va Vb Pb.
    specialize (V2 scalar other cval rho xv nx O1 (F1' B scalar other cval _ _ _ _ VX) Hnx). pose proof V2 as (_ & _ & O2 & W2).
    pose proof (upv B scalar other cval _ _ _ _ _ _ _ G1 O1 V2 Vbp) as Vbp2.
    specialize (V3 scalar other cval rho [nx; bpv] (mkt [n] psi) O2 (F2' B scalar other cval _ _ _ _ _ _ W2 Vbp2) Hdot (rk_dot B other HR _ _ _ _ _ (proj2 W2) (proj2 Vbp2) Hdot)).
    pose proof V3 as (_ & _ & O3 & W3).
    specialize (V4 scalar other cval rho (mkt [n] psi) (mkt [n] (fun j => / (1 + exp (- psi j)))%R) O3 (F1' B scalar other cval _ _ _ _ W3)
      (elem_vec1 scalar E_sigmoid [n] psi _ ltac:(intros j _; apply (tb_sigmoid B scalar other HT)))). pose proof V4 as (_ & _ & O4 & W4).
    assert (Hup : forall v x, has_value B scalar other cval h1 rho v x -> has_value B scalar other cval h4 rho v x).
    { intros v x Hx. eapply has_extends; [apply G1|exact E14|exact O1|exact Hx]. }
    destruct (given_values_at B scalar other cval h4 rho vs [t; mkt [n] (fun j => / (1 + exp (- psi j)))%R; number av; number bv; count_vector yv]) as (vals & He & Hgv).
    { intros v nm ty c ow Hv Hc. assert (Hold : v ∈ [hh; a; b; y] /\ is_Some (hv h1 v)).
      { apply elem_of_cons in Hv as [->|[->|[->|[->|[->|?%elem_of_nil]%elem_of_cons]%elem_of_cons]%elem_of_cons]%elem_of_cons]; [| | | | |done].
        - split; [by left|done]. - rewrite Pp in Hc. discriminate Hc. - split; [right; by left|done]. - split; [do 2 right; by left|done]. - split; [do 3 right; by left|done]. }
      destruct Hold as [Hv' [w Hw]]. pose proof (proj1 E14 v w Hw) as Hw'. rewrite Hc in Hw'. injection Hw' as <-. split; [by eapply Hcl|].
      apply Hnc; [done|]. unfold is_constant. by rewrite Hw. }
    { apply Forall2_cons_2; [by apply Hup|]. apply Forall2_cons_2; [exact W4|]. apply Forall2_cons_2; [by apply Hup|]. apply Forall2_cons_2; [by apply Hup|].
      apply Forall2_cons_2; [by apply Hup|apply Forall2_nil_2]. }
    set (rho' := given (remove_constants h4 (PVar <$> vs)) vals) in *.
    assert (Hgo : gives_old h4 rho').
    { intros v Hvv. apply given_elem, remove_constants_elem in Hvv as [Hvv _]. by apply Hi. }
    apply Forall2_cons in Hgv as [Gh Hgv]. apply Forall2_cons in Hgv as [Gp Hgv]. apply Forall2_cons in Hgv as [Ga Hgv]. apply Forall2_cons in Hgv as [Gb Hgv]. apply Forall2_cons in Hgv as [Gy _].
    destruct (V5 scalar other cval HR HC HA HF HT rho' t av bv n _ yv Hgo Gh Gy Gp Ga Gb Pb) as (_ & _ & k0 & o & ys & res & k & N1 & N2 & N3 & N4 & N5 & N6 & N7 & N8 & N9 & N10).
    { intros j _. pose proof (exp_pos (- psi j)). split; [apply Rinv_0_lt_compat; lra|]. pose proof (Rinv_lt_contravar 1 (1 + exp (- psi j)) ltac:(lra) ltac:(lra)) as Hi1. rewrite Rinv_1 in Hi1. exact Hi1. }
    pose proof (gives_old_extends rho' _ _ E5 Hgo) as Hgo5.
    assert (Hown : forall u z, owner h5 u = Some z -> owner h6 u = Some z).
    { intros u z Hz. rewrite (extends_owner_old h5 h6); [done|done|]. unfold owner in Hz. by destruct (hv h5 u). }
    exists vals, (dg_sample g), (dg_next g), (dg_scan_next g), k0, o, ys, (dg_scan_rng g), hh, res, k. fold rho'.
    split. { eapply Forall2_impl; [exact He|]. cbn. intros v x Hx. apply (extends_evals_iff _ _ h4 h6); [apply G4|done| |done]. eapply ev_exists; [exact O4|exact Hx]. }
    split; [done|]. split; [by apply (proj2 E6)|]. split; [by apply Hown|]. split; [by apply Hown|].
    split. { apply (shared_extends h5 h6); [done| |done]. destruct N4 as (? & ? & ? & ? & Hs). eauto. }
    split; [done|].
    split; [apply (extends_evals_iff _ _ h5 h6); [apply G5|done| |done]; eapply ev_exists; [exact Hgo5|eassumption]|].
    split; [apply (extends_evals_iff _ _ h5 h6); [apply G5|done| |done]; eapply ev_exists; [exact Hgo5|eassumption]|].
    split; [by apply Hown|]. split; [by apply Hown|].
    intros ls Hls. eapply realises_extends; [apply G5|exact E6| |exact (N10 ls Hls)].
    intros u. unfold assign. case_decide as Hd; [subst u; intros _; unfold owner in N2; by destruct (hv h5 res)|]. intros Hu. by apply Hgo5.
Qed.

Section finder.
  Context (B : builder) (h : heap) (Hg : good_heap h) (Hleaf : forall v, shared_var h v -> owner h v = None) (Hcl : constant_leaves h) (HB : builder_ok B).
  Context (n : nid) (nd : node) (y : vid) (Hn : hn h n = Some nd) (Hy : n_outs nd !! 1 = Some y).

  Lemma nbinom_dispersion hh c X beta std a b : nbinom_form h y hh c X beta -> passes B h c -> fifth_input h beta std -> buildable B h beta X [hh; y] ->
    gamma_params_plain h hh -> rv_node h hh RV_gamma [a; b] ->
    exists h' beta' m p ins inner hp u1 u2 upd, nbinom_logistic_finder B h n = (h', Ok [(beta, beta', []); (hh, hp, upd)]) /\
      extends h h' /\ hv h beta' = None /\ hv h hp = None /\ hv h p = None /\ kernel_node h' m ins inner [hp; u1; u2] /\
      (forall v, v ∈ ins <-> v ∈ [hh; p; a; b; y] /\ is_constant h' v = false) /\
      forall scalar other cval, ranks_ok B other -> constants_ok B cval -> arithmetic_ok scalar -> sums_ok other -> tables_ok B scalar other ->
      forall rho, gives_old h rho -> no_constants h rho ->
      forall xv nx bpv n psi t av bv yv, has_value B scalar other cval h rho X xv -> numpy_elemwise (scalar E_neg) [xv] = Some nx ->
        declared B h' beta' = rank bpv -> other (OOther K_dot) [nx; bpv] = Some [mkt [n] psi] ->
        has_value B scalar other cval h rho hh t -> has_value B scalar other cval h rho y (count_vector yv) ->
        has_value B scalar other cval h rho a (number av) -> has_value B scalar other cval h rho b (number bv) -> (0 < bv)%R ->
        table_kernel_runs scalar other cval h' (assign rho beta' bpv) ins inner yv t (tail_prog av bv n (fun j => / (1 + exp (- psi j)))%R).
  Proof using All.
    intros (p & Hrv & Hsd) Hpass Hf Hbl Hpl Hgm.
    unfold nbinom_logistic_finder, with_rv. rewrite Hn, Hy, (nbinom_match_matched B h y hh p c X beta Hrv Hsd).
    destruct (check_cases B h c) as [(e & _ & _ & _ & Hp)|[(_ & _ & Hp)|(-> & _ & _)]]; [by destruct (Hp Hpass)..|]. cbn [rbind].
    destruct (owner_input4_cases h Hg beta) as [(std' & -> & Hf')|(e & _ & _ & Hno)]; [|exfalso; apply Hno; eauto].
    rewrite (fifth_fun h _ _ _ Hf' Hf) in *. clear Hf' std'.
    destruct (sigmoid_some h Hg _ _ _ _ Hsd) as [SX Sb]. pose proof (rv_some h Hg _ _ _ Hrv hh ltac:(by left)) as Sh.
    pose proof (y_some h Hg n nd y Hn Hy) as Sy.
    assert (Soth : forall u, u ∈ [X; hh; y] -> is_Some (hv h u)).
    { intros u [->|Hux]%elem_of_cons; [exact SX|]. revert u Hux. apply two_some; [exact Sh|exact Sy]. }
    destruct Hbl as (std' & Hf' & Hd1 & Hd2 & Hns). rewrite (fifth_fun h _ _ _ Hf' Hf) in *. clear Hf' std'.
    destruct (index_error_cases B h std X (proj2 (fifth_some h Hg _ _ Hf)) SX) as [[_ Hix]|[-> _]]; [exfalso; by apply Hix|].
    pose proof (kernel_values B h [X; hh; y] [posterior_name h beta "beta"] nbinom_code nbinom_outs K_nbreg beta std Hg Hcl HB eq_refl eq_refl Soth Hf Hns) as H.
    cbv zeta in H. destruct (mk_body B h _ _ _) as [h1 inner].
    change [PVar beta; PVar std; PVar X; PVar hh; PVar y] with (PVar <$> [beta; std; X; hh; y]).
    destruct H as (h2 & outs & m & -> & E2 & G2 & Hlen & Ho & Hm & _).
    destruct outs as [|bp [|]]; try done. destruct (Ho bp ltac:(by left)) as (Hfr & Sbp & _).
    assert (Hup : forall u, is_Some (hv h u) -> is_Some (hv h2 u)) by (intros u; by apply extends_some).
    rewrite (proj2 (gamma_match_iff h2 hh a b)) by (by apply (rv_node_extends h Hg h2 hh)).
    pose proof (rv_some h Hg _ _ _ Hgm a ltac:(by left)) as Sga. pose proof (rv_some h Hg _ _ _ Hgm b ltac:(right; by left)) as Sgb.
    assert (Phh : ~ shared_var h2 hh).
    { intros Hs. apply (shared_extends h h2) in Hs; [|done|done]. apply (Hns hh); [|done]. do 3 right. by left. }
    assert (Py : ~ shared_var h2 y).
    { intros Hs. apply (shared_extends h h2) in Hs; [|done|exact Sy]. apply (Hns y); [|done]. do 4 right. by left. }
    assert (Hin : forall v, v ∈ [hh; a; b; y] -> is_Some (hv h v)).
    { intros v [->|[->|[->|[->|?%elem_of_nil]%elem_of_cons]%elem_of_cons]%elem_of_cons]%elem_of_cons; [exact Sh|exact Sga|exact Sgb|exact Sy|done]. }
    destruct (dispersion_cases B h Hg n nd y Hn Hy (fun v _ => Hleaf v) h2 X hh bp a b G2 (Hup _ SX) (Hup _ Sh) Sbp (Hup _ Sy) (Hup _ Sga) (Hup _ Sgb) Phh Py)
      as [(Hsh & h' & e & ->)|(_ & _ & h' & hp & u1 & u2 & _ & _ & r1 & r2 & _ & _ & _ & _ & _ & Hds & _)].
    { exfalso. destruct (Hpl a b Hgm) as [N1 N2]. destruct Hsh as [Hs|Hs]; (apply (shared_extends h h2) in Hs; [|done|done]); done. }
    rewrite Hds. apply (dispersion_values B h2 X hh bp y a b) in Hds; [|exact HB|exact G2|exact (Hup _ SX)|exact (Hup _ Sh)|exact Sbp|exact (Hup _ Sy)|exact (Hup _ Sga)|exact (Hup _ Sgb)|].
    2: { intros v nm ty cc ow Hv Hc. destruct (Hin v Hv) as [w Hw]. rewrite (proj1 E2 v w Hw) in Hc. injection Hc as ->. by eapply Hcl. }
    destruct Hds as (m' & pv & ins & inner' & hp' & v1 & v2 & upd & Heq & E3 & Fhp & Fp & Hk & Hins & Hval).
    assert (Hback : forall w, hv h2 w = None -> hv h w = None).
    { intros w Hw. destruct (hv h w) as [x|] eqn:Ex; [|done]. apply (proj1 E2) in Ex. congruence. }
    pose proof (extends_trans _ _ _ E2 E3) as E23. rewrite Heq.
    exists h', bp, m', pv, ins, inner', hp', v1, v2, upd. split; [reflexivity|]. split; [exact E23|]. split; [exact Hfr|]. split; [by apply Hback|]. split; [by apply Hback|].
    split; [exact Hk|]. split; [exact Hins|].
    intros scalar other cval HR HC HA HF HT rho O0 Hnc xv nx bpv k psi t av bv yv VX Hnx Hrk Hdot Vh Vy Va Vb Pb.
    assert (Hkeep : forall v x, has_value B scalar other cval h rho v x -> has_value B scalar other cval h2 (assign rho bp bpv) v x).
    { intros v x [Hx Hr]. pose proof (ev_exists scalar other cval rho h v x O0 Hx) as Hs. split.
      - apply (extends_evals_iff _ _ h h2); [apply Hg|done|done|].
        apply (proj1 (evals_rho_agree _ cval h rho (assign rho bp bpv) (proj1 Hg)
          ltac:(intros w Hw; unfold assign; rewrite decide_False; [done|intros ->; rewrite Hfr in Hw; by destruct Hw]))); done.
      - by rewrite (ty_def_extends h h2). }
    eapply Hval; [exact HR|exact HC|exact HA|exact HF|exact HT| | |by apply Hkeep|exact Hnx| |exact Hdot|by apply Hkeep..|exact Pb].
    - intros u. unfold assign. case_decide as Hd; [subst u; by intros _|]. intros Hu. apply Hup, O0, Hu.
    - intros v Hv Hc. destruct (Hin v Hv) as [w Hw]. unfold assign. rewrite decide_False by (intros ->; congruence). apply Hnc.
      unfold is_constant in *. rewrite (proj1 E2 v w Hw) in Hc. by rewrite Hw.
    - split; [apply ev_given; unfold assign; by rewrite decide_True|]. unfold declared in Hrk. by rewrite <- Hrk, (ty_def_extends h2 h').
  Qed.
End finder.

(** ** The step compared with the conditional of the dispersion *)
Lemma sum_INR ls : sum_of (INR <$> ls) = INR (list_sum ls).
Proof. induction ls as [|l ls IH]; [done|]. cbn [fmap list_fmap sum_of foldr]. rewrite L_dispersion.list_sum_cons, plus_INR. by rewrite <- IH. Qed.
Lemma logistic_ln x : ln (1 - / (1 + exp (- x)))%R = (- x + ln (/ (1 + exp (- x))))%R.
Proof.
  pose proof (exp_pos (- x)) as He. replace (1 - / (1 + exp (- x)))%R with (exp (- x) * / (1 + exp (- x)))%R by (field; lra).
  rewrite ln_mult, ln_exp; [lra|lra|]. apply Rinv_0_lt_compat. lra.
Qed.
Lemma logistic_unit x : unit_interval (/ (1 + exp (- x))).
Proof.
  pose proof (exp_pos (- x)) as He. split; [apply Rinv_0_lt_compat; lra|].
  pose proof (Rinv_lt_contravar 1 (1 + exp (- x)) ltac:(lra) ltac:(lra)) as Hi. rewrite Rinv_1 in Hi. exact Hi.
Qed.
Lemma tail_iff av bv n psi ls ys : (0 < bv)%R -> length ys = n -> possible_tables ys ls ->
  let ps := (fun j => / (1 + exp (- psi j)))%R <$> seq 0 n in
  draws_gamma (dispersion_joint (GammaNode av bv) ps ys ls) (tail_prog av bv n (fun j => / (1 + exp (- psi j)))%R ls)
  <-> sum_of (psi <$> seq 0 n) = 0%R.
Proof.
  intros Pb Hl Hls ps.
  assert (Hlen : length ps = length ys) by (unfold ps; rewrite fmap_length, seq_length; done).
  assert (Hun : Forall unit_interval ps).
  { apply Forall_fmap, Forall_true. intros j. apply logistic_unit. }
  pose proof (L_dispersion.dispersion_iff av bv ps ys ls Pb Hlen Hun Hls) as Hiff.
  assert (E1 : sum_of ((fun j => ln (1 - / (1 + exp (- psi j))))%R <$> seq 0 n) = lsum (map (fun p => ln (1 - p))%R ps)).
  { unfold ps. generalize (seq 0 n). intros l. induction l as [|j l IH]; [done|]. cbn [fmap list_fmap sum_of foldr map lsum fold_right]. f_equal. exact IH. }
  assert (E2 : (lsum (map (fun p => ln (1 - p)) ps) = lsum (map ln ps) <-> sum_of (psi <$> seq 0 n) = 0)%R).
  { assert (E : (lsum (map (fun p => ln (1 - p)) ps) = - sum_of (psi <$> seq 0 n) + lsum (map ln ps))%R).
    { unfold ps. generalize (seq 0 n). intros l. induction l as [|j l IH]; [cbn; lra|]. cbn [fmap list_fmap sum_of foldr map lsum fold_right].
      rewrite logistic_ln. match type of IH with (?A = - ?B + ?C)%R => set (a := A) in IH; set (b := B) in IH; set (c := C) in IH; change (- psi j + ln (/ (1 + exp (- psi j))) + a = - (psi j + b) + (ln (/ (1 + exp (- psi j))) + c))%R end.
      lra. }
    rewrite E. lra. }
  rewrite <- E2, <- Hiff. unfold dispersion_node, at_gamma, tail_prog. rewrite sum_INR, E1. split.
  - intros (shape & scale & k & Heq & _ & Hp). injection Heq as <- <- _. exact Hp.
  - intros Hp. do 3 eexists. split; [reflexivity|]. split; [done|exact Hp].
Qed.
