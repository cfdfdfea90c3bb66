(** Lemmas about joint laws of tensor expressions. *)
From Verif Require Import S_transforms.

(** ** Shapes *)
Lemma indices_cons a s idx : In idx (indices (a :: s)) <->
  exists i idx', idx = i :: idx' /\ (i < a)%nat /\ In idx' (indices s).
Proof.
  simpl. rewrite in_flat_map. split.
  - intros (i & Hi & H). apply in_map_iff in H. destruct H as (idx' & <- & H).
    apply in_seq in Hi. exists i, idx'. repeat split; auto; lia.
  - intros (i & idx' & -> & Hi & H). exists i. split; [apply in_seq; lia|]. apply in_map; auto.
Qed.

Lemma bidx_self s : forall idx, In idx (indices s) -> bidx s idx = idx.
Proof.
  induction s as [|a s IH]; intros idx H.
  - destruct H as [<-|[]]. reflexivity.
  - apply indices_cons in H. destruct H as (i & idx' & -> & Hi & H). simpl. rewrite IH by auto.
    destruct (a =? 1)%nat eqn:E; auto. apply Nat.eqb_eq in E. f_equal. lia.
Qed.

Lemma nodup_app {A} (l m : list A) : NoDup l -> NoDup m -> (forall x, In x l -> ~ In x m) -> NoDup (l ++ m).
Proof.
  intros Hl Hm H. induction Hl as [|x l Hx Hl IH]; auto. simpl. constructor.
  - rewrite in_app_iff. intros [?|?]; [auto|]. apply (H x); simpl; auto.
  - apply IH. intros y Hy. apply H. simpl. auto.
Qed.

Lemma indices_nodup s : NoDup (indices s).
Proof.
  induction s as [|a s IH]; [repeat constructor; intros []|].
  simpl. generalize (seq_NoDup a 0). generalize (seq 0 a). intros l Hl.
  induction Hl as [|i l Hi Hl IHl]; [constructor|]. simpl. apply nodup_app; auto.
  - clear -IH. induction IH; simpl; constructor; auto. intros H'. apply in_map_iff in H'.
    destruct H' as (y & E & Hy). injection E as ->. contradiction.
  - intros x Hx Hx'. apply in_map_iff in Hx. destruct Hx as (y & <- & Hy).
    apply in_flat_map in Hx'. destruct Hx' as (j & Hj & Hx'). apply in_map_iff in Hx'.
    destruct Hx' as (y' & E & _). injection E as <- _. contradiction.
Qed.

Lemma bcast_nil_r s : bcast s [] = Some s.
Proof. destruct s; reflexivity. Qed.

Lemma bcast_trans m : forall s q z, bcast m s = Some q -> bcast q z = Some z ->
  bcast m z = Some z /\ bcast s z = Some z.
Proof.
  induction m as [|a m IH]; intros s q z H Hq.
  - simpl in H. injection H as ->. auto.
  - destruct s as [|b s].
    + simpl in H. injection H as <-. simpl. auto.
    + simpl in H. destruct (bcast m s) as [r|] eqn:Er; [|discriminate].
      assert (Hz : exists c q' z', q = c :: q' /\ q' = r /\ z = z' /\ (c = a \/ c = b) /\ (a = c \/ a = 1%nat) /\ (b = c \/ b = 1%nat)).
      { destruct (a =? b)%nat eqn:E1; [apply Nat.eqb_eq in E1; injection H as <-; subst; exists b, r, z; auto 10|].
        destruct (a =? 1)%nat eqn:E2; [apply Nat.eqb_eq in E2; injection H as <-; subst; exists b, r, z; auto 10|].
        destruct (b =? 1)%nat eqn:E3; [apply Nat.eqb_eq in E3; injection H as <-; subst; exists a, r, z; auto 10|discriminate]. }
      destruct Hz as (c & q' & z' & -> & -> & <- & _ & Ha & Hb). clear H.
      destruct z as [|d z]; [simpl in Hq; discriminate|]. simpl in Hq.
      destruct (bcast r z) as [r'|] eqn:Er'; [|discriminate].
      assert (r' = z /\ (c = d \/ c = 1%nat)) as (-> & Hcd).
      { destruct (c =? d)%nat eqn:E1; [apply Nat.eqb_eq in E1; injection Hq; auto|].
        destruct (c =? 1)%nat eqn:E2; [apply Nat.eqb_eq in E2; injection Hq; auto|].
        destruct (d =? 1)%nat eqn:E3; [injection Hq; auto|discriminate]. }
      destruct (IH s r z Er Er') as (H1 & H2).
      assert (X : forall x, x = c \/ x = 1%nat ->
        (if x =? d then Some (x :: z) else if x =? 1 then Some (d :: z) else
         if d =? 1 then Some (x :: z) else None)%nat = Some (d :: z)).
      { intros x Hx. destruct (x =? d)%nat eqn:E1; [apply Nat.eqb_eq in E1; subst; auto|].
        destruct (x =? 1)%nat eqn:E2; auto. apply Nat.eqb_neq in E1, E2. exfalso. lia. }
      simpl. rewrite H1, H2. auto.
Qed.

Lemma bcast_comm s : forall t, bcast s t = bcast t s.
Proof.
  induction s as [|a s IH]; intros t; [rewrite bcast_nil_r; reflexivity|].
  destruct t as [|b t]; [reflexivity|]. simpl. rewrite IH. destruct (bcast t s); auto.
  rewrite (Nat.eqb_sym b a). destruct (a =? b)%nat eqn:E; [apply Nat.eqb_eq in E; subst; auto|].
  destruct (a =? 1)%nat eqn:E1, (b =? 1)%nat eqn:E2; auto.
  apply Nat.eqb_eq in E1, E2. subst. auto.
Qed.

Lemma bidx_in s : forall t q idx, bcast s t = Some q -> In idx (indices q) -> In (bidx s idx) (indices s).
Proof.
  induction s as [|a s IH]; intros t q idx H Hi.
  - simpl. auto.
  - destruct t as [|b t].
    + simpl in H. injection H as <-. rewrite bidx_self; auto.
    + simpl in H. destruct (bcast s t) as [r|] eqn:Er; [|discriminate].
      assert (Hz : exists c, q = c :: r /\ (a = c \/ a = 1%nat)).
      { destruct (a =? b)%nat eqn:E1; [injection H as <-; eauto|].
        destruct (a =? 1)%nat eqn:E2; [apply Nat.eqb_eq in E2; injection H as <-; eauto|].
        destruct (b =? 1)%nat eqn:E3; [injection H as <-; eauto|discriminate]. }
      destruct Hz as (c & -> & Hc). apply indices_cons in Hi. destruct Hi as (i & idx' & -> & Hi & Hi').
      apply indices_cons. simpl. eexists _, _. split; [reflexivity|]. split; [|eapply IH; eauto].
      destruct (a =? 1)%nat eqn:E; [apply Nat.eqb_eq in E; lia|]. apply Nat.eqb_neq in E. lia.
Qed.

Lemma bidx_bidx s : forall idx, bidx s (bidx s idx) = bidx s idx.
Proof.
  induction s as [|a s IH]; intros idx; [reflexivity|]. destruct idx as [|i idx]; [reflexivity|].
  simpl. rewrite IH. destruct (a =? 1)%nat; reflexivity.
Qed.

(** ** Probabilities *)
Lemma measure_unique f S p q : measure f S p -> measure f S q -> p = q.
Proof.
  intros [(lo & hi & Hle & HS & HI)|[(HS & ->)|(HS & ->)]]
         [(lo' & hi' & Hle' & HS' & HI')|[(HS' & ->)|(HS' & ->)]]; auto.
  - assert (lo = lo' /\ hi = hi') as (-> & ->).
    { assert (S lo) by (apply HS; lra). assert (S hi) by (apply HS; lra).
      assert (S lo') by (apply HS'; lra). assert (S hi') by (apply HS'; lra).
      apply HS' in H, H0. apply HS in H1, H2. lra. }
    rewrite <- (is_RInt_unique _ _ _ _ HI). apply (is_RInt_unique _ _ _ _ HI').
  - exfalso. apply (HS' lo), HS. lra.
  - specialize (HS' (hi + 1)). apply HS in HS'. exfalso. lra.
  - exfalso. apply (HS lo'), HS'. lra.
  - exfalso. apply (HS 0), HS'.
  - specialize (HS (hi' + 1)). apply HS' in HS. exfalso. lra.
  - exfalso. apply (HS' 0), HS.
Qed.

Lemma measure_ext f S S' p : (forall z, S z <-> S' z) -> measure f S p -> measure f S' p.
Proof.
  intros H [(lo & hi & Hle & HS & HI)|[(HS & ->)|(HS & ->)]].
  - left. exists lo, hi. repeat split; auto; try (apply HS, H; auto). intros Hz. apply H, HS, Hz.
  - right. left. split; auto. intros z Hz. apply (HS z), H, Hz.
  - right. right. split; auto. intros z. apply H, HS.
Qed.

Lemma lprod_ext {A} (f g : A -> R) l : (forall x, In x l -> f x = g x) -> lprod f l = lprod g l.
Proof. induction l; simpl; intros H; auto. rewrite IHl, H; auto. Qed.

Lemma lprod_pos {A} (f : A -> R) l : (forall x, In x l -> 0 < f x) -> 0 < lprod f l.
Proof.
  induction l; simpl; intros H; [lra|]. apply Rmult_lt_0_compat; auto.
Qed.

Lemma box_prob_unique X lo hi p q : box_prob X lo hi p -> box_prob X lo hi q -> p = q.
Proof.
  intros (w & -> & H) (w' & -> & H'). apply lprod_ext. intros k Hk.
  destruct (H k Hk) as (f & Ef & Hm). destruct (H' k Hk) as (f' & Ef' & Hm').
  rewrite Ef in Ef'. injection Ef' as <-. eapply measure_unique; eauto.
Qed.

(** ** Densities of the location-scale family *)
Lemma exp_cont (g : R -> R) (x : R) : continuous g x -> continuous (fun y => exp (g y)) x.
Proof. intros H. apply (continuous_comp g exp); auto. apply continuous_exp. Qed.

Lemma ls_pdf cv d m s : In d location_scale_family -> arity d = 2%nat -> 0 < s ->
  exists f g, pdf cv d [m; s] = Some f /\ pdf cv d [0; 1] = Some g /\
    (forall x, f x = / s * g (/ s * x + - (m / s))) /\
    (forall x, continuous g x) /\ (forall x, 0 < g x).
Proof.
  intros Hd Ha Hs. pose proof PI_RGT_0 as HP.
  assert (Hz : forall x, (x - m) / s = / s * x + - (m / s)) by (intros; field; lra).
  assert (Hz' : forall x, (/ s * x + - (m / s) - 0) / 1 = / s * x + - (m / s)) by (intros; field; lra).
  destruct d; try discriminate; simpl in Hd;
    try (exfalso; decompose [or] Hd; try discriminate; contradiction).
  - exists (cauchy_pdf m s), (cauchy_pdf 0 1). repeat split; auto.
    + intros x. unfold cauchy_pdf. rewrite Hz, Hz'. generalize (/ s * x + - (m / s)). intros z.
      pose proof (pow2_ge_0 z). field. repeat split; lra.
    + intros x. apply (ex_derive_continuous (cauchy_pdf 0 1)). unfold cauchy_pdf. auto_derive.
      apply Rgt_not_eq. apply Rmult_lt_0_compat; [lra|]. pose proof (Rle_0_sqr ((x + - 0) * / 1)) as Hq. unfold Rsqr in Hq. lra.
    + intros x. unfold cauchy_pdf. apply Rinv_0_lt_compat. apply Rmult_lt_0_compat; [lra|].
      pose proof (pow2_ge_0 ((x - 0) / 1)). lra.
  - exists (gumbel_pdf m s), (gumbel_pdf 0 1). repeat split; auto.
    + intros x. unfold gumbel_pdf. rewrite Hz, Hz'. field. lra.
    + intros x. apply (ex_derive_continuous (gumbel_pdf 0 1)). unfold gumbel_pdf. auto_derive. auto.
    + intros x. unfold gumbel_pdf. rewrite Rinv_1, Rmult_1_l. apply exp_pos.
  - exists (laplace_pdf m s), (laplace_pdf 0 1). repeat split; auto.
    + intros x. unfold laplace_pdf. replace (Rabs (/ s * x + - (m / s) - 0)) with (Rabs (x - m) / s).
      * replace (Rabs (x - m) / s / 1) with (Rabs (x - m) / s) by (field; lra). field. lra.
      * rewrite Rminus_0_r, <- Hz. unfold Rdiv. rewrite Rabs_mult, (Rabs_pos_eq (/ s)); auto.
        left. apply Rinv_0_lt_compat; auto.
    + intros x. unfold laplace_pdf. apply (continuous_scal_r (/ (2 * 1)) (fun x => exp (- (Rabs (x - 0) / 1)))).
      apply exp_cont. apply (continuous_opp (fun x => Rabs (x - 0) / 1)).
      apply (continuous_scal_l (fun x => Rabs (x - 0)) (/ 1)).
      apply (continuous_comp (fun x => x - 0) Rabs); [|apply continuous_Rabs].
      apply (ex_derive_continuous (fun x => x - 0)). auto_derive. auto.
    + intros x. unfold laplace_pdf. apply Rmult_lt_0_compat; [lra|apply exp_pos].
  - exists (logistic_pdf m s), (logistic_pdf 0 1). repeat split; auto.
    + intros x. unfold logistic_pdf. rewrite Hz, Hz'.
      pose proof (exp_pos (- (/ s * x + - (m / s)))). field. repeat split; lra.
    + intros x. apply (ex_derive_continuous (logistic_pdf 0 1)). unfold logistic_pdf. auto_derive.
      pose proof (exp_pos (- ((x + - 0) * / 1))). apply Rgt_not_eq. nra.
    + intros x. unfold logistic_pdf. pose proof (exp_pos (- ((x - 0) / 1))).
      apply Rdiv_lt_0_compat; auto. nra.
  - exists (normal_pdf m s), (normal_pdf 0 1). repeat split; auto.
    + intros x. unfold normal_pdf. replace ((/ s * x + - (m / s) - 0) ^ 2 / (2 * 1 ^ 2)) with ((x - m) ^ 2 / (2 * s ^ 2)) by (field; lra).
      field. assert (0 < sqrt (2 * PI)) by (apply sqrt_lt_R0; lra). lra.
    + intros x. apply (ex_derive_continuous (normal_pdf 0 1)). unfold normal_pdf. auto_derive.
      assert (0 < sqrt (2 * PI)) by (apply sqrt_lt_R0; lra). lra.
    + intros x. unfold normal_pdf. assert (0 < sqrt (2 * PI)) by (apply sqrt_lt_R0; lra).
      apply Rmult_lt_0_compat; [apply Rinv_0_lt_compat; lra|apply exp_pos].
Qed.

Lemma ls_int f g m s lo hi : 0 < s -> (forall x, f x = / s * g (/ s * x + - (m / s))) ->
  (forall x, continuous g x) ->
  is_RInt f lo hi (RInt g (/ s * lo + - (m / s)) (/ s * hi + - (m / s))).
Proof.
  intros Hs E Hc. apply is_RInt_ext with (fun x => scal (/ s) (g (/ s * x + - (m / s)))).
  - intros x _. symmetry. apply E.
  - apply (is_RInt_comp_lin g (/ s) (- (m / s))). apply (RInt_correct g).
    apply (ex_RInt_continuous g). auto.
Qed.

(** ** The location-scale transform *)
Section LocScale.
Context (cv : convention) (d : rvdist) (rng : nat) (size : shape) (dt : nat) (m s : tensor).
Hypothesis Hd : In d location_scale_family.
Hypothesis Hs : forall idx, In idx (indices (tshape s)) -> 0 < tdata s idx.

Let e := ERV d rng size dt [EConst m; EConst s].
Let e' := EAdd (EConst m) (EMul (EConst s) (ERV d rng size dt [EConst (scalar 0); EConst (scalar 1)])).

Lemma ls_eval X : eval cv e = Some X -> arity d = 2%nat /\ exists q,
  bcast (tshape m) (tshape s) = Some q /\ rshape X = nshape X /\
  (size = [] /\ rshape X = q \/ size <> [] /\ rshape X = size /\ bcast q size = Some size) /\
  (forall idx, npdf X idx = pdf cv d [at_idx m idx; at_idx s idx]) /\
  (forall idx, pos X idx = idx) /\ (forall idx z, fn X idx z = z).
Proof.
  unfold e. simpl. destruct (arity d) as [|[|[|n]]] eqn:Ea; try discriminate.
  unfold draw_shape, bcasts. rewrite bcast_nil_r. intros H. split; auto.
  destruct (bcast (tshape m) (tshape s)) as [q|] eqn:Eq; [|discriminate]. exists q. split; auto.
  destruct size as [|n sz] eqn:Es.
  - injection H as <-. simpl. repeat split; auto.
  - rewrite <- Es in *. destruct (bcast q size) as [r|] eqn:Er; [|discriminate].
    destruct (list_eq_dec Nat.eq_dec r size) as [->|]; [|discriminate].
    injection H as <-. simpl. repeat split; auto. right. repeat split; auto. rewrite Es. discriminate.
Qed.

Lemma ls_prob X lo hi : eval cv e = Some X -> (forall idx, lo idx <= hi idx) ->
  exists g, pdf cv d [0; 1] = Some g /\ (forall x, continuous g x) /\ (forall x, 0 < g x) /\
  box_prob X lo hi (lprod (fun idx =>
    RInt g (/ at_idx s idx * lo idx + - (at_idx m idx / at_idx s idx))
           (/ at_idx s idx * hi idx + - (at_idx m idx / at_idx s idx))) (indices (rshape X))) /\
  (forall idx, In idx (indices (rshape X)) -> 0 < at_idx s idx).
Proof.
  intros HX Hle. destruct (ls_eval X HX) as (Ha & q & Eq & Esh & Hsz & Hp & Hpos & Hfn).
  assert (Hsp : forall idx, In idx (indices (rshape X)) -> 0 < at_idx s idx).
  { intros idx Hidx. apply Hs. destruct Hsz as [(_ & E)|(_ & E & Hb)].
    - rewrite E in Hidx. rewrite bcast_comm in Eq. eapply bidx_in; eauto.
    - rewrite E in Hidx. destruct (bcast_trans _ _ _ _ Eq Hb) as (_ & Hb'). eapply bidx_in; eauto. }
  destruct (ls_pdf cv d 0 1 Hd Ha ltac:(lra)) as (_ & g & _ & Eg & _ & Hc & Hg).
  exists g. repeat split; auto. rewrite Esh in *.
  eexists. split; [reflexivity|]. intros k Hk. simpl.
  destruct (ls_pdf cv d (at_idx m k) (at_idx s k) Hd Ha (Hsp k Hk)) as (f & g' & Ef & Eg' & Efg & _ & _).
  rewrite Eg in Eg'. injection Eg' as <-. exists f. rewrite Hp. split; auto. left. exists (lo k), (hi k).
  split; auto. split.
  - intros z. split.
    + intros H. specialize (H k). rewrite Hpos, Hfn, Esh in H. apply H; auto.
    + intros H idx Hidx E. rewrite Hpos in E. subst idx. rewrite Hfn. auto.
  - apply ls_int; auto.
Qed.

Lemma ls_explicit X : eval cv e = Some X -> size <> [] ->
  same_law_expr cv (fun _ => True) e e'.
Proof.
  intros HX Hne. destruct (ls_eval X HX) as (Ha & q & Eq & Esh & Hsz & Hp & Hpos & Hfn).
  destruct Hsz as [(E & _)|(_ & Esz & Hb)]; [contradiction|].
  destruct (bcast_trans _ _ _ _ Eq Hb) as (Hbm & Hbs).
  exists X. eexists. split; [exact HX|]. split.
  { unfold e'. simpl. rewrite Ha. simpl.
  replace (draw_shape size [scalar 0; scalar 1]) with (Some size).
  2:{ unfold draw_shape. cbn [bcasts scalar tshape bcast].
      destruct size as [|n l] eqn:Es; [contradiction|]. cbn [bcast].
      destruct (list_eq_dec Nat.eq_dec (n :: l) (n :: l)); [reflexivity|contradiction]. }
  unfold elemwise at 1. cbn [rshape nshape npdf pos fn]. rewrite Hbs.
  unfold elemwise. cbn [rshape nshape npdf pos fn]. rewrite Hbm.
  reflexivity. }
  split; [exact Esz|].
  intros lo hi Hlh. destruct (ls_prob X lo hi HX) as (g & Eg & Hc & Hg & Hbp & Hsp).
  { intros idx. apply Hlh. }
  eexists. split; [exact Hbp|]. rewrite Esz. eexists. cbn [rshape nshape npdf pos fn].
  split; [reflexivity|]. intros k Hk. exists g. split; [exact Eg|]. left. eexists _, _. split.
  2: split.
  3: { apply (RInt_correct g). apply (ex_RInt_continuous g). auto. }
  - rewrite Esz in Hsp. specialize (Hsp k Hk). pose proof (Rinv_0_lt_compat _ Hsp).
    apply Rplus_le_compat_r, Rmult_le_compat_l; [lra|apply Hlh].
  - intros z. rewrite Esz in Hsp. pose proof (Hsp k Hk) as Hk'.
    assert (E : forall x y, / at_idx s k * x + - (at_idx m k / at_idx s k) <= z <=
                / at_idx s k * y + - (at_idx m k / at_idx s k) <->
                x <= at_idx m k + at_idx s k * z <= y).
    { intros x y. pose proof (Rinv_0_lt_compat _ Hk') as Hi.
      replace (/ at_idx s k * x + - (at_idx m k / at_idx s k)) with ((x - at_idx m k) * / at_idx s k) by (field; lra).
      replace (/ at_idx s k * y + - (at_idx m k / at_idx s k)) with ((y - at_idx m k) * / at_idx s k) by (field; lra).
      assert (Hinv : / at_idx s k * at_idx s k = 1) by (field; lra).
      split; intros (H1 & H2).
      - apply (Rmult_le_compat_r (at_idx s k)) in H1, H2; try lra.
        rewrite Rmult_assoc, Hinv in H1, H2. lra.
      - split; apply (Rmult_le_reg_r (at_idx s k)); auto; rewrite Rmult_assoc, Hinv; lra. }
    rewrite E. split.
    + intros H. specialize (H k Hk). rewrite !(bidx_self size k Hk) in H. apply H. reflexivity.
    + intros H idx Hidx Ep. rewrite !(bidx_self size idx Hidx) in *.
      subst idx. exact H.
Qed.

Lemma ls_default X : eval cv e = Some X -> size = [] -> exists g Y,
  pdf cv d [0; 1] = Some g /\ eval cv e' = Some Y /\ rshape Y = rshape X /\ nshape Y = [] /\
  npdf Y [] = Some g /\ (forall idx, pos Y idx = []) /\
  (forall idx z, In idx (indices (rshape X)) -> fn Y idx z = at_idx m idx + at_idx s idx * z).
Proof.
  intros HX Hne. destruct (ls_eval X HX) as (Ha & q & Eq & Esh & Hsz & Hp & Hpos & Hfn).
  destruct Hsz as [(_ & Eqs)|(E & _)]; [|contradiction].
  destruct (ls_pdf cv d 0 1 Hd Ha ltac:(lra)) as (_ & g & _ & Eg & _).
  exists g. unfold e'. simpl. rewrite Ha, Hne. simpl.
  unfold elemwise at 1. cbn [rshape nshape npdf pos fn]. rewrite bcast_nil_r.
  unfold elemwise. cbn [rshape nshape npdf pos fn]. rewrite Eq.
  eexists. split; [exact Eg|]. split; [reflexivity|]. cbn [rshape nshape npdf pos fn]. simpl bidx.
  repeat split; auto. intros idx z _. f_equal. f_equal. unfold at_idx. rewrite bidx_bidx. reflexivity.
Qed.

Lemma ls_small X : eval cv e = Some X -> size = [] -> (length (indices (rshape X)) <= 1)%nat ->
  same_law_expr cv (fun _ => True) e e'.
Proof.
  intros HX Hne Hl. destruct (ls_default X HX Hne) as (g & Y & Eg & HY & Esh & Ens & Enp & Hpos & Hfn).
  exists X, Y. split; auto. split; auto. split; auto.
  intros lo hi Hlh. destruct (ls_prob X lo hi HX) as (g' & Eg' & Hc & Hg & Hbp & Hsp).
  { intros idx. apply Hlh. }
  rewrite Eg in Eg'. injection Eg' as <-.
  eexists. split; [exact Hbp|]. unfold box_prob. rewrite Ens, Esh. simpl.
  destruct (indices (rshape X)) as [|i [|? ?]] eqn:Ei; simpl in *; [| |lia].
  - exists (fun _ => 1). split; [ring|]. intros k [<-|[]]. exists g. split; auto.
    right. right. split; auto. intros z idx [].
  - exists (fun _ => RInt g (/ at_idx s i * lo i + - (at_idx m i / at_idx s i))
      (/ at_idx s i * hi i + - (at_idx m i / at_idx s i))). split; [ring|].
    intros k [<-|[]]. exists g. split; auto. left. eexists _, _. split.
    2: split.
    3: { apply (RInt_correct g). apply (ex_RInt_continuous g). auto. }
    + specialize (Hsp i (or_introl eq_refl)). pose proof (Rinv_0_lt_compat _ Hsp).
      apply Rplus_le_compat_r, Rmult_le_compat_l; [lra|apply Hlh].
    + intros z. specialize (Hsp i (or_introl eq_refl)). pose proof (Rinv_0_lt_compat _ Hsp) as Hi.
      replace (/ at_idx s i * lo i + - (at_idx m i / at_idx s i)) with ((lo i - at_idx m i) * / at_idx s i) by (field; lra).
      replace (/ at_idx s i * hi i + - (at_idx m i / at_idx s i)) with ((hi i - at_idx m i) * / at_idx s i) by (field; lra).
      assert (Hinv : / at_idx s i * at_idx s i = 1) by (field; lra).
      split.
      * intros H. specialize (H i (or_introl eq_refl) (Hpos i)). rewrite Hfn in H by auto.
        split; apply (Rmult_le_reg_r (at_idx s i)); auto; rewrite Rmult_assoc, Hinv; lra.
      * intros (H1 & H2) idx [<-|[]] _. rewrite Hfn by auto.
        apply (Rmult_le_compat_r (at_idx s i)) in H1, H2; try lra.
        rewrite Rmult_assoc, Hinv in H1, H2. lra.
Qed.

Lemma ls_large X : eval cv e = Some X -> size = [] -> (1 < length (indices (rshape X)))%nat ->
  ~ same_law_expr cv (fun _ => True) e e'.
Proof.
  intros HX Hne Hl (X' & Y & HX' & HY & _ & Hlaw).
  rewrite HX in HX'. injection HX' as <-.
  destruct (ls_default X HX Hne) as (g & Y' & Eg & HY' & Esh & Ens & Enp & Hpos & Hfn).
  rewrite HY in HY'. injection HY' as <-.
  pose proof (indices_nodup (rshape X)) as Hnd.
  destruct (indices (rshape X)) as [|i [|j rest]] eqn:Ei; simpl in Hl; [lia|lia|].
  assert (Hij : i <> j) by (inversion Hnd as [|? ? Hn _]; subst; intros ->; apply Hn; simpl; auto).
  pose (a := fun idx => if list_eq_dec Nat.eq_dec idx i then 0 else 2).
  pose (lo := fun idx => at_idx m idx + at_idx s idx * a idx).
  pose (hi := fun idx => at_idx m idx + at_idx s idx * (a idx + 1)).
  destruct (ls_prob X (fun idx => Rmin (lo idx) (hi idx)) (fun idx => Rmax (lo idx) (hi idx)) HX)
    as (g' & Eg' & Hc & Hg & Hbp & Hsp).
  { intros idx. apply Rle_trans with (lo idx); [apply Rmin_l|apply Rmax_l]. }
  rewrite Eg in Eg'. injection Eg' as <-.
  assert (Hmm : forall idx, In idx (indices (rshape X)) ->
     Rmin (lo idx) (hi idx) = lo idx /\ Rmax (lo idx) (hi idx) = hi idx).
  { intros idx Hidx. specialize (Hsp idx Hidx).
    assert (lo idx <= hi idx) by (unfold lo, hi; nra). split; [apply Rmin_left|apply Rmax_right]; auto. }
  destruct (Hlaw (fun idx => Rmin (lo idx) (hi idx)) (fun idx => Rmax (lo idx) (hi idx))) as (p & Hp1 & Hp2).
  { intros idx. repeat split. apply Rle_trans with (lo idx); [apply Rmin_l|apply Rmax_l]. }
  pose proof (box_prob_unique _ _ _ _ _ Hbp Hp1) as E.
  assert (Hpos_p : 0 < p).
  { rewrite <- E. apply lprod_pos. intros idx Hidx.
    destruct (Hmm idx Hidx) as (-> & ->). specialize (Hsp idx Hidx).
    apply RInt_gt_0.
    - apply Rplus_lt_compat_r, Rmult_lt_compat_l; [apply Rinv_0_lt_compat; auto|]. unfold lo, hi. nra.
    - intros; apply Hg.
    - intros; apply Hc. }
  destruct Hp2 as (w & Ew & Hw). rewrite Ens in Ew, Hw. simpl in Ew.
  destruct (Hw [] (or_introl eq_refl)) as (g' & Eg' & Hm).
  assert (Hz : w [] = 0).
  { eapply measure_unique; [exact Hm|]. right. left. split; auto. intros z Hz.
    rewrite Esh, Ei in Hz.
    pose proof (Hz i (or_introl eq_refl) (Hpos i)) as H1.
    pose proof (Hz j (or_intror (or_introl eq_refl)) (Hpos j)) as H2.
    rewrite Hfn in H1, H2 by (simpl; auto).
    assert (Ii : In i (indices (rshape X))) by (rewrite Ei; simpl; auto).
    assert (Ij : In j (indices (rshape X))) by (rewrite Ei; simpl; auto).
    destruct (Hmm i Ii) as (E1 & E2). rewrite E1, E2 in H1.
    destruct (Hmm j Ij) as (E3 & E4). rewrite E3, E4 in H2.
    specialize (Hsp i Ii) as Hsi. specialize (Hsp j Ij) as Hsj.
    unfold lo, hi, a in H1, H2.
    destruct (list_eq_dec Nat.eq_dec i i) as [_|]; [|contradiction].
    destruct (list_eq_dec Nat.eq_dec j i) as [->|]; [contradiction|].
    assert (z <= 1) by (apply (Rmult_le_reg_l (at_idx s i)); auto; lra).
    assert (2 <= z) by (apply (Rmult_le_reg_l (at_idx s j)); auto; lra). lra. }
  rewrite Hz in Ew. lra.
Qed.
End LocScale.

(** ** Inverse gamma and exponential *)
Lemma invgamma_int c lo hi : 0 < lo -> lo <= hi ->
  is_RInt (invgamma1_pdf c) lo hi (exp (- (c / hi)) - exp (- (c / lo))).
Proof.
  intros Hlo Hle. apply is_RInt_ext with (fun x => c / x ^ 2 * exp (- (c / x))).
  - intros x (Hx & _). rewrite Rmin_left in Hx by auto. unfold invgamma1_pdf.
    destruct (Rlt_dec 0 x); [reflexivity|lra].
  - apply (is_RInt_derive (fun x => exp (- (c / x)))).
    + intros x (Hx & _). rewrite Rmin_left in Hx by auto. auto_derive; [lra|]. unfold Rdiv. field. lra.
    + intros x (Hx & _). rewrite Rmin_left in Hx by auto.
      apply (ex_derive_continuous (fun x => c / x ^ 2 * exp (- (c / x)))). auto_derive. repeat split; nra.
Qed.

Lemma exponential_int r lo hi : 0 < lo -> lo <= hi ->
  is_RInt (exponential_pdf r) lo hi (exp (- (r * lo)) - exp (- (r * hi))).
Proof.
  intros Hlo Hle. apply is_RInt_ext with (fun x => r * exp (- (r * x))).
  - intros x (Hx & _). rewrite Rmin_left in Hx by auto. unfold exponential_pdf.
    destruct (Rlt_dec 0 x); [reflexivity|lra].
  - replace (exp (- (r * lo)) - exp (- (r * hi))) with (- exp (- (r * hi)) - - exp (- (r * lo))) by ring.
    apply (is_RInt_derive (fun x => - exp (- (r * x)))).
    + intros x _. auto_derive; auto. ring.
    + intros x _. apply (ex_derive_continuous (fun x => r * exp (- (r * x)))). auto_derive. auto.
Qed.

Section InvGamma.
Context (cv : convention) (rng : nat) (size : shape) (dt : nat) (c : tensor).
Hypothesis Hc : forall idx, In idx (indices (tshape c)) -> 0 < tdata c idx.

Let e := ERV Invgamma rng size dt [EConst (scalar 1); EConst c].
Let e' := EDiv (EConst (scalar 1)) (ERV Exponential rng size dt [EConst c]).

Lemma ig_eval X : eval cv e = Some X -> exists Y, eval cv e' = Some Y /\
  rshape Y = rshape X /\ nshape Y = rshape X /\ nshape X = rshape X /\
  (forall idx, npdf X idx = Some (invgamma1_pdf (at_idx c idx))) /\
  (forall idx, pos X idx = idx) /\ (forall idx z, fn X idx z = z) /\
  (forall idx, npdf Y idx = Some (exponential_pdf (exponential_rate cv (at_idx c idx)))) /\
  (forall idx, In idx (indices (rshape X)) -> pos Y idx = idx) /\
  (forall idx z, fn Y idx z = 1 / z) /\
  (forall idx, In idx (indices (rshape X)) -> 0 < at_idx c idx).
Proof.
  unfold e, e'. simpl.
  assert (E : draw_shape size [scalar 1; c] = draw_shape size [c]).
  { unfold draw_shape. cbn [bcasts scalar tshape]. rewrite bcast_nil_r. reflexivity. }
  rewrite E. clear E. destruct (draw_shape size [c]) as [sh|] eqn:Ed; [|discriminate].
  intros H. injection H as <-. eexists. split; [reflexivity|]. cbn [rshape nshape npdf pos fn].
  assert (Hpos : forall idx, In idx (indices sh) -> 0 < at_idx c idx).
  { intros idx Hidx. apply Hc. unfold draw_shape in Ed. cbn [bcasts] in Ed. rewrite bcast_nil_r in Ed.
    destruct size as [|n sz] eqn:Es.
    - injection Ed as <-. eapply (bidx_in (tshape c) []); [apply bcast_nil_r|]; auto.
    - rewrite <- Es in *. destruct (bcast (tshape c) size) as [r|] eqn:Er; [|discriminate].
      destruct (list_eq_dec Nat.eq_dec r size) as [->|]; [|discriminate]. injection Ed as <-.
      eapply bidx_in; eauto. }
  repeat split; auto.
  - intros idx. unfold at_idx at 1. simpl. destruct (Req_EM_T 1 1); [reflexivity|contradiction].
  - intros idx Hidx. apply bidx_self, Hidx.
Qed.

Lemma ig_prob X Y lo hi : eval cv e = Some X -> eval cv e' = Some Y ->
  (forall idx, 0 < lo idx /\ 0 < hi idx /\ lo idx <= hi idx) ->
  let r := fun idx => exponential_rate cv (at_idx c idx) in
  box_prob X lo hi (lprod (fun idx => exp (- (at_idx c idx / hi idx)) - exp (- (at_idx c idx / lo idx)))
                          (indices (rshape X))) /\
  box_prob Y lo hi (lprod (fun idx => exp (- (r idx / hi idx)) - exp (- (r idx / lo idx))) (indices (rshape X))).
Proof.
  intros HX HY Hb r. destruct (ig_eval X HX) as (Y' & HY' & E1 & E2 & E3 & H1 & H2 & H3 & H4 & H5 & H6 & H7).
  rewrite HY in HY'. injection HY' as <-. split.
  - eexists. rewrite E3. split; [reflexivity|]. intros k Hk. simpl. eexists. split; [apply H1|].
    destruct (Hb k) as (Hlo & Hhi & Hle). left. exists (lo k), (hi k). split; auto. split.
    + intros z. split.
      * intros H. specialize (H k Hk (H2 k)). rewrite H3 in H. auto.
      * intros H idx Hidx E. rewrite H2 in E. subst idx. rewrite H3. auto.
    + apply invgamma_int; auto.
  - eexists. rewrite E2, E1. split; [reflexivity|]. intros k Hk. simpl. eexists. split; [apply H4|].
    destruct (Hb k) as (Hlo & Hhi & Hle). left. exists (/ hi k), (/ lo k).
    pose proof (Rinv_0_lt_compat _ Hlo). pose proof (Rinv_0_lt_compat _ Hhi).
    assert (/ hi k <= / lo k) by (apply Rinv_le_contravar; auto). split; auto. split.
    + intros z. assert (Q : lo k <= 1 / z <= hi k <-> / hi k <= z <= / lo k).
      { unfold Rdiv. rewrite Rmult_1_l. split; intros (Q1 & Q2).
        - assert (0 < z). { destruct (Rlt_le_dec 0 z); auto.
            destruct (Req_dec z 0) as [->|Hz]; [rewrite Rinv_0 in Q1; lra|].
            assert (/ z < 0) by (apply Rinv_lt_0_compat; lra). lra. }
          rewrite <- (Rinv_inv z). split; apply Rinv_le_contravar; auto. lra.
        - rewrite <- (Rinv_inv (lo k)), <- (Rinv_inv (hi k)). split; apply Rinv_le_contravar; lra. }
      rewrite <- Q. split.
      * intros HH. specialize (HH k Hk (H5 k Hk)). rewrite H6 in HH. auto.
      * intros HH idx Hidx E. rewrite H5 in E by auto. subst idx. rewrite H6. auto.
    + unfold Rdiv. apply exponential_int; auto.
Qed.

Lemma ig_iff X : eval cv e = Some X ->
  (same_law_expr cv (fun x => 0 < x) e e' <->
   forall idx, In idx (indices (rshape X)) -> exponential_rate cv (at_idx c idx) = at_idx c idx).
Proof.
  intros HX. destruct (ig_eval X HX) as (Y & HY & E1 & E2 & E3 & H1 & H2 & H3 & H4 & H5 & H6 & H7).
  split.
  - intros (X' & Y' & HX' & HY' & _ & Hlaw) k Hk.
    rewrite HX in HX'. injection HX' as <-. rewrite HY in HY'. injection HY' as <-.
    pose (r := fun idx => exponential_rate cv (at_idx c idx)).
    assert (Hr : forall idx, In idx (indices (rshape X)) -> 0 < r idx).
    { intros idx Hidx. specialize (H7 idx Hidx). unfold r. destruct cv; simpl; auto. apply Rinv_0_lt_compat; auto. }
    (* every box gives the same product *)
    assert (Hall : forall lo hi, (forall idx, 0 < lo idx /\ 0 < hi idx /\ lo idx <= hi idx) ->
      lprod (fun idx => exp (- (at_idx c idx / hi idx)) - exp (- (at_idx c idx / lo idx))) (indices (rshape X)) =
      lprod (fun idx => exp (- (r idx / hi idx)) - exp (- (r idx / lo idx))) (indices (rshape X))).
    { intros lo hi Hb. destruct (Hlaw lo hi Hb) as (p & P1 & P2).
      destruct (ig_prob X Y lo hi HX HY Hb) as (Q1 & Q2).
      rewrite (box_prob_unique _ _ _ _ _ Q1 P1). symmetry. apply (box_prob_unique _ _ _ _ _ Q2 P2). }
    assert (Hsplit : forall (f : list nat -> R -> R), (forall x t, In x (indices (rshape X)) -> 0 < t -> 0 < f x t) ->
      exists P, 0 < P /\ forall t, 0 < t ->
        lprod (fun idx => f idx (if list_eq_dec Nat.eq_dec idx k then t else 1)) (indices (rshape X)) = P * f k t).
    { intros f Hf. pose proof (indices_nodup (rshape X)) as Hnd. revert Hk Hf Hnd.
      generalize (indices (rshape X)). clear. induction l as [|x l IH]; intros Hk Hf Hnd; [destruct Hk|].
      inversion Hnd as [|? ? Hx Hnd']; subst.
      destruct (list_eq_dec Nat.eq_dec x k) as [->|Hne].
      - exists (lprod (fun idx => f idx 1) l). split.
        + apply lprod_pos. intros. apply Hf; simpl; auto. lra.
        + intros t Ht. simpl. destruct (list_eq_dec Nat.eq_dec k k) as [_|]; [|contradiction].
          rewrite (lprod_ext _ (fun idx => f idx 1)); [ring|]. intros y Hy.
          destruct (list_eq_dec Nat.eq_dec y k) as [->|]; [contradiction|reflexivity].
      - destruct Hk as [->|Hk]; [contradiction|]. destruct IH as (P & HP & E); auto.
        { intros; apply Hf; simpl; auto. }
        exists (f x 1 * P). split.
        + apply Rmult_lt_0_compat; auto. apply Hf; simpl; auto. lra.
        + intros t Ht. simpl. rewrite E by auto.
          destruct (list_eq_dec Nat.eq_dec x k) as [->|]; [contradiction|]. ring. }
    (* the box [1/(t+1), 1/t] at k *)
    pose (F := fun (a : list nat -> R) idx t => exp (- (a idx * t)) - exp (- (a idx * (t + 1)))).
    assert (HF : forall a, (forall idx, In idx (indices (rshape X)) -> 0 < a idx) ->
       forall x t, In x (indices (rshape X)) -> 0 < t -> 0 < F a x t).
    { intros a Ha x t Hx Ht. unfold F. specialize (Ha x Hx).
      assert (exp (- (a x * (t + 1))) < exp (- (a x * t))) by (apply exp_increasing; nra). lra. }
    destruct (Hsplit (F (at_idx c)) (HF _ H7)) as (P & HP & EP).
    destruct (Hsplit (F r) (HF _ Hr)) as (Q & HQ & EQ).
    assert (Heq : forall t, 0 < t -> P * F (at_idx c) k t = Q * F r k t).
    { intros t Ht. rewrite <- EP, <- EQ by auto.
      pose (tt := fun idx => if list_eq_dec Nat.eq_dec idx k then t else 1).
      assert (Htt : forall idx, 0 < tt idx) by (intros idx; unfold tt; destruct list_eq_dec; lra).
      specialize (Hall (fun idx => / (tt idx + 1)) (fun idx => / tt idx)).
      rewrite (lprod_ext _ (fun idx => F (at_idx c) idx (tt idx))) in Hall.
      2:{ intros x _. unfold F, Rdiv. rewrite !Rinv_inv. reflexivity. }
      rewrite (lprod_ext (fun idx => exp (- (r idx / _)) - _) (fun idx => F r idx (tt idx))) in Hall.
      2:{ intros x _. unfold F, Rdiv. rewrite !Rinv_inv. reflexivity. }
      apply Hall. intros idx. specialize (Htt idx).
      repeat split; try (apply Rinv_0_lt_compat; lra). apply Rinv_le_contravar; lra. }
    assert (HFt : forall a t, F a k (t + 1) = exp (- a k) * F a k t).
    { intros a t. unfold F. rewrite Rmult_minus_distr_l, <- !exp_plus. f_equal; [|f_equal]; f_equal; ring. }
    pose proof (Heq 1 ltac:(lra)) as A1. pose proof (Heq (1 + 1) ltac:(lra)) as A2.
    rewrite !HFt in A2.
    assert (0 < F (at_idx c) k 1) by (apply HF; auto; lra).
    assert (Ex : exp (- at_idx c k) = exp (- r k)).
    { apply (Rmult_eq_reg_r (P * F (at_idx c) k 1)); [|nra].
      rewrite A1 at 2. lra. }
    apply exp_inv in Ex. unfold r in Ex. lra.
  - intros Hr. exists X, Y. split; auto. split; auto. split; auto.
    intros lo hi Hb. destruct (ig_prob X Y lo hi HX HY Hb) as (Q1 & Q2).
    eexists. split; [exact Q1|]. erewrite lprod_ext; [exact Q2|].
    intros x Hx. simpl. rewrite (Hr x Hx). reflexivity.
Qed.
End InvGamma.
