(** Lemmas for C66: the accuracy of FFBS in double precision. *)
From Flocq Require Import Core Relative.
From Verif Require Import S_ffbs_float L_ffbs_float L_ffbs.
Open Scope R_scope.

(** ** Relative errors *)
Notation q := (1 - (1 / 2) ^ 53).

Lemma q_range : 0 < q < 1.
Proof.
  assert (0 < (1 / 2) ^ 53) by (apply pow_lt; lra).
  assert ((1 / 2) ^ 53 < 1) by (rewrite half_pw; change 1 with (pw 0); apply bpow_lt; lia). lra.
Qed.
Lemma qk_pos k : 0 < q ^ k.
Proof. apply pow_lt, q_range. Qed.
Lemma qk_le k k' : (k <= k')%nat -> q ^ k' <= q ^ k.
Proof.
  intros H. replace k' with (k + (k' - k))%nat by lia. rewrite pow_add.
  rewrite <- (Rmult_1_r (q ^ k)) at 2. apply Rmult_le_compat_l; [left; apply qk_pos|].
  pose proof q_range. apply Rle_trans with (1 ^ (k' - k)); [apply pow_incr; lra|rewrite pow1; lra].
Qed.
Global Opaque pow.

Lemma near_refl x : near 0 x x.
Proof. unfold near. rewrite pow_O. lra. Qed.
Lemma near_mono k k' x y : near k x y -> (k <= k')%nat -> 0 <= x -> 0 <= y -> near k' x y.
Proof.
  intros [H1 H2] Hk Hx Hy. pose proof (qk_le _ _ Hk). split.
  - apply Rle_trans with (2 := H1). now apply Rmult_le_compat_l.
  - apply Rle_trans with (2 := H2). now apply Rmult_le_compat_l.
Qed.
Lemma near_trans k1 k2 x y z : near k1 x y -> near k2 y z -> near (k1 + k2) x z.
Proof.
  intros [A1 A2] [B1 B2]. pose proof (qk_pos k1). pose proof (qk_pos k2). unfold near. rewrite pow_add. split.
  - apply Rle_trans with (2 := A1). rewrite (Rmult_comm (q ^ k1)), <- Rmult_assoc. apply Rmult_le_compat_r; lra.
  - apply Rle_trans with (2 := B2). rewrite <- Rmult_assoc. apply Rmult_le_compat_r; lra.
Qed.
Lemma near_sym k x y : near k x y -> near k y x.
Proof. intros [A B]. split; assumption. Qed.
Lemma near_pos k x y : near k x y -> 0 < x -> 0 < y.
Proof.
  intros [_ H] Hx. apply Rlt_le_trans with (2 := H). apply Rmult_lt_0_compat; [exact Hx|apply qk_pos].
Qed.
Lemma near_nonneg k x y : near k x y -> 0 <= x -> 0 <= y.
Proof.
  intros [_ H] Hx. apply Rle_trans with (2 := H). apply Rmult_le_pos; [exact Hx|left; apply qk_pos].
Qed.
Lemma near_mul k1 k2 x y x' y' : near k1 x y -> near k2 x' y' -> 0 <= x -> 0 <= x' -> near (k1 + k2) (x * x') (y * y').
Proof.
  intros H H' Hx Hx'. pose proof (near_nonneg _ _ _ H Hx) as Hy. pose proof (near_nonneg _ _ _ H' Hx') as Hy'.
  destruct H as [A1 A2], H' as [B1 B2]. pose proof (qk_pos k1). pose proof (qk_pos k2). unfold near. rewrite pow_add. split.
  - replace (y * y' * (q ^ k1 * q ^ k2)) with ((y * q ^ k1) * (y' * q ^ k2)) by ring.
    apply Rmult_le_compat; auto; apply Rmult_le_pos; lra.
  - replace (x * x' * (q ^ k1 * q ^ k2)) with ((x * q ^ k1) * (x' * q ^ k2)) by ring.
    apply Rmult_le_compat; auto; apply Rmult_le_pos; lra.
Qed.
Lemma near_mul_l k c x y : 0 <= c -> near k x y -> near k (c * x) (c * y).
Proof.
  intros Hc [A B]. split; rewrite Rmult_assoc; apply Rmult_le_compat_l; assumption.
Qed.
Lemma near_mul_r k c x y : 0 <= c -> near k x y -> near k (x * c) (y * c).
Proof. intros. rewrite (Rmult_comm x), (Rmult_comm y). now apply near_mul_l. Qed.
Lemma near_inv k x y : near k x y -> 0 < x -> near k (/ x) (/ y).
Proof.
  intros H Hx. pose proof (near_pos _ _ _ H Hx) as Hy. destruct H as [A B]. pose proof (qk_pos k) as Hq. split.
  - apply Rmult_le_reg_r with (x * y); [now apply Rmult_lt_0_compat|].
    replace (/ y * q ^ k * (x * y)) with (x * q ^ k) by (field; lra).
    replace (/ x * (x * y)) with y by (field; lra). exact B.
  - apply Rmult_le_reg_r with (x * y); [now apply Rmult_lt_0_compat|].
    replace (/ x * q ^ k * (x * y)) with (y * q ^ k) by (field; lra).
    replace (/ y * (x * y)) with x by (field; lra). exact A.
Qed.
Lemma near_add k x y x' y' : near k x y -> near k x' y' -> near k (x + x') (y + y').
Proof. intros [A B] [A' B']. split; lra. Qed.
Lemma near_zero k : near k 0 0.
Proof. split; lra. Qed.
Lemma near_lsum {A} k (f g : A -> R) l : (forall a, In a l -> near k (f a) (g a)) ->
  near k (lsum (map f l)) (lsum (map g l)).
Proof.
  induction l as [|a l IH]; intros H; simpl; [apply near_zero|].
  apply near_add; [apply H; simpl; auto|]. apply IH. intros b Hb; apply H; simpl; auto.
Qed.

Lemma half_ulp : / 2 * pw (-53 + 1) = (1 / 2) ^ 53.
Proof.
  rewrite half_pw. change (pw (- Z.of_nat 53)) with (pw (-53)). rewrite bpow_plus.
  change (pw 1) with 2. lra.
Qed.

Lemma near_rnd z : z = 0 \/ pw (-1022) <= z -> near 1 (rnd z) z.
Proof.
  intros [->|Hz]; [rewrite rnd_0; apply near_zero|].
  assert (Hp : 0 < z) by (apply Rlt_le_trans with (2 := Hz); apply bpow_gt_0).
  assert (He : Rabs (rnd z - z) <= (1 / 2) ^ 53 * z).
  { rewrite <- half_ulp. rewrite <- (Rabs_pos_eq z) at 3 by lra. unfold rnd.
    apply relative_error_N_FLT; [reflexivity|]. rewrite Rabs_pos_eq by lra. exact Hz. }
  apply Rabs_le_inv in He. pose proof q_range. unfold near. rewrite pow_1. split; [lra|].
  set (e := (1 / 2) ^ 53) in *. 
  apply Rle_trans with ((z + e * z) * (1 - e)); [apply Rmult_le_compat_r; lra|].
  replace ((z + e * z) * (1 - e)) with (z - e * e * z) by ring.
  assert (0 <= e * e * z); [|lra]. apply Rmult_le_pos; [|lra]. apply Rle_0_sqr.
Qed.

Lemma near_exp (D : nat) d : - INR D <= d <= 0 -> near (S D) (exp (rnd d)) (exp d).
Proof.
  intros Hd.
  assert (He : Rabs (rnd d - d) <= (1 / 2) ^ 53 * INR (S D)).
  { destruct (error_N_FLT radix2 (-1074) 53 ltac:(lia) (fun x => negb (Z.even x)) d) as (eps & eta & He & Ht & _ & Hr).
    fold (rnd d) in Hr. rewrite Hr. replace (d * (1 + eps) + eta - d) with (d * eps + eta) by ring.
    apply Rle_trans with (Rabs (d * eps) + Rabs eta); [apply Rabs_triang|]. rewrite Rabs_mult, S_INR, Rmult_plus_distr_l.
    pose proof half_ulp as Eu. change (- (53) + 1)%Z with (-53 + 1)%Z in He. rewrite Eu in He. apply Rplus_le_compat.
    - rewrite Rmult_comm. apply Rmult_le_compat; [apply Rabs_pos|apply Rabs_pos|exact He|].
      rewrite Rabs_left1 by lra. lra.
    - apply Rle_trans with (1 := Ht). rewrite Rmult_1_r, <- Eu. apply Rmult_le_compat_l; [lra|]. apply bpow_le; lia. }
  assert (Hq : forall k, q ^ k <= exp (- ((1 / 2) ^ 53 * INR k))).
  { induction k as [|k IH]; [rewrite pow_O; simpl; rewrite Rmult_0_r, Ropp_0, exp_0; lra|].
    rewrite S_INR. set (e := (1 / 2) ^ 53) in *. replace (- (e * (INR k + 1))) with (- e + - (e * INR k)) by ring.
    rewrite exp_plus. rewrite <- tech_pow_Rmult. pose proof q_range as Hr. fold e in Hr.
    apply Rmult_le_compat; [lra|left; apply qk_pos| |exact IH].
    destruct (Req_dec (- e) 0) as [E|E]; [lra|]. pose proof (exp_ineq1 (- e) E). lra. }
  specialize (Hq (S D)). set (E := (1 / 2) ^ 53 * INR (S D)) in *. apply Rabs_le_inv in He.
  assert (Hle : forall a b, b - E <= a -> exp b * q ^ S D <= exp a).
  { intros a b Hab. apply Rle_trans with (exp b * exp (- E)); [apply Rmult_le_compat_l; [left; apply exp_pos|exact Hq]|].
    rewrite <- exp_plus. destruct (Rle_lt_or_eq_dec (b + - E) a ltac:(lra)) as [H|H]; [left; now apply exp_increasing|rewrite H; lra]. }
  split; apply Hle; lra.
Qed.

(** ** Sums *)
(** not in the range of underflow *)
Definition fine (x : R) : Prop := x = 0 \/ pw (-1022) <= x.
Definition fines (l : list R) : Prop := forall x, In x l -> is_double x /\ fine x.

Lemma fines_nn l : fines l -> nn l.
Proof.
  intros H x Hx. destruct (H x Hx) as [Hd [->|Hf]]; (split; [|assumption]); [lra|].
  apply Rle_trans with (2 := Hf). apply bpow_ge_0.
Qed.

Lemma fl_sum_near l s : fl_sum l s -> fines l -> near (length l) s (lsum l) /\ fine s.
Proof.
  induction 1 as [|x|l1 l2 l s1 s2 H1 IH1 H2 IH2 Hp]; intros Hf.
  - split; [apply near_zero|left; reflexivity].
  - destruct (Hf x (or_introl eq_refl)) as [Hd Hx]. split; [|exact Hx]. simpl. rewrite Rplus_0_r.
    assert (0 <= x) by (apply (fines_nn _ Hf); simpl; auto).
    apply (near_mono 0); [apply near_refl|lia|assumption|assumption].
  - assert (Hf1 : fines l1) by (intros x Hx; apply Hf, (Permutation_in x (Permutation_sym Hp)), in_or_app; auto).
    assert (Hf2 : fines l2) by (intros x Hx; apply Hf, (Permutation_in x (Permutation_sym Hp)), in_or_app; auto).
    destruct (IH1 Hf1) as [N1 F1]. destruct (IH2 Hf2) as [N2 F2].
    destruct (fl_sum_nn _ _ H1 (fines_nn _ Hf1)) as [P1 D1]. destruct (fl_sum_nn _ _ H2 (fines_nn _ Hf2)) as [P2 D2].
    assert (Hlen : length l = (length l1 + length l2)%nat) by (rewrite (Permutation_length Hp); apply app_length).
    assert (Hsum : lsum l = lsum l1 + lsum l2).
    { clear -Hp. transitivity (lsum (l1 ++ l2)).
      - induction Hp; simpl; lra.
      - clear. induction l1 as [|a l1 IH]; simpl; lra. }
    assert (Hfine : fine (s1 + s2)).
    { destruct F1 as [->|F1]; [rewrite Rplus_0_l; exact F2|]. right. lra. }
    pose proof (near_nonneg _ _ _ N1 P1) as L1. pose proof (near_nonneg _ _ _ N2 P2) as L2.
    split.
    + rewrite Hlen, Hsum. destruct l1 as [|x1 l1].
      { assert (s1 = 0) by (apply (fl_sum_zero _ _ H1); intros x []). subst s1. simpl. rewrite !Rplus_0_l, D2. exact N2. }
      destruct l2 as [|x2 l2].
      { assert (s2 = 0) by (apply (fl_sum_zero _ _ H2); intros x []). subst s2. simpl length. simpl (lsum []). rewrite !Rplus_0_r, D1, Nat.add_0_r. exact N1. }
      set (n1 := length (x1 :: l1)) in *. set (n2 := length (x2 :: l2)) in *.
      assert (1 <= n1 /\ 1 <= n2)%nat by (unfold n1, n2; simpl; lia).
      apply (near_mono (1 + Nat.max n1 n2)); [|lia|apply rnd_nonneg; lra|lra].
      apply near_trans with (s1 + s2); [now apply near_rnd|].
      apply near_add; [apply (near_mono n1)|apply (near_mono n2)]; auto; lia.
    + destruct Hfine as [E|Hfine]; [rewrite E, rnd_0; left; reflexivity|]. right. apply rnd_low; [lia|exact Hfine].
Qed.

(** ** The forward pass *)
Definition nscaled (M k : nat) (v : vec) (F : nat -> R) : Prop :=
  exists s, 0 < s /\ forall i, (i < M)%nat -> near k (vget v i) (s * F i).

Section accuracy.
  Context (summ : list R -> R) (Hsum : sum_ok summ).
  Context (beta M a c : nat) (bound : R).
  Context (Hbeta : (beta <= 250)%nat) (HM : (Z.of_nat M < 2 ^ 53)%Z).
  Context (Hb1 : pw (- Z.of_nat (S beta)) <= bound) (Hb2 : bound <= pw (- Z.of_nat beta)).
  Context (Hac : (2 * a + 3 * c <= 2 * beta)%nat).

  Let B : Z := Z.of_nat beta.
  Let E : Z := (2 * B + 160)%Z.

  Definition spread (v : vec) : Prop := exists e, (- E <= e)%Z /\
    forall i, (i < M)%nat -> pw e <= vget v i <= pw (e + (B + 55)).
  Definition above (v : vec) : Prop := forall i, (i < M)%nat -> vget v i = 0 \/ pw (- E) <= vget v i.

  Lemma spread_above v : spread v -> above v.
  Proof using.
    intros (e & He & H) i Hi. right. apply Rle_trans with (pw e); [|now apply H]. now apply bpow_le.
  Qed.

  Lemma size_pw : INR M <= pw 53.
  Proof using HM.
    rewrite INR_IZR_INZ. change (pw 53) with (IZR (2 ^ 53)). apply IZR_le. clear -HM. lia.
  Qed.

  Lemma flik_near ll G s : lively a c M ll G -> (s < M)%nat ->
    exists m lk, lmax ll = Some m /\ flik ll = Some lk /\ pw (- Z.of_nat (beta - a)) <= vget lk s <= 1 /\
      near (c + 2) (vget lk s) (exp (- m) * elik (nth s ll None)).
  Proof using Hbeta Hac.
    intros [_ Hl] Hs. destruct (Hl s Hs) as (y & Hy & Hc). destruct (lmax_some _ _ _ Hy) as (m & Hm).
    destruct (flik_low ll s y c (beta - a)) as (lk & Hlk & Hlow); [lia|lia|exact Hy|exact Hc|].
    exists m, lk. split; [exact Hm|]. split; [exact Hlk|].
    assert (E1 : vget lk s = rnd (exp (rnd (y - m)))).
    { unfold flik in Hlk. rewrite Hm in Hlk. apply some_inj in Hlk. subst lk. unfold vget.
      pose (f := fun x => match x with Some a => rnd (exp (rnd (a - m))) | None => 0 end).
      change (nth s (map f ll) (f None) = f (Some y)). now rewrite map_nth, Hy. }
    assert (Hle : y <= m).
    { apply (lmax_ge ll m y Hm). rewrite <- Hy. apply nth_In.
      destruct (lt_dec s (length ll)) as [|Hn]; [assumption|]. rewrite nth_overflow in Hy by lia. discriminate. }
    destruct (lmax_in _ _ Hm) as (k & Hk). specialize (Hc k m Hk).
    assert (Hr : - INR c <= rnd (y - m)).
    { rewrite INR_IZR_INZ, <- opp_IZR. rewrite <- rnd_IZR by lia. apply rnd_le.
      rewrite opp_IZR, <- INR_IZR_INZ. lra. }
    assert (Hr0 : rnd (y - m) <= 0) by (rewrite <- rnd_0; apply rnd_le; lra).
    assert (Hexp : forall u v, u <= v -> exp u <= exp v).
    { intros u v Huv. destruct (Rle_lt_or_eq_dec _ _ Huv) as [H|<-]; [left; now apply exp_increasing|lra]. }
    split; [split; [exact Hlow|]|].
    - rewrite E1. change 1 with (pw 0). rewrite <- (rnd_pw 0) by lia. apply rnd_le. simpl (pw 0).
      rewrite <- exp_0. now apply Hexp.
    - rewrite E1, Hy. simpl elik. rewrite <- exp_plus. replace (- m + y) with (y - m) by ring.
      replace (c + 2)%nat with (1 + S c)%nat by lia. apply near_trans with (exp (rnd (y - m))).
      + apply near_rnd. right. apply Rle_trans with (pw (- Z.of_nat (beta - a))); [apply bpow_le; lia|].
        apply Rle_trans with (1 := exp_le_pw c (beta - a) ltac:(lia)). now apply Hexp.
      + apply near_exp. lra.
  Qed.

  Lemma lively_go_on ll G : lively a c M ll G -> can_go_on beta M ll G.
  Proof using Hac.
    intros [HG Hl] m Hm. destruct (Hl m Hm) as (y & Hy & Hc). exists m, y, a, c. repeat split; auto. now apply HG.
  Qed.

  Lemma forward_step_near k ll G v F : nn v -> length v = M -> Gnn G -> above v -> heavy beta M v ->
    lively a c M ll G -> nscaled M k v F ->
    exists v', forward_step_f summ bound M ll G v = Some v' /\
      (nn v' /\ length v' = M /\ spread v' /\ heavy beta M v') /\
      nscaled M (k + M + c + 5) v' (fun j => nsum M (fun i => F i * mget G i j) * elik (nth j ll None)).
  Proof using Hsum Hbeta HM Hb1 Hb2 Hac.
    intros Hn Hlen HG Hab Hh Hl (sc & Hsc & Hnear).
    pose proof (bound_pos beta bound Hb1) as Hb.
    destruct (forward_step_heavy summ Hsum beta M bound ltac:(lia) HM Hb1 Hb2 ll G v Hn HG (lively_go_on _ _ Hl) Hh)
      as (v' & Ev & Hh').
    destruct (forward_step_link summ Hsum bound M ll G v v' Hb Hn HG Ev) as (Hn' & Hlen' & _).
    exists v'. split; [exact Ev|].
    destruct Hh as (m0 & Hm0 & Hw0).
    destruct (largest v) as (mx & Hmx & Hmax); [intros ->; simpl in Hlen; lia|].
    assert (Hmx0 : pw (- (B + 55)) <= mx).
    { apply Rle_trans with (1 := Hw0). apply Hmax. unfold vget. apply nth_In. lia. }
    assert (Hmxp : 0 < mx) by (apply Rlt_le_trans with (2 := Hmx0); apply bpow_gt_0).
    destruct (double_between mx (proj2 (Hn mx Hmx)) Hmxp) as (e & _ & He1 & He2).
    assert (HeB : (- (B + 55) <= e + 1)%Z) by (apply (le_bpow radix2); lra).
    apply In_nth with (d := 0) in Hmx as (im & Him & Emx). rewrite Hlen in Him. fold (vget v im) in Emx.
    destruct Hl as [HGl Hll].
    assert (HGpw : forall i j, (i < M)%nat -> (j < M)%nat -> pw (- Z.of_nat a) <= mget G i j <= 1)
      by (intros i j Hi Hj; rewrite <- half_pw; now apply HGl).
    assert (Hdn : forall j, nn (map (fun i => rnd (vget v i * mget G i j)) (seq 0 M))) by (intros j; now apply prods_nn).
    set (d := fdot summ M v G).
    assert (Hd : forall j, (j < M)%nat -> pw (e - Z.of_nat a) <= vget d j <= pw (e + 54) /\
       near (M + (k + 1)) (vget d j) (sc * nsum M (fun i => F i * mget G i j))).
    { intros j Hj. unfold d. rewrite fdot_get by exact Hj. split; [split|].
      - apply Rle_trans with (rnd (vget v im * mget G im j)).
        + apply rnd_low; [unfold B in *; lia|]. unfold Z.sub. rewrite bpow_plus, Emx.
          apply Rmult_le_compat; auto using bpow_ge_0. now apply HGpw.
        + apply summ_ge; [exact Hsum|apply Hdn|]. apply in_map_seq. exists im; auto.
      - apply Rle_trans with (INR M * pw (e + 1)).
        + pose proof (fl_sum_le _ _ (e + 1)%Z (Hsum _) (Hdn j)) as Hle.
          rewrite map_length, seq_length in Hle. apply Hle; [|exact HM].
          intros x Hx. apply in_map_seq in Hx as (i & Hi & ->). rewrite <- (rnd_pw (e + 1)) by (unfold B in *; lia).
          apply rnd_le. apply Rle_trans with (vget v i * 1).
          * apply Rmult_le_compat_l; [now apply nn_vget|now apply HGpw].
          * rewrite Rmult_1_r. apply Rle_trans with (2 := He2). apply Hmax. unfold vget. apply nth_In. lia.
        + replace (e + 54)%Z with (53 + (e + 1))%Z by lia. rewrite (bpow_plus radix2 53).
          apply Rmult_le_compat_r; [apply bpow_ge_0|apply size_pw].
      - assert (Hf : fines (map (fun i => rnd (vget v i * mget G i j)) (seq 0 M))).
        { intros x Hx. split; [now apply (Hdn j)|]. apply in_map_seq in Hx as (i & Hi & ->).
          destruct (Hab i Hi) as [->|Hv]; [left; rewrite Rmult_0_l; apply rnd_0|]. right.
          apply rnd_low; [lia|]. apply Rle_trans with (pw (- E + - Z.of_nat a)); [apply bpow_le; unfold E, B; lia|].
          rewrite bpow_plus. apply Rmult_le_compat; auto using bpow_ge_0. now apply HGpw. }
        destruct (fl_sum_near _ _ (Hsum (map (fun i => rnd (vget v i * mget G i j)) (seq 0 M))) Hf) as [H1 _].
        rewrite map_length, seq_length in H1. apply near_trans with (1 := H1).
        replace (sc * nsum M (fun i => F i * mget G i j)) with (lsum (map (fun i => sc * (F i * mget G i j)) (seq 0 M))).
        2:{ unfold nsum. apply lsum_map_scal. }
        apply near_lsum. intros i Hi. apply in_seq in Hi. rewrite <- Rmult_assoc.
        replace (k + 1)%nat with (1 + k)%nat by lia. apply near_trans with (vget v i * mget G i j).
        + apply near_rnd. destruct (Hab i ltac:(lia)) as [->|Hv]; [left; ring|]. right.
          apply Rle_trans with (pw (- E + - Z.of_nat a)); [apply bpow_le; unfold E, B; lia|].
          rewrite bpow_plus. apply Rmult_le_compat; auto using bpow_ge_0. apply HGpw; lia.
        + apply near_mul_r; [apply HG|apply Hnear; lia]. }
    assert (Hlk : exists m lk, lmax ll = Some m /\ flik ll = Some lk).
    { destruct (flik_near ll G m0 (conj HGl Hll) Hm0) as (m & lk & A1 & A2 & _). eauto. }
    destruct Hlk as (m & lk & Em & Elk).
    assert (Hlks : forall j, (j < M)%nat -> pw (- Z.of_nat (beta - a)) <= vget lk j <= 1 /\
      near (c + 2) (vget lk j) (exp (- m) * elik (nth j ll None))).
    { intros j Hj. destruct (flik_near ll G j (conj HGl Hll) Hj) as (m' & lk' & A1 & A2 & A3).
      rewrite A1 in Em. rewrite A2 in Elk. apply some_inj in Em, Elk. now subst. }
    set (u := fmul M d lk).
    assert (Hu : forall j, (j < M)%nat -> pw (e - B) <= vget u j <= pw (e + 54) /\
      near (k + M + c + 4) (vget u j) (sc * exp (- m) * (nsum M (fun i => F i * mget G i j) * elik (nth j ll None)))).
    { intros j Hj. destruct (Hd j Hj) as [[D1 D2] D3]. destruct (Hlks j Hj) as [[L1 L2] L3].
      assert (Hp : pw (e - B) <= vget d j * vget lk j).
      { replace (e - B)%Z with (e - Z.of_nat a + - Z.of_nat (beta - a))%Z by (unfold B; lia).
        rewrite bpow_plus. apply Rmult_le_compat; auto using bpow_ge_0. }
      assert (D0 : 0 <= vget d j) by (apply Rle_trans with (2 := D1); apply bpow_ge_0).
      assert (L0 : 0 <= vget lk j) by (apply Rle_trans with (2 := L1); apply bpow_ge_0).
      unfold u. rewrite fmul_get by exact Hj. split; [split|].
      - apply rnd_low; [unfold B in *; lia|exact Hp].
      - rewrite <- (rnd_pw (e + 54)) by (unfold B in *; lia). apply rnd_le.
        apply Rle_trans with (vget d j * 1); [now apply Rmult_le_compat_l|lra].
      - replace (k + M + c + 4)%nat with (1 + (M + (k + 1) + (c + 2)))%nat by lia.
        apply near_trans with (vget d j * vget lk j).
        + apply near_rnd. right. apply Rle_trans with (2 := Hp). apply bpow_le. unfold B in *; lia.
        + replace (sc * exp (- m) * (nsum M (fun i => F i * mget G i j) * elik (nth j ll None)))
            with (sc * nsum M (fun i => F i * mget G i j) * (exp (- m) * elik (nth j ll None))) by ring.
          now apply near_mul. }
    assert (Hsm : 0 < sc * exp (- m)) by (apply Rmult_lt_0_compat; [exact Hsc|apply exp_pos]).
    unfold forward_step_f in Ev. rewrite Elk in Ev. apply some_inj in Ev. fold d in Ev. fold u in Ev.
    destruct (Rlt_dec (summ u) bound) as [Hs|Hs]; subst v'.
    - assert (Hq : forall j, (j < M)%nat -> pw e <= vget u j / bound <= pw (e + (B + 55))).
      { intros j Hj. destruct (Hu j Hj) as [[U1 U2] _]. split.
        - apply Rmult_le_reg_r with bound; [exact Hb|]. unfold Rdiv. rewrite Rmult_assoc, Rinv_l, Rmult_1_r by lra.
          apply Rle_trans with (2 := U1). unfold Z.sub. rewrite bpow_plus. apply Rmult_le_compat_l; [apply bpow_ge_0|exact Hb2].
        - apply Rmult_le_reg_r with bound; [exact Hb|]. unfold Rdiv. rewrite Rmult_assoc, Rinv_l, Rmult_1_r by lra.
          apply Rle_trans with (1 := U2). replace (e + 54)%Z with (e + (B + 55) + - Z.of_nat (S beta))%Z by (unfold B; lia).
          rewrite (bpow_plus _ _ (- Z.of_nat (S beta))). apply Rmult_le_compat_l; [apply bpow_ge_0|exact Hb1]. }
      split; [split; [exact Hn'|split; [exact Hlen'|split; [|exact Hh']]]|].
      + exists e. split; [unfold E, B in *; lia|]. intros j Hj. rewrite scaled_get. destruct (Hq j Hj). split.
        * apply rnd_low; [unfold B in *; lia|assumption].
        * rewrite <- (rnd_pw (e + (B + 55))) by (unfold B in *; lia). now apply rnd_le.
      + exists (sc * exp (- m) / bound). split; [apply Rmult_lt_0_compat; [exact Hsm|now apply Rinv_0_lt_compat]|].
        intros j Hj. rewrite scaled_get. destruct (Hq j Hj) as [Q1 _]. destruct (Hu j Hj) as [_ U3].
        replace (k + M + c + 5)%nat with (1 + (k + M + c + 4))%nat by lia.
        apply near_trans with (vget u j / bound).
        * apply near_rnd. right. apply Rle_trans with (2 := Q1). apply bpow_le. unfold B in *; lia.
        * unfold Rdiv. rewrite (Rmult_assoc _ (/ bound)), (Rmult_comm (/ bound)), <- Rmult_assoc.
          apply near_mul_r; [left; now apply Rinv_0_lt_compat|exact U3].
    - split; [split; [exact Hn'|split; [exact Hlen'|split; [|exact Hh']]]|].
      + exists (e - B)%Z. split; [unfold E, B in *; lia|]. intros j Hj. destruct (Hu j Hj) as [[U1 U2] _].
        split; [exact U1|]. apply Rle_trans with (1 := U2). apply bpow_le. lia.
      + exists (sc * exp (- m)). split; [exact Hsm|]. intros j Hj. destruct (Hu j Hj) as [[U1 U2] U3].
        assert (U0 : 0 <= vget u j) by (apply Rle_trans with (2 := U1); apply bpow_ge_0).
        apply (near_mono (k + M + c + 4)); [exact U3|lia|exact U0|]. now apply near_nonneg with (1 := U3).
  Qed.

  Context (g0 : nat -> R).
  Let step : nat := (M + c + 5)%nat.

  (** what is kept of the arrays of the forward pass *)
  Fixpoint narel (K : nat) (sr : list hmm_step) (acc : list vec) : Prop :=
    match sr, acc with
    | [], [] => True
    | st :: sr', v :: acc' =>
        (nn v /\ length v = M /\ spread v) /\ nscaled M K v (Fwd M g0 (st :: sr')) /\ narel K sr' acc'
    | _, _ => False
    end.

  Lemma nscaled_mono k k' v F : nn v -> (k <= k')%nat -> nscaled M k v F -> nscaled M k' v F.
  Proof using.
    intros Hn Hk (s & Hs & H). exists s. split; [exact Hs|]. intros i Hi. specialize (H i Hi).
    assert (0 <= vget v i) by now apply nn_vget.
    apply (near_mono k); auto. now apply near_nonneg with (1 := H).
  Qed.

  Lemma forward_near steps : forall fs sr v acc k K,
    Forall2 crel steps fs -> (forall p, In p steps -> Gnn (snd p) /\ lively a c M (fst p) (snd p)) ->
    nn v -> length v = M -> above v -> heavy beta M v -> nscaled M k v (Fwd M g0 sr) ->
    narel K sr acc -> (k + length steps * step <= K)%nat ->
    exists l, forward_f summ bound M steps v acc = Some l /\ narel K (rev fs ++ sr) l.
  Proof using Hsum Hbeta HM Hb1 Hb2 Hac.
    induction steps as [|[ll G] steps IH]; intros fs sr v acc k K HF Hst Hn Hlen Hab Hh Hsc Hacc HK.
    - inversion HF; subst. exists acc. auto.
    - inversion HF as [|? [L Gf] ? fs' Hc HF' E1 E2]; subst. destruct Hc as [HcL HcG]. simpl in HcL, HcG.
      destruct (Hst (ll, G) (or_introl eq_refl)) as [HG Hl]. simpl in HG, Hl.
      destruct (forward_step_near k ll G v _ Hn Hlen HG Hab Hh Hl Hsc) as (v' & Ev & (Hn' & Hlen' & Hsp & Hh') & Hsc').
      assert (Hsc2 : nscaled M (k + step) v' (Fwd M g0 ((L, Gf) :: sr))).
      { destruct Hsc' as (s & Hs & H). exists s. split; [exact Hs|]. intros j Hj. specialize (H j Hj).
        replace (k + step)%nat with (k + M + c + 5)%nat by (unfold step; lia).
        cbn [Fwd]. rewrite HcL. replace (nsum M (fun i => Fwd M g0 sr i * Gf i j)) with (nsum M (fun i => Fwd M g0 sr i * mget G i j)); [exact H|].
        apply nsum_ext. intros i Hi. now rewrite HcG. }
      simpl length in HK. simpl forward_f. rewrite Ev.
      destruct (IH fs' ((L, Gf) :: sr) v' (v' :: acc) (k + step)%nat K HF' (fun p Hp => Hst p (or_intror Hp)) Hn' Hlen'
        (spread_above _ Hsp) Hh' Hsc2) as (l & El & Hl').
      + simpl. split; [auto|]. split; [|exact Hacc]. apply (nscaled_mono (k + step)); [exact Hn'|lia|exact Hsc2].
      + lia.
      + exists l. split; [exact El|]. simpl rev. rewrite <- app_assoc. exact Hl'.
  Qed.

  (** ** Draws *)
  Lemma normed_near w k F (e X : Z) : nn w -> length w = M -> (0 < M)%nat -> nscaled M k w F ->
    (forall i, (i < M)%nat -> pw e <= vget w i <= pw (e + X)) -> (-1000 <= e)%Z -> (0 <= X <= 900)%Z ->
    0 < nsum M F /\
    (forall i, (i < M)%nat -> 0 <= rnd (vget w i / summ w) /\
       near (2 * k + M + 1) (rnd (vget w i / summ w)) (F i / nsum M F)) /\
    forall g, dexp (normed_categorical_f summ w) g = nsum M (fun i => rnd (vget w i / summ w) * g (Some i)).
  Proof using Hsum HM Hbeta Hac E B step.
    intros Hn Hlen HM0 (s & Hs & Hnear) Hw He HX.
    assert (Hin : forall x, In x w -> exists i, (i < M)%nat /\ x = vget w i).
    { intros x Hx. apply In_nth with (d := 0) in Hx as (i & Hi & <-). exists i. split; [lia|reflexivity]. }
    assert (Hf : fines w).
    { intros x Hx. split; [now apply Hn|]. right. destruct (Hin x Hx) as (i & Hi & ->).
      apply Rle_trans with (pw e); [apply bpow_le; lia|now apply Hw]. }
    destruct (fl_sum_near w (summ w) (Hsum w) Hf) as [Hsn _]. rewrite Hlen in Hsn.
    assert (Hge : pw e <= summ w).
    { apply Rle_trans with (vget w 0); [now apply Hw|]. apply summ_ge; [exact Hsum|exact Hn|]. unfold vget. apply nth_In. lia. }
    assert (Hpos : 0 < summ w) by (apply Rlt_le_trans with (2 := Hge); apply bpow_gt_0).
    assert (Hle : summ w <= pw (53 + (e + X))).
    { apply Rle_trans with (INR M * pw (e + X)).
      - rewrite <- Hlen. apply fl_sum_le; [apply Hsum|exact Hn| |now rewrite Hlen].
        intros x Hx. destruct (Hin x Hx) as (i & Hi & ->). now apply Hw.
      - rewrite (bpow_plus radix2 53). apply Rmult_le_compat_r; [apply bpow_ge_0|now apply size_pw]. }
    assert (Hls : near (M + k) (summ w) (s * nsum M F)).
    { apply near_trans with (1 := Hsn). rewrite lsum_nsum, Hlen, <- nsum_scal. unfold nsum. apply near_lsum.
      intros i Hi. apply in_seq in Hi. apply Hnear. lia. }
    assert (HsF : 0 < s * nsum M F) by (apply near_pos with (1 := Hls); exact Hpos).
    assert (HF : 0 < nsum M F) by (apply Rmult_lt_reg_l with s; [exact Hs|]; rewrite Rmult_0_r; exact HsF).
    split; [exact HF|]. split.
    - intros i Hi. destruct (Hw i Hi) as [W1 W2].
      assert (W0 : 0 <= vget w i) by (apply Rle_trans with (2 := W1); apply bpow_ge_0).
      assert (Hi0 : 0 < / summ w) by now apply Rinv_0_lt_compat.
      split; [apply rnd_nonneg, Rmult_le_pos; lra|].
      replace (2 * k + M + 1)%nat with (1 + (k + (M + k)))%nat by lia.
      apply near_trans with (vget w i / summ w).
      + apply near_rnd. right. apply Rmult_le_reg_r with (summ w); [exact Hpos|].
        unfold Rdiv. rewrite Rmult_assoc, Rinv_l, Rmult_1_r by lra. apply Rle_trans with (2 := W1).
        apply Rle_trans with (pw (-1022) * pw (53 + (e + X))).
        * apply Rmult_le_compat_l; [apply bpow_ge_0|exact Hle].
        * rewrite <- bpow_plus. apply bpow_le. lia.
      + replace (F i / nsum M F) with ((s * F i) * / (s * nsum M F)) by (field; lra).
        unfold Rdiv. apply near_mul; [now apply Hnear|now apply near_inv|exact W0|lra].
    - intros g. unfold normed_categorical_f. destruct (Req_EM_T (summ w) 0) as [E0|_]; [lra|].
      rewrite dexp_cat, map_length, Hlen. apply nsum_ext. intros i Hi. f_equal.
      change (nth i (map (fun x => rnd (x / summ w)) w) 0) with (vget (map (fun x => rnd (x / summ w)) w) i).
      apply scaled_get.
  Qed.

  (** the pairs that the backward pass goes through *)
  Fixpoint nprel (K : nat) (sr : list hmm_step) (pairs : list (vec * mat)) : Prop :=
    match sr with
    | [] => False
    | (L, G) :: sr' =>
        match sr' with
        | [] => pairs = []
        | _ => match pairs with
               | [] => False
               | (v, Gm) :: pairs' =>
                   ((forall i j, mget Gm i j = G i j) /\
                    (forall i j, (i < M)%nat -> (j < M)%nat -> (1 / 2) ^ a <= mget Gm i j <= 1)) /\
                   (nn v /\ length v = M /\ spread v) /\ nscaled M K v (Fwd M g0 sr') /\ nprel K sr' pairs'
               end
        end
    end.

  Lemma narel_nprel K sr v earlier Grev :
    sr <> [] -> narel K sr (v :: earlier) ->
    Forall2 (fun Gm (st : hmm_step) => (forall i j, mget Gm i j = snd st i j) /\
      (forall i j, (i < M)%nat -> (j < M)%nat -> (1 / 2) ^ a <= mget Gm i j <= 1)) Grev sr ->
    nprel K sr (combine earlier Grev).
  Proof using.
    revert v earlier Grev. induction sr as [|[L G] sr IH]; intros v earlier Grev Hne Har HF; [congruence|].
    destruct Har as (_ & _ & Har).
    inversion HF as [|Gm ? Grev' ? HG HF' E1 E2]; subst Grev. subst.
    destruct sr as [|st sr].
    - destruct earlier; [reflexivity|contradiction].
    - destruct earlier as [|v' earlier]; [contradiction|]. cbn [combine nprel].
      split; [exact HG|]. destruct Har as (H1 & H2 & H3). split; [exact H1|]. split; [exact H2|].
      apply IH with (v := v'); [congruence|exact (conj H1 (conj H2 H3))|exact HF'].
  Qed.

  Lemma backward_near K sr : forall L G pairs s ss,
    Forall (okstep M) ((L, G) :: sr) -> nprel K ((L, G) :: sr) pairs -> (s < M)%nat ->
    length ss = length sr -> (forall x, In x ss -> (x < M)%nat) ->
    0 <= dprob (backward_f summ M pairs s) (is_seq ss) /\
    near (length sr * (2 * K + M + 3)) (dprob (backward_f summ M pairs s) (is_seq ss) * Fwd M g0 ((L, G) :: sr) s)
      (J M g0 ((L, G) :: sr) (s :: ss)).
  Proof using Hsum Hbeta HM Hac.
    induction sr as [|[L' G'] sr IH]; intros L G pairs s ss Hok Hp Hs Hlen Hss.
    - cbn [nprel] in Hp. subst pairs. destruct ss; [|discriminate]. cbn [backward_f].
      rewrite dprob_dexp, dexp_ret. cbn [is_seq]. destruct (list_eq_dec Nat.eq_dec [] []) as [_|]; [|congruence].
      split; [lra|]. rewrite Rmult_1_l. cbn [length Nat.mul Fwd J]. apply near_refl.
    - destruct ss as [|x ss]; [discriminate|]. injection Hlen as Hlen.
      apply Forall_cons_iff in Hok as [(HL0 & _ & HG0) Hok]. simpl in HL0, HG0.
      cbn [nprel] in Hp. destruct pairs as [|[v Gm] pairs]; [contradiction|].
      destruct Hp as ((HG & HGb) & (Hn & Hlv & (e & He & Hsp)) & Hsc & Hp).
      assert (Hx : (x < M)%nat) by (apply Hss; simpl; auto).
      destruct (IH L' G' pairs x ss Hok Hp Hx Hlen (fun y Hy => Hss y (or_intror Hy))) as [P0 PN].
      set (P := dprob (backward_f summ M pairs x) (is_seq ss)) in *.
      set (F := Fwd M g0 ((L', G') :: sr)) in *.
      set (w := fmul M v (map (fun i => mget Gm i s) (seq 0 M))).
      assert (Ew : forall i, (i < M)%nat -> vget w i = rnd (vget v i * mget Gm i s)).
      { intros i Hi. unfold w. rewrite fmul_get by exact Hi. f_equal. f_equal.
        apply (vget_seq M (fun i => mget Gm i s)). exact Hi. }
      assert (Hpw : forall i, (i < M)%nat -> pw (- Z.of_nat a) <= mget Gm i s <= 1).
      { intros i Hi. rewrite <- half_pw. now apply HGb. }
      assert (Hprod : forall i, (i < M)%nat -> pw (e - Z.of_nat a) <= vget v i * mget Gm i s <= pw (e + (B + 55))).
      { intros i Hi. destruct (Hsp i Hi), (Hpw i Hi). split.
        - unfold Z.sub. rewrite bpow_plus. apply Rmult_le_compat; auto using bpow_ge_0.
        - apply Rle_trans with (vget v i * 1); [|lra]. apply Rmult_le_compat_l; [|assumption].
          apply Rle_trans with (pw e); [apply bpow_ge_0|assumption]. }
      destruct (normed_near w (K + 1) (fun i => F i * G i s) (e - Z.of_nat a) (Z.of_nat a + (B + 55)))
        as (HD & Hdraw & Hexp).
      + intros y Hy. unfold w, fmul in Hy. apply in_map_seq in Hy as (i & Hi & ->). split; [|apply rnd_double].
        fold (mget Gm i s). rewrite (vget_seq M (fun i => mget Gm i s)) by exact Hi.
        apply rnd_nonneg. apply Rle_trans with (2 := proj1 (Hprod i Hi)). apply bpow_ge_0.
      + unfold w, fmul. now rewrite map_length, seq_length.
      + lia.
      + destruct Hsc as (sc & Hsc0 & Hsc). exists sc. split; [exact Hsc0|]. intros i Hi. rewrite Ew by exact Hi.
        replace (K + 1)%nat with (1 + K)%nat by lia. apply near_trans with (vget v i * mget Gm i s).
        * apply near_rnd. right. apply Rle_trans with (2 := proj1 (Hprod i Hi)). apply bpow_le. unfold E, B in *; lia.
        * rewrite HG, <- Rmult_assoc. apply near_mul_r; [apply HG0|]. now apply Hsc.
      + intros i Hi. rewrite Ew by exact Hi. replace (e - Z.of_nat a + (Z.of_nat a + (B + 55)))%Z with (e + (B + 55))%Z by lia.
        destruct (Hprod i Hi). split.
        * apply rnd_low; [unfold E, B in *; lia|assumption].
        * rewrite <- (rnd_pw (e + (B + 55))) by (unfold E, B in *; lia). now apply rnd_le.
      + unfold E, B in *; lia.
      + unfold B; lia.
      + assert (Ed : dprob (backward_f summ M ((v, Gm) :: pairs) s) (is_seq (x :: ss)) = rnd (vget w x / summ w) * P).
        { rewrite dprob_dexp. cbn [backward_f]. rewrite dexp_bind. unfold backward_step_f. fold w. rewrite Hexp.
          rewrite (nsum_single M _ x Hx).
          2:{ intros i _ Hne. rewrite is_seq_cons. destruct (Nat.eq_dec x i); [congruence|ring]. }
          rewrite is_seq_cons. destruct (Nat.eq_dec x x) as [_|]; [|congruence]. unfold P. rewrite dprob_dexp. ring. }
        rewrite Ed. destruct (Hdraw x Hx) as [D0 DN].
        split; [now apply Rmult_le_pos|].
        change (J M g0 ((L, G) :: (L', G') :: sr) (s :: x :: ss))
          with (J M g0 ((L', G') :: sr) (x :: ss) * G x s * L s).
        change (Fwd M g0 ((L, G) :: (L', G') :: sr) s) with (nsum M (fun i => F i * G i s) * L s).
        set (D := nsum M (fun i => F i * G i s)) in *.
        replace (length ((L', G') :: sr) * (2 * K + M + 3))%nat
          with (2 * (K + 1) + M + 1 + length sr * (2 * K + M + 3))%nat by (simpl length; lia).
        apply near_trans with (F x * G x s / D * (P * (D * L s))).
        * rewrite Rmult_assoc. apply near_mul_r; [|exact DN].
          apply Rmult_le_pos; [exact P0|]. apply Rmult_le_pos; [lra|apply HL0].
        * replace (F x * G x s / D * (P * (D * L s))) with (P * F x * (G x s * L s)) by (field; lra).
          rewrite (Rmult_assoc (J _ _ _ _)). apply near_mul_r; [apply Rmult_le_pos; [apply HG0|apply HL0]|exact PN].
  Qed.
End accuracy.

(** ** The whole step *)
Lemma ffbs_accurate summ beta a c gamma_0 Gammas log_lik N bound ss :
  sum_ok summ -> (beta <= 250)%nat -> (1 / 2) ^ S beta <= bound <= (1 / 2) ^ beta ->
  ffbs_args gamma_0 Gammas log_lik N -> (Z.of_nat (length gamma_0) < 2 ^ 53)%Z ->
  (forall x, In x gamma_0 -> is_double x /\ (x = 0 \/ (1 / 2) ^ 100 <= x <= 1)) ->
  (exists x, In x gamma_0 /\ 0 < x) -> (2 * a + 3 * c <= 2 * beta)%nat ->
  (forall n, (n < N)%nat -> lively a c (length gamma_0) (column log_lik n)
     (nth (if Nat.eqb (length Gammas) 1 then 0%nat else n) Gammas [])) ->
  length ss = N -> (forall s, In s ss -> (s < length gamma_0)%nat) ->
  near (N * (2 * N * (length gamma_0 + c + 5) + length gamma_0 + 5))
    (dprob (ffbs_step_f summ gamma_0 Gammas log_lik N bound) (is_seq ss))
    (posterior (length gamma_0) (vget gamma_0) (hmm_of Gammas log_lik N) ss) /\
  0 <= dprob (ffbs_step_f summ gamma_0 Gammas log_lik N bound) (is_seq ss).
Proof.
  intros Hsum Hbeta [Hb1 Hb2] Hargs HM Hg0 Hpos Hac Hgo HlN Hss. rewrite half_pw in Hb1, Hb2.
  assert (Hg : nn gamma_0) by (intros x Hx; split; [apply (fa_g0 _ _ _ _ Hargs x Hx)|now apply Hg0]).
  destruct (start_heavy summ beta gamma_0 Hsum Hg HM Hpos) as [Ht Hh].
  unfold ffbs_step_f. destruct (Req_EM_T (summ gamma_0) 0) as [E0|_]; [lra|].
  rewrite (broadcast_spec _ _ _ _ Hargs).
  set (gsel := fun n => nth (if Nat.eqb (length Gammas) 1 then 0%nat else n) Gammas []) in *.
  set (M := length gamma_0) in *.
  pose proof (steps_crel _ _ _ _ Hargs) as Hcrel. fold gsel in Hcrel.
  assert (Hst : forall p, In p (combine (transpose log_lik N) (map gsel (seq 0 N))) ->
    Gnn (snd p) /\ lively a c M (fst p) (snd p)).
  { intros p Hp. unfold transpose in Hp. rewrite combine_map in Hp. apply in_map_seq in Hp as (n & Hn & ->). simpl. split.
    - intros i j. apply (gsel_nonneg _ _ _ _ Hargs n i j).
    - apply (Hgo n Hn). }
  assert (Hsteps : length (combine (transpose log_lik N) (map gsel (seq 0 N))) = N).
  { unfold transpose. now rewrite combine_map, map_length, seq_length. }
  set (g := map (fun x => rnd (x / summ gamma_0)) gamma_0) in *.
  assert (Hgn : nn g) by (apply scaled_nn; assumption).
  assert (Hgl : length g = M) by (unfold g; now rewrite map_length).
  set (g0 := fun i => vget gamma_0 i / nsum M (vget gamma_0)).
  assert (HM0 : (0 < M)%nat) by (destruct Hpos as (x & Hx & _); unfold M; destruct gamma_0; [destruct Hx|simpl; lia]).
  assert (Hgi : forall i, (i < M)%nat -> vget gamma_0 i = 0 \/ pw (-100) <= vget gamma_0 i <= 1).
  { intros i Hi. destruct (Hg0 (vget gamma_0 i)) as [_ [H|H]]; [unfold vget; now apply nth_In|auto|].
    right. rewrite half_pw in H. exact H. }
  assert (Hf : fines gamma_0).
  { intros x Hx. destruct (Hg0 x Hx) as [Hd [H|H]]; (split; [exact Hd|]); [now left|right].
    apply Rle_trans with (2 := proj1 H). rewrite half_pw. apply bpow_le. lia. }
  assert (HT : 0 < nsum M (vget gamma_0)).
  { unfold M. rewrite <- lsum_nsum. destruct (fl_sum_near _ _ (Hsum gamma_0) Hf) as [Hn _]. exact (near_pos _ _ _ Hn Ht). }
  assert (Htot : summ gamma_0 <= pw 53).
  { apply Rle_trans with (INR M * pw 0).
    - apply fl_sum_le; [apply Hsum|exact Hg| |exact HM]. intros x Hx. simpl (pw 0).
      destruct (Hg0 x Hx) as [_ [->|H]]; [lra|apply H].
    - simpl (pw 0). rewrite Rmult_1_r. exact (size_pw M HM). }
  assert (Hq : forall i, (i < M)%nat -> vget gamma_0 i / summ gamma_0 = 0 \/ pw (-153) <= vget gamma_0 i / summ gamma_0).
  { intros i Hi. destruct (Hgi i Hi) as [->|[H1 H2]]; [left; unfold Rdiv; ring|right].
    apply Rmult_le_reg_r with (summ gamma_0); [exact Ht|]. unfold Rdiv. rewrite Rmult_assoc, Rinv_l, Rmult_1_r by lra.
    apply Rle_trans with (2 := H1). apply Rle_trans with (pw (-153) * pw 53); [apply Rmult_le_compat_l; [apply bpow_ge_0|exact Htot]|].
    rewrite <- bpow_plus. apply bpow_le. lia. }
  assert (Hab : above beta M g).
  { intros i Hi. unfold g. rewrite scaled_get. destruct (Hq i Hi) as [->|H]; [left; apply rnd_0|right].
    apply Rle_trans with (pw (-153)); [apply bpow_le; lia|]. apply rnd_low; [lia|exact H]. }
  assert (Hsc : nscaled M 1 g (Fwd M g0 [])).
  { exists (nsum M (vget gamma_0) / summ gamma_0). split; [apply Rmult_lt_0_compat; [exact HT|now apply Rinv_0_lt_compat]|].
    intros i Hi. cbn [Fwd]. unfold g0.
    replace (nsum M (vget gamma_0) / summ gamma_0 * (vget gamma_0 i / nsum M (vget gamma_0)))
      with (vget gamma_0 i / summ gamma_0) by (field; lra).
    unfold g. rewrite scaled_get. apply near_rnd. destruct (Hq i Hi) as [H|H]; [auto|right].
    apply Rle_trans with (2 := H). apply bpow_le. lia. }
  set (K := (1 + N * (M + c + 5))%nat).
  destruct (forward_near summ Hsum beta M a c bound Hbeta HM Hb1 Hb2 Hac g0 _ _ [] g [] 1 K Hcrel Hst Hgn Hgl Hab Hh Hsc I)
    as (l & El & Hl); [rewrite Hsteps; unfold K; lia|].
  match goal with |- near _ (dprob (match ?f with _ => _ end) _) _ /\ _ => replace f with (Some l) by (symmetry; exact El) end.
  rewrite app_nil_r in Hl.
  pose proof (fs_ok _ _ _ _ Hargs) as Hok. apply Forall_rev in Hok. fold M in Hok.
  pose proof (fs_length Gammas log_lik N) as Hfl.
  pose proof (fs_ne _ _ _ _ Hargs) as Hne.
  pose proof (joint_J _ _ _ _ Hargs ss) as Ej. pose proof (evidence_Fwd _ _ _ _ Hargs) as Ee.
  fold M in Ej, Ee. fold g0 in Ej, Ee. unfold posterior. rewrite Ej, Ee. clear Ej Ee.
  set (fs := hmm_of Gammas log_lik N) in *.
  assert (HGs : Forall2 (fun Gm (st : hmm_step) => (forall i j, mget Gm i j = snd st i j) /\
      (forall i j, (i < M)%nat -> (j < M)%nat -> (1 / 2) ^ a <= mget Gm i j <= 1))
      (rev (map gsel (seq 0 N))) (rev fs)).
  { unfold fs, hmm_of. rewrite <- !map_rev.
    assert (Hin : forall n, In n (rev (seq 0 N)) -> (n < N)%nat) by (intros n Hn; apply in_rev, in_seq in Hn; lia).
    revert Hin. generalize (rev (seq 0 N)). intros l0. induction l0 as [|n l0 IH]; intros Hin; simpl; constructor.
    - split; [intros i j; reflexivity|]. apply (proj1 (Hgo n (Hin n (or_introl eq_refl)))).
    - apply IH. intros n' Hn'. apply Hin. now right. }
  rewrite <- rev_length in Hfl.
  destruct (rev fs) as [|[L G] sr] eqn:Er; [congruence|].
  destruct l as [|aN earlier]; [contradiction|].
  pose proof (narel_nprel beta M a g0 K ((L, G) :: sr) aN earlier _ ltac:(discriminate) Hl HGs) as Hp.
  assert (Hlen : length earlier = length (rev (tl (map gsel (seq 0 N))))).
  { assert (Hal : forall sr acc, narel beta M g0 K sr acc -> length sr = length acc).
    { clear. induction sr as [|st sr IH]; intros [|v acc]; simpl; try tauto.
      intros (_ & _ & H). f_equal. auto. }
    pose proof (Hal _ _ Hl) as Hll. simpl in Hll, Hfl.
    rewrite rev_length. destruct N as [|n]; [lia|]. simpl. rewrite map_length, seq_length. lia. }
  assert (Hpairs : nprel beta M a g0 K ((L, G) :: sr) (combine earlier (rev (tl (map gsel (seq 0 N)))))).
  { destruct (map gsel (seq 0 N)) as [|G1 Gtl] eqn:EG; [exact Hp|].
    cbn [rev] in Hp. cbn [tl] in Hlen |- *. rewrite (combine_app_l _ _ _ Hlen) in Hp. exact Hp. }
  set (pairs := combine earlier (rev (tl (map gsel (seq 0 N))))) in *.
  destruct Hl as ((HaN & HaNl & (e & He & Hsp)) & HscN & _).
  destruct (normed_near summ Hsum beta M a c Hbeta HM Hac aN K _ e (Z.of_nat beta + 55) HaN HaNl HM0 HscN Hsp)
    as (HZ & Hdraw & Hexp); [lia|lia|].
  assert (Hr : length (rev ss) = length ((L, G) :: sr)) by (rewrite rev_length; simpl in *; lia).
  assert (Hrs : forall s, In s (rev ss) -> (s < M)%nat) by (intros s Hs; apply Hss, in_rev; exact Hs).
  destruct (rev ss) as [|s ssr] eqn:Ess; [discriminate|]. injection Hr as Hr.
  assert (Hs : (s < M)%nat) by (apply Hrs; simpl; auto).
  destruct (backward_near summ Hsum beta M a c Hbeta HM Hac g0 K sr L G pairs s ssr Hok Hpairs Hs Hr
    (fun y Hy => Hrs y (or_intror Hy))) as [P0 PN].
  set (P := dprob (backward_f summ M pairs s) (is_seq ssr)) in *.
  set (Zt := nsum M (Fwd M g0 ((L, G) :: sr))) in *.
  assert (Ed : dprob (dbind (normed_categorical_f summ aN) (fun state_N =>
      dbind (backward_f summ M pairs state_N) (fun rest => dret (rev (state_N :: rest))))) (is_seq ss)
      = rnd (vget aN s / summ aN) * P).
  { rewrite dprob_dexp, dexp_bind, Hexp. rewrite (nsum_single M _ s Hs).
    - f_equal. unfold P. rewrite dprob_dexp.
      transitivity (dexp (dbind (backward_f summ M pairs s) (fun rest => dret (s :: rest)))
        (fun o => if is_seq (s :: ssr) o then 1 else 0)).
      + rewrite !dexp_bind. apply dexp_ext. intros [rest|]; [|reflexivity]. rewrite !dexp_ret.
        rewrite <- Ess, <- is_seq_rev. reflexivity.
      + rewrite is_seq_cons. destruct (Nat.eq_dec s s); [ring|congruence].
    - intros i _ Hni.
      transitivity (rnd (vget aN i / summ aN) * dexp (dbind (backward_f summ M pairs i) (fun rest => dret (i :: rest)))
        (fun o => if is_seq (s :: ssr) o then 1 else 0)).
      + f_equal. rewrite !dexp_bind. apply dexp_ext. intros [rest|]; [|reflexivity]. rewrite !dexp_ret.
        rewrite <- Ess, <- is_seq_rev. reflexivity.
      + rewrite is_seq_cons. destruct (Nat.eq_dec s i); [congruence|ring]. }
  match goal with |- near _ ?d _ /\ _ => replace d with (rnd (vget aN s / summ aN) * P) by (symmetry; exact Ed) end.
  destruct (Hdraw s Hs) as [D0 DN]. split; [|now apply Rmult_le_pos].
  set (F := Fwd M g0 ((L, G) :: sr)) in *.
  assert (Hnear : near (2 * K + M + 1 + length sr * (2 * K + M + 3)) (rnd (vget aN s / summ aN) * P)
    (J M g0 ((L, G) :: sr) (s :: ssr) / Zt)).
  { apply near_trans with (F s / Zt * P); [now apply near_mul_r|].
    replace (F s / Zt * P) with (P * F s * / Zt) by (field; lra). unfold Rdiv.
    apply near_mul_r; [left; now apply Rinv_0_lt_compat|exact PN]. }
  apply (near_mono _ _ _ _ Hnear).
  - simpl in Hfl. rewrite <- Hfl. unfold K. rewrite <- Hfl. nia.
  - now apply Rmult_le_pos.
  - apply near_nonneg with (1 := Hnear). now apply Rmult_le_pos.
Qed.

Lemma near_error k x y : near k x y -> 0 <= x -> 0 <= y -> Rabs (x - y) <= INR k * (1 / 2) ^ 53 * Rmax x y.
Proof.
  intros [H1 H2] Hx Hy.
  assert (Hq : 1 - INR k * (1 / 2) ^ 53 <= q ^ k).
  { clear. pose proof q_range as Hr. set (u := (1 / 2) ^ 53) in *. induction k as [|k IH]; [rewrite pow_O; simpl; lra|].
    rewrite <- tech_pow_Rmult, S_INR.
    assert (q1 : (1 - u) * (1 - INR k * u) <= (1 - u) * (1 - u) ^ k) by (apply Rmult_le_compat_l; lra).
    assert (0 <= INR k * u * u); [|lra]. apply Rmult_le_pos; [apply Rmult_le_pos; [apply pos_INR|lra]|lra]. }
  assert (H0 : 0 <= INR k * (1 / 2) ^ 53) by (apply Rmult_le_pos; [apply pos_INR|apply pow_le; lra]).
  set (w := INR k * (1 / 2) ^ 53) in *.
  assert (A : y * (1 - w) <= x) by (apply Rle_trans with (2 := H1); now apply Rmult_le_compat_l).
  assert (A' : x * (1 - w) <= y) by (apply Rle_trans with (2 := H2); now apply Rmult_le_compat_l).
  assert (w * x <= w * Rmax x y) by (apply Rmult_le_compat_l; [exact H0|apply Rmax_l]).
  assert (w * y <= w * Rmax x y) by (apply Rmult_le_compat_l; [exact H0|apply Rmax_r]).
  apply Rabs_le. lra.
Qed.
