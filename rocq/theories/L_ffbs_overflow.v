(** Lemmas for C66: FFBS in double precision does not overflow. *)
From Coq Require Import FunctionalExtensionality.
From Flocq Require Import Core Relative Plus_error.
From Verif Require Import S_ffbs_overflow L_ffbs_float L_ffbs L_ffbs_accuracy.
Open Scope R_scope.

Notation p := (1 + (1 / 2) ^ 53).

Lemma p_ge : 1 <= p.
Proof. assert (0 < (1 / 2) ^ 53) by (apply pow_lt; lra). lra. Qed.
Lemma pk_ge k : 1 <= p ^ k.
Proof. apply pow_R1_Rle, p_ge. Qed.
Lemma pk_le k k' : (k <= k')%nat -> p ^ k <= p ^ k'.
Proof. intros; apply Rle_pow; [apply p_ge|assumption]. Qed.

(** up to 2^53 relative errors are less than a factor of 3 *)
Lemma pk_3 k : (Z.of_nat k <= 2 ^ 53)%Z -> p ^ k <= 3.
Proof.
  intros Hk. apply Rle_trans with (exp 1); [|exact exp_le_3].
  assert (H : p ^ k <= exp (INR k * (1 / 2) ^ 53)).
  { clear. induction k as [|k IH]; [rewrite pow_O; simpl; rewrite Rmult_0_l, exp_0; lra|].
    rewrite <- tech_pow_Rmult, S_INR. set (u := (1 / 2) ^ 53) in *.
    replace ((INR k + 1) * u) with (u + INR k * u) by ring. rewrite exp_plus.
    assert (0 < u) by (unfold u; apply pow_lt; lra).
    apply Rmult_le_compat; [lra|apply pow_le; lra| |exact IH].
    pose proof (exp_ineq1 u ltac:(lra)). lra. }
  apply Rle_trans with (1 := H).
  assert (Hu : INR k * (1 / 2) ^ 53 <= 1).
  { rewrite INR_IZR_INZ, half_pw. change (- Z.of_nat 53)%Z with (-53)%Z.
    apply Rle_trans with (pw 53 * pw (-53)).
    - apply Rmult_le_compat_r; [apply bpow_ge_0|]. change (pw 53) with (IZR (2 ^ 53)). now apply IZR_le.
    - rewrite <- bpow_plus. simpl. lra. }
  destruct (Rle_lt_or_eq_dec _ _ Hu) as [Hlt|E]; [left; now apply exp_increasing|rewrite E; lra].
Qed.

Lemma double_format x : is_double x -> generic_format radix2 (FLT_exp (-1074) 53) x.
Proof. intros H. rewrite <- H. unfold rnd. apply generic_format_round; auto with typeclass_instances. Qed.

Lemma rnd_plus_up x y : is_double x -> is_double y -> 0 <= x -> 0 <= y -> rnd (x + y) <= p * (x + y).
Proof.
  intros Dx Dy Hx Hy. pose proof p_ge.
  destruct (Rle_dec (pw (-1022)) (x + y)) as [Hge|Hlt].
  - assert (He : Rabs (rnd (x + y) - (x + y)) <= (1 / 2) ^ 53 * (x + y)).
    { rewrite <- half_ulp. rewrite <- (Rabs_pos_eq (x + y)) at 3 by lra. unfold rnd.
      apply relative_error_N_FLT; [reflexivity|]. rewrite Rabs_pos_eq by lra. exact Hge. }
    apply Rabs_le_inv in He. lra.
  - assert (E : rnd (x + y) = x + y).
    { unfold rnd. apply round_generic; auto with typeclass_instances.
      apply FLT_format_plus_small; [reflexivity|now apply double_format|now apply double_format|].
      rewrite Rabs_pos_eq by lra. apply Rle_trans with (pw (-1022)); [lra|]. apply bpow_le. lia. }
    rewrite E. rewrite <- (Rmult_1_l (x + y)) at 1. apply Rmult_le_compat_r; lra.
Qed.

Lemma rnd_up_abs x : 0 <= x -> rnd x <= p * x + pw (-1074).
Proof.
  intros Hx. destruct (error_N_FLT radix2 (-1074) 53 ltac:(lia) (fun x => negb (Z.even x)) x) as (eps & eta & He & Ht & _ & Hr).
  fold (rnd x) in Hr. rewrite Hr. change (- (53) + 1)%Z with (-53 + 1)%Z in He. rewrite half_ulp in He.
  apply Rabs_le_inv in He, Ht. assert (x * eps <= x * (1 / 2) ^ 53) by (apply Rmult_le_compat_l; lra).
  assert (0 < pw (-1074)) by apply bpow_gt_0. lra.
Qed.

Lemma lsum_perm l l' : Permutation l l' -> lsum l = lsum l'.
Proof. induction 1; simpl; lra. Qed.
Lemma lsum_app l1 l2 : lsum (l1 ++ l2) = lsum l1 + lsum l2.
Proof. induction l1 as [|a l1 IH]; simpl; lra. Qed.
Lemma lsum_nn l : nn l -> 0 <= lsum l.
Proof.
  induction l as [|a l IH]; intros H; simpl; [lra|].
  assert (0 <= a) by (apply H; simpl; auto). assert (0 <= lsum l) by (apply IH; intros x Hx; apply H; simpl; auto). lra.
Qed.
Lemma lsum_ge l x : nn l -> In x l -> x <= lsum l.
Proof.
  intros Hn Hx. apply in_split in Hx as (l1 & l2 & ->). rewrite lsum_app. simpl.
  assert (nn l1) by (intros y Hy; apply Hn, in_or_app; auto).
  assert (nn l2) by (intros y Hy; apply Hn, in_or_app; simpl; auto).
  pose proof (lsum_nn l1 H). pose proof (lsum_nn l2 H0). lra.
Qed.

Lemma add_up n1 n2 s1 s2 L1 L2 : is_double s1 -> is_double s2 -> 0 <= s1 -> 0 <= s2 -> 0 <= L1 -> 0 <= L2 ->
  (n1 = 0%nat -> s1 = 0) -> (n2 = 0%nat -> s2 = 0) -> s1 <= p ^ n1 * L1 -> s2 <= p ^ n2 * L2 ->
  rnd (s1 + s2) <= p ^ (n1 + n2) * (L1 + L2).
Proof.
  intros D1 D2 P1 P2 Q1 Q2 Z1 Z2 B1 B2.
  assert (Hm : forall n L, 0 <= L -> (n <= n1 + n2)%nat -> p ^ n * L <= p ^ (n1 + n2) * L)
    by (intros n L HL Hn; apply Rmult_le_compat_r; [exact HL|now apply pk_le]).
  assert (Hz : 0 <= p ^ (n1 + n2)) by (pose proof (pk_ge (n1 + n2)); lra).
  destruct n1 as [|n1].
  { rewrite Z1 by reflexivity. rewrite Rplus_0_l, D2. simpl Nat.add in *.
    assert (0 <= p ^ n2 * L1) by now apply Rmult_le_pos. lra. }
  destruct n2 as [|n2].
  { rewrite Z2 by reflexivity. rewrite Rplus_0_r, D1. rewrite Nat.add_0_r in *.
    assert (0 <= p ^ S n1 * L2) by now apply Rmult_le_pos. lra. }
  apply Rle_trans with (p * (s1 + s2)); [now apply rnd_plus_up|].
  pose proof (Hm (S (S n1)) L1 Q1 ltac:(lia)) as H1. pose proof (Hm (S (S n2)) L2 Q2 ltac:(lia)) as H2.
  rewrite <- tech_pow_Rmult in H1, H2. pose proof p_ge.
  assert (p * s1 <= p * (p ^ S n1 * L1)) by (apply Rmult_le_compat_l; lra).
  assert (p * s2 <= p * (p ^ S n2 * L2)) by (apply Rmult_le_compat_l; lra). lra.
Qed.

Lemma fl_sum_up l s : fl_sum l s -> nn l -> s <= p ^ length l * lsum l.
Proof.
  induction 1 as [|x|l1 l2 l s1 s2 H1 IH1 H2 IH2 Hp]; intros Hn.
  - simpl. lra.
  - simpl length. simpl lsum. rewrite pow_1. assert (0 <= x) by (apply Hn; simpl; auto). pose proof p_ge.
    rewrite Rplus_0_r. rewrite <- (Rmult_1_l x) at 1. apply Rmult_le_compat_r; lra.
  - destruct (nn_split _ _ _ Hp Hn) as [N1 N2]. rewrite (Permutation_length Hp), (lsum_perm _ _ Hp), lsum_app, app_length.
    destruct (fl_sum_nn _ _ H1 N1), (fl_sum_nn _ _ H2 N2).
    apply add_up; auto using lsum_nn.
    + intros E. apply length_zero_iff_nil in E. subst l1. apply (fl_sum_zero _ _ H1). intros x [].
    + intros E. apply length_zero_iff_nil in E. subst l2. apply (fl_sum_zero _ _ H2). intros x [].
Qed.

Lemma pw_60_3 : 3 * pw 60 <= pw 62.
Proof. replace 62%Z with (2 + 60)%Z by lia. rewrite bpow_plus. apply Rmult_le_compat_r; [apply bpow_ge_0|]. simpl. lra. Qed.

Section round.
  Context (rd : R -> R) (Hrd : rounds rd).

  Lemma rd_ok x : Rabs x <= pw 1023 -> rd x = rnd x.
  Proof using Hrd.
    intros Hx. apply Hrd. apply Rle_lt_trans with (pw 1023); [|apply bpow_lt; lia]. apply Rabs_le_inv in Hx. apply Rabs_le.
    assert (E1 : rnd (- pw 1023) = - pw 1023).
    { replace (- pw 1023) with (IZR (-1) * pw 1023) by lra. apply (rnd_F2R (-1) 1023); simpl; lia. }
    rewrite <- E1. rewrite <- (rnd_pw 1023) at 2 by lia. split; apply rnd_le; lra.
  Qed.
  Lemma rd_pos x e : 0 <= x -> x <= pw e -> (e <= 1023)%Z -> rd x = rnd x.
  Proof using Hrd.
    intros H0 H1 He. apply rd_ok. rewrite Rabs_pos_eq by exact H0. apply Rle_trans with (1 := H1). now apply bpow_le.
  Qed.

  Lemma fl_sum_r_ok l s : fl_sum_r rd l s -> nn l -> p ^ length l * lsum l <= pw 1000 -> fl_sum l s.
  Proof using Hrd.
    induction 1 as [|x|l1 l2 l s1 s2 H1 IH1 H2 IH2 Hp]; intros Hn Hb; [constructor|constructor|].
    destruct (nn_split _ _ _ Hp Hn) as [N1 N2].
    pose proof (lsum_nn _ N1) as Q1. pose proof (lsum_nn _ N2) as Q2.
    rewrite (Permutation_length Hp), (lsum_perm _ _ Hp), lsum_app, app_length in Hb.
    set (n1 := length l1) in *. set (n2 := length l2) in *.
    assert (Hm : forall n L, 0 <= L -> (n <= n1 + n2)%nat -> p ^ n * L <= p ^ (n1 + n2) * L)
      by (intros n L HL Hnn; apply Rmult_le_compat_r; [exact HL|now apply pk_le]).
    assert (Hz : 0 <= p ^ (n1 + n2)) by (pose proof (pk_ge (n1 + n2)); lra).
    pose proof (Rmult_le_pos _ _ Hz Q1). pose proof (Rmult_le_pos _ _ Hz Q2).
    assert (F1 : fl_sum l1 s1) by (apply IH1; [exact N1|]; pose proof (Hm n1 _ Q1 ltac:(lia)); lra).
    assert (F2 : fl_sum l2 s2) by (apply IH2; [exact N2|]; pose proof (Hm n2 _ Q2 ltac:(lia)); lra).
    destruct (fl_sum_nn _ _ F1 N1) as [P1 _], (fl_sum_nn _ _ F2 N2) as [P2 _].
    pose proof (fl_sum_up _ _ F1 N1) as U1. pose proof (fl_sum_up _ _ F2 N2) as U2. fold n1 in U1. fold n2 in U2.
    pose proof (Hm n1 _ Q1 ltac:(lia)). pose proof (Hm n2 _ Q2 ltac:(lia)).
    rewrite (rd_pos (s1 + s2) 1000); [|lra|lra|lia]. now apply (fl_add l1 l2).
  Qed.

  Context (summ : list R -> R) (Hsum : sum_ok_r rd summ).

  Definition okl (l : list R) : Prop := nn l /\ p ^ length l * lsum l <= pw 1000.

  Lemma okl_dec l : {okl l} + {~ okl l}.
  Proof using.
    destruct (Rle_dec (p ^ length l * lsum l) (pw 1000)) as [Hb|Hb]; [|right; intros [_ H]; auto].
    destruct (Forall_dec (fun x => 0 <= x /\ is_double x)) with (l := l) as [H|H].
    - intros x. unfold is_double. destruct (Rle_dec 0 x), (Req_EM_T (rnd x) x); tauto.
    - left. split; [|exact Hb]. intros x Hx. rewrite Forall_forall in H. now apply H.
    - right. intros [Hn _]. apply H, Forall_forall. exact Hn.
  Qed.

  (** the same sums where they do not overflow *)
  Definition fixsum (l : list R) : R :=
    if okl_dec l then summ l else fold_right (fun x a => rnd (x + a)) 0 l.

  Lemma fixsum_ok : sum_ok fixsum.
  Proof using Hrd Hsum.
    intros l. unfold fixsum. destruct (okl_dec l) as [[Hn Hb]|_]; [now apply fl_sum_r_ok|].
    induction l as [|x l IH]; [constructor|]. simpl.
    apply (fl_add [x] l); [constructor|exact IH|apply Permutation_refl].
  Qed.

  Context (M : nat) (HM : (Z.of_nat (M + 4) <= 2 ^ 53)%Z).

  Definition small (v : vec) : Prop := nn v /\ length v = M /\ lsum v <= pw 60.

  Lemma small_okl v : small v -> p ^ length v * lsum v <= pw 62.
  Proof using HM.
    intros (Hn & Hl & Hs). pose proof (lsum_nn _ Hn). rewrite Hl.
    assert (p ^ M <= 3) by (apply pk_3; clear -HM; lia). pose proof (pk_ge M).
    apply Rle_trans with (2 := pw_60_3). apply Rmult_le_compat; lra.
  Qed.

  Lemma fixsum_eq v : small v -> summ v = fixsum v.
  Proof using HM.
    intros Hv. unfold fixsum. destruct (okl_dec v) as [_|Hno]; [reflexivity|]. exfalso. apply Hno.
    split; [apply Hv|]. apply Rle_trans with (1 := small_okl v Hv). apply bpow_le. lia.
  Qed.

  Lemma small_get v i : small v -> 0 <= vget v i <= pw 60 /\ is_double (vget v i).
  Proof using HM.
    intros (Hn & _ & Hs). destruct (nn_vget v i Hn) as [H0 Hd]. split; [split; [exact H0|]|exact Hd].
    destruct (lt_dec i (length v)) as [Hi|Hi].
    - apply Rle_trans with (2 := Hs). apply lsum_ge; [exact Hn|]. unfold vget. now apply nth_In.
    - rewrite vget_out by lia. apply bpow_ge_0.
  Qed.

  Definition Gok (G : mat) : Prop :=
    (forall i j, 0 <= mget G i j <= 1) /\ (forall i, (i < M)%nat -> nsum M (fun j => mget G i j) <= p ^ 2).

  Lemma lsum_le_map {A} (f g : A -> R) l : (forall x, In x l -> f x <= g x) -> lsum (map f l) <= lsum (map g l).
  Proof using HM.
    induction l as [|a l IH]; intros H; simpl; [lra|].
    assert (f a <= g a) by (apply H; simpl; auto).
    assert (lsum (map f l) <= lsum (map g l)) by (apply IH; intros x Hx; apply H; simpl; auto). lra.
  Qed.

  (** products with numbers of the unit interval *)
  Lemma times_small v (c : nat -> R) : small v -> (forall i, (i < M)%nat -> 0 <= c i <= 1) ->
    map (fun i => rd (vget v i * c i)) (seq 0 M) = map (fun i => rnd (vget v i * c i)) (seq 0 M) /\
    small (map (fun i => rnd (vget v i * c i)) (seq 0 M)).
  Proof using Hrd HM.
    intros Hv Hc. split.
    - apply map_ext_in. intros i Hi. apply in_seq in Hi. destruct (small_get v i Hv) as [[V0 V1] _]. destruct (Hc i ltac:(lia)).
      apply (rd_pos _ 60); [now apply Rmult_le_pos| |lia].
      apply Rle_trans with (vget v i * 1); [now apply Rmult_le_compat_l|lra].
    - split; [|split].
      + intros x Hx. apply in_map_seq in Hx as (i & Hi & ->). split; [|apply rnd_double].
        apply rnd_nonneg, Rmult_le_pos; [now apply small_get|now apply Hc].
      + now rewrite map_length, seq_length.
      + destruct Hv as (Hn & Hl & Hs). apply Rle_trans with (2 := Hs).
        rewrite (lsum_nsum v), Hl. unfold nsum. apply lsum_le_map. intros i Hi. apply in_seq in Hi.
        destruct (nn_vget v i Hn) as [V0 Vd]. apply Rle_trans with (rnd (vget v i)); [|right; exact Vd]. apply rnd_le.
        destruct (Hc i ltac:(lia)). apply Rle_trans with (vget v i * 1); [now apply Rmult_le_compat_l|lra].
  Qed.

  Lemma flik_r_eq ll : (forall x, In (Some x) ll -> Rabs x <= pw 1022) -> flik_r rd ll = flik ll.
  Proof using Hrd HM.
    intros Hll. unfold flik_r, flik. destruct (lmax ll) as [m|] eqn:Em; [|reflexivity]. f_equal.
    apply map_ext_in. intros [x|] Hx; [|reflexivity].
    assert (Hm : In (Some m) ll).
    { destruct (lmax_in _ _ Em) as (k & Hk). rewrite <- Hk. apply nth_In.
      destruct (lt_dec k (length ll)) as [|Hn]; [assumption|]. rewrite nth_overflow in Hk by lia. discriminate. }
    pose proof (lmax_ge ll m x Em Hx). apply Hll in Hx, Hm. apply Rabs_le_inv in Hx, Hm.
    assert (E2 : pw 1023 = 2 * pw 1022) by (replace 1023%Z with (1 + 1022)%Z by lia; rewrite bpow_plus; simpl; lra).
    rewrite (rd_ok (x - m)) by (rewrite E2; apply Rabs_le; lra).
    apply (rd_pos _ 0); [left; apply exp_pos| |lia]. simpl (pw 0). rewrite <- exp_0.
    assert (Hr : rnd (x - m) <= 0) by (rewrite <- rnd_0; apply rnd_le; lra).
    destruct (Rle_lt_or_eq_dec _ _ Hr) as [Hlt|Heq]; [left; now apply exp_increasing|rewrite ?Heq, ?exp_0; lra].
  Qed.

  Lemma flik_le1 ll lk s : flik ll = Some lk -> 0 <= vget lk s <= 1.
  Proof using HM.
    intros H. split; [apply nn_vget, (flik_nn _ _ H)|].
    unfold flik in H. destruct (lmax ll) as [m|] eqn:Em; [|discriminate]. apply some_inj in H. subst lk.
    unfold vget. pose (f := fun x => match x with Some a => rnd (exp (rnd (a - m))) | None => 0 end).
    change (nth s (map f ll) (f None) <= 1). rewrite map_nth. destruct (nth s ll None) as [x|] eqn:Ex; unfold f; [|lra].
    assert (Hx : In (Some x) ll).
    { rewrite <- Ex. apply nth_In. destruct (lt_dec s (length ll)) as [|Hn]; [assumption|]. rewrite nth_overflow in Ex by lia. discriminate. }
    pose proof (lmax_ge ll m x Em Hx). change 1 with (pw 0). rewrite <- (rnd_pw 0) by lia. apply rnd_le. simpl (pw 0).
    rewrite <- exp_0. assert (Hr : rnd (x - m) <= 0) by (rewrite <- rnd_0; apply rnd_le; lra).
    destruct (Rle_lt_or_eq_dec _ _ Hr) as [Hlt|Heq]; [left; now apply exp_increasing|rewrite ?Heq, ?exp_0; lra].
  Qed.

  (** ** Growth *)
  Definition cap (k : nat) : R := (INR M + 1) * p ^ (k * (M + 4)).

  Lemma cap_60 k : (Z.of_nat (k * (M + 4)) <= 2 ^ 53)%Z -> cap k <= pw 60.
  Proof using HM.
    intros Hk. unfold cap. apply Rle_trans with (pw 54 * pw 2); [|rewrite <- bpow_plus; apply bpow_le; lia].
    pose proof (pos_INR M). pose proof (pk_ge (k * (M + 4))). pose proof (pk_3 _ Hk).
    apply Rmult_le_compat; [lra|lra| |simpl; lra].
    rewrite INR_IZR_INZ. change (pw 54) with (IZR (2 ^ 54)). rewrite <- plus_IZR. apply IZR_le. clear -HM. lia.
  Qed.
  Lemma cap_ge k : INR M + 1 <= cap k.
  Proof using HM.
    unfold cap. pose proof (pos_INR M). pose proof (pk_ge (k * (M + 4))).
    rewrite <- (Rmult_1_r (INR M + 1)) at 1. apply Rmult_le_compat_l; lra.
  Qed.

  Lemma dot_sum v G : nn v -> length v = M -> Gok G ->
    lsum (map (fun j => lsum (map (fun i => rnd (vget v i * mget G i j)) (seq 0 M))) (seq 0 M))
    <= p ^ 3 * lsum v + INR M * INR M * pw (-1074).
  Proof using HM.
    intros Hn Hl [HG HG1].
    apply Rle_trans with (lsum (map (fun j => lsum (map (fun i => p * (vget v i * mget G i j) + pw (-1074)) (seq 0 M))) (seq 0 M))).
    - apply lsum_le_map. intros j _. apply lsum_le_map. intros i _. apply rnd_up_abs.
      apply Rmult_le_pos; [now apply nn_vget|apply HG].
    - assert (Hc : forall (c : R) n, lsum (map (fun _ => c) (seq 0 n)) = INR n * c).
      { intros c0 n. generalize 0%nat. induction n as [|n IH]; intros a0; [simpl; lra|].
        rewrite S_INR. simpl. rewrite IH. lra. }
      rewrite (lsum_map_ext _ _ (fun j => p * lsum (map (fun i => vget v i * mget G i j) (seq 0 M)) + INR M * pw (-1074))).
      2:{ intros j _. rewrite lsum_map_plus, lsum_map_scal, Hc. reflexivity. }
      rewrite lsum_map_plus, lsum_map_scal, Hc.
      assert (Hsw : lsum (map (fun j => lsum (map (fun i => vget v i * mget G i j) (seq 0 M))) (seq 0 M)) <= p ^ 2 * lsum v).
      { rewrite lsum_swap. rewrite (lsum_nsum v), Hl. unfold nsum. rewrite <- lsum_map_scal. apply lsum_le_map. intros i Hi. apply in_seq in Hi.
        rewrite lsum_map_scal, (Rmult_comm (p ^ 2)). apply Rmult_le_compat_l; [now apply nn_vget|].
        apply (HG1 i). lia. }
      pose proof p_ge. assert (p * lsum (map (fun j => lsum (map (fun i => vget v i * mget G i j) (seq 0 M))) (seq 0 M)) <= p * (p ^ 2 * lsum v))
        by (apply Rmult_le_compat_l; lra). rewrite <- (tech_pow_Rmult p 2), (Rmult_assoc p (p ^ 2)). lra.
  Qed.

  Lemma dot_small v G k : small v -> Gok G -> lsum v <= cap k -> (Z.of_nat (S k * (M + 4)) <= 2 ^ 53)%Z ->
    fdot_r rd summ M v G = fdot fixsum M v G /\ small (fdot fixsum M v G) /\ lsum (fdot fixsum M v G) <= cap (S k).
  Proof using Hrd Hsum HM.
    intros Hv HG Hc Hk. pose proof fixsum_ok as Hfix.
    assert (Hp : forall j, map (fun i => rd (vget v i * mget G i j)) (seq 0 M) = map (fun i => rnd (vget v i * mget G i j)) (seq 0 M) /\
      small (map (fun i => rnd (vget v i * mget G i j)) (seq 0 M))).
    { intros j. apply (times_small v (fun i => mget G i j) Hv). intros i _. apply HG. }
    split.
    { unfold fdot_r, fdot. apply map_ext. intros j. rewrite (proj1 (Hp j)). apply fixsum_eq, Hp. }
    assert (Hn : nn (fdot fixsum M v G)).
    { apply fdot_nn; [exact Hfix|apply Hv|]. intros i j. apply HG. }
    assert (Hl : length (fdot fixsum M v G) = M) by (unfold fdot; now rewrite map_length, seq_length).
    assert (Hb : lsum (fdot fixsum M v G) <= cap (S k)).
    { unfold fdot. apply Rle_trans with (lsum (map (fun j => p ^ M * lsum (map (fun i => rnd (vget v i * mget G i j)) (seq 0 M))) (seq 0 M))).
      - apply lsum_le_map. intros j _.
        pose proof (fl_sum_up _ _ (Hfix (map (fun i => rnd (vget v i * mget G i j)) (seq 0 M))) (proj1 (proj2 (Hp j)))) as Hu.
        rewrite map_length, seq_length in Hu. exact Hu.
      - rewrite lsum_map_scal. pose proof (dot_sum v G (proj1 Hv) (proj1 (proj2 Hv)) HG) as Hd.
        pose proof (pk_ge M) as HpM. pose proof p_ge as Hp1.
        apply Rle_trans with (p ^ M * (p ^ 3 * cap k + pw (-900))).
        + apply Rmult_le_compat_l; [lra|]. apply Rle_trans with (1 := Hd).
          assert (p ^ 3 * lsum v <= p ^ 3 * cap k) by (apply Rmult_le_compat_l; [pose proof (pk_ge 3)|]; lra).
          assert (INR M * INR M * pw (-1074) <= pw (-900)); [|lra].
          assert (HMp : INR M <= pw 53).
          { rewrite INR_IZR_INZ. change (pw 53) with (IZR (2 ^ 53)). apply IZR_le. clear -HM. lia. }
          apply Rle_trans with (pw 53 * pw 53 * pw (-1074)).
          * apply Rmult_le_compat_r; [apply bpow_ge_0|]. pose proof (pos_INR M). apply Rmult_le_compat; assumption.
          * rewrite <- !bpow_plus. apply bpow_le. lia.
        + unfold cap. replace (S k * (M + 4))%nat with (M + (4 + k * (M + 4)))%nat by lia.
          rewrite (pow_add _ M), (pow_add _ 4).
          replace ((INR M + 1) * (p ^ M * (p ^ 4 * p ^ (k * (M + 4))))) with (p ^ M * (p ^ 4 * cap k)) by (unfold cap; ring).
          apply Rmult_le_compat_l; [lra|]. fold (cap k). pose proof (cap_ge k). pose proof (pos_INR M).
          rewrite <- (tech_pow_Rmult p 3). pose proof (pk_ge 3) as Hp3.
          assert (Hu : pw (-900) <= (1 / 2) ^ 53) by (rewrite half_pw; apply bpow_le; lia).
          set (u := (1 / 2) ^ 53) in *.
          assert (u * 1 <= u * ((1 + u) ^ 3 * cap k)).
          { apply Rmult_le_compat_l; [unfold u; apply pow_le; lra|].
            apply Rle_trans with (1 * cap k); [lra|]. apply Rmult_le_compat_r; lra. }
          replace ((1 + u) * (1 + u) ^ 3 * cap k) with ((1 + u) ^ 3 * cap k + u * ((1 + u) ^ 3 * cap k)) by ring. lra. }
    split; [|exact Hb]. split; [exact Hn|]. split; [exact Hl|]. apply Rle_trans with (1 := Hb). now apply cap_60.
  Qed.

  (** dividing by something that is at least as large *)
  Lemma div_small v b : nn v -> length v = M -> 0 < b -> (forall x, In x v -> x <= b) ->
    map (fun x => rd (x / b)) v = map (fun x => rnd (x / b)) v /\
    nn (map (fun x => rnd (x / b)) v) /\ length (map (fun x => rnd (x / b)) v) = M /\
    lsum (map (fun x => rnd (x / b)) v) <= INR M.
  Proof using Hrd HM.
    intros Hn Hl Hb Hle.
    assert (Hq : forall x, In x v -> 0 <= x / b <= 1).
    { intros x Hx. assert (0 < / b) by now apply Rinv_0_lt_compat. split; [apply Rmult_le_pos; [now apply Hn|lra]|].
      apply Rmult_le_reg_r with b; [exact Hb|]. unfold Rdiv. rewrite Rmult_assoc, Rinv_l, Rmult_1_r, Rmult_1_l by lra. now apply Hle. }
    split; [|split; [|split]].
    - apply map_ext_in. intros x Hx. destruct (Hq x Hx). apply (rd_pos _ 0); [assumption|simpl; assumption|lia].
    - now apply scaled_nn.
    - now rewrite map_length.
    - rewrite <- Hl. clear Hl Hn Hle. induction v as [|x v IH]; [simpl; lra|].
      simpl length. rewrite S_INR. simpl map. simpl lsum.
      assert (rnd (x / b) <= 1).
      { change (rnd (x / b) <= pw 0). rewrite <- (rnd_pw 0) by (clear; lia). apply rnd_le. simpl (pw 0). apply Hq. simpl; auto. }
      assert (lsum (map (fun x => rnd (x / b)) v) <= INR (length v)) by (apply IH; intros y Hy; apply Hq; simpl; auto). lra.
  Qed.

  Lemma forward_step_r_eq bound v G ll k : 0 < bound -> small v -> Gok G ->
    (forall x, In (Some x) ll -> Rabs x <= pw 1022) -> lsum v <= cap k -> (Z.of_nat (S k * (M + 4)) <= 2 ^ 53)%Z ->
    forward_step_r rd summ bound M ll G v = forward_step_f fixsum bound M ll G v /\
    forall v', forward_step_f fixsum bound M ll G v = Some v' -> small v' /\ lsum v' <= cap (S k).
  Proof using Hrd Hsum HM.
    intros Hb Hv HG Hll Hc Hk. destruct (dot_small v G k Hv HG Hc Hk) as (Ed & Hds & Hdc).
    unfold forward_step_r, forward_step_f. rewrite (flik_r_eq ll Hll), Ed.
    destruct (flik ll) as [lk|] eqn:El; [|split; [reflexivity|discriminate]].
    set (d := fdot fixsum M v G) in *.
    destruct (times_small d (vget lk) Hds (fun i _ => flik_le1 ll lk i El)) as [Em Hms].
    change (map (fun i => rd (vget d i * vget lk i)) (seq 0 M)) with (fmul_r rd M d lk) in Em.
    change (map (fun i => rnd (vget d i * vget lk i)) (seq 0 M)) with (fmul M d lk) in Em, Hms.
    rewrite Em. set (u := fmul M d lk) in *. cbv zeta. rewrite (fixsum_eq u Hms).
    assert (Huc : lsum u <= cap (S k)).
    { apply Rle_trans with (2 := Hdc). unfold u, fmul. rewrite (lsum_nsum d), (proj1 (proj2 Hds)). unfold nsum.
      apply lsum_le_map. intros i _. destruct (nn_vget d i (proj1 Hds)) as [D0 Dd]. apply Rle_trans with (rnd (vget d i)); [|right; exact Dd].
      apply rnd_le. destruct (flik_le1 ll lk i El). apply Rle_trans with (vget d i * 1); [now apply Rmult_le_compat_l|lra]. }
    destruct (Rlt_dec (fixsum u) bound) as [Hlt|Hge].
    - assert (Hle : forall x, In x u -> x <= bound).
      { intros x Hx. left. apply Rle_lt_trans with (2 := Hlt). apply summ_ge; [exact fixsum_ok|apply Hms|exact Hx]. }
      destruct (div_small u bound (proj1 Hms) (proj1 (proj2 Hms)) Hb Hle) as (E & H1 & H2 & H3).
      rewrite E. split; [reflexivity|]. intros v' Hv'. apply some_inj in Hv'. subst v'.
      assert (lsum (map (fun x => rnd (x / bound)) u) <= cap (S k)) by (pose proof (cap_ge (S k)); lra).
      split; [|assumption]. split; [exact H1|]. split; [exact H2|]. pose proof (cap_60 _ Hk). lra.
    - split; [reflexivity|]. intros v' Hv'. apply some_inj in Hv'. subst v'. auto.
  Qed.

  Lemma forward_r_eq bound steps : 0 < bound ->
    (forall q, In q steps -> Gok (snd q) /\ forall x, In (Some x) (fst q) -> Rabs x <= pw 1022) ->
    forall v acc k, small v -> lsum v <= cap k -> (forall w, In w acc -> small w) ->
    (Z.of_nat ((length steps + k) * (M + 4)) <= 2 ^ 53)%Z ->
    forward_r rd summ bound M steps v acc = forward_f fixsum bound M steps v acc /\
    forall l, forward_f fixsum bound M steps v acc = Some l -> forall w, In w l -> small w.
  Proof using Hrd Hsum HM.
    intros Hb. induction steps as [|[ll G] steps IH]; intros Hst v acc k Hv Hc Hacc Hk.
    - simpl. split; [reflexivity|]. intros l Hl. apply some_inj in Hl. now subst l.
    - destruct (Hst (ll, G) (or_introl eq_refl)) as [HG Hll]. simpl in HG, Hll. simpl length in Hk.
      destruct (forward_step_r_eq bound v G ll k Hb Hv HG Hll Hc) as [E Hnext]; [clear -Hk; nia|].
      simpl. rewrite E. destruct (forward_step_f fixsum bound M ll G v) as [v'|]; [|split; [reflexivity|discriminate]].
      destruct (Hnext v' eq_refl) as [Hv' Hc'].
      apply (IH (fun q Hq => Hst q (or_intror Hq)) v' (v' :: acc) (S k) Hv' Hc').
      + intros w [<-|Hw]; auto.
      + clear -Hk. replace (length steps + S k)%nat with (S (length steps) + k)%nat by lia. exact Hk.
  Qed.

  Lemma normed_r_eq w : small w -> normed_categorical_r rd summ w = normed_categorical_f fixsum w.
  Proof using Hrd Hsum HM.
    intros Hw. unfold normed_categorical_r, normed_categorical_f. cbv zeta. rewrite (fixsum_eq w Hw).
    destruct (Req_EM_T (fixsum w) 0) as [E|E]; [reflexivity|]. f_equal.
    destruct (summ_nn fixsum fixsum_ok w (proj1 Hw)) as [H0 _].
    apply div_small; [apply Hw|apply Hw|lra|]. intros x Hx. apply summ_ge; [exact fixsum_ok|apply Hw|exact Hx].
  Qed.

  Lemma backward_r_eq pairs : (forall q, In q pairs -> small (fst q) /\ Gok (snd q)) ->
    forall s, backward_r rd summ M pairs s = backward_f fixsum M pairs s.
  Proof using Hrd Hsum HM.
    induction pairs as [|[v G] pairs IH]; intros Hp s; [reflexivity|]. simpl.
    destruct (Hp (v, G) (or_introl eq_refl)) as [Hv HG]. simpl in Hv, HG.
    assert (Hg : forall i, (i < M)%nat -> 0 <= vget (map (fun i => mget G i s) (seq 0 M)) i <= 1).
    { intros i Hi. rewrite (vget_seq M (fun i => mget G i s)) by exact Hi. apply HG. }
    destruct (times_small v (vget (map (fun i => mget G i s) (seq 0 M))) Hv Hg) as [Em Hms].
    unfold backward_step_r, backward_step_f, fmul_r, fmul. rewrite Em, (normed_r_eq _ Hms).
    unfold dbind. f_equal. apply functional_extensionality. intros [o x]. destruct o as [s'|]; [cbn [fst snd]|reflexivity].
    now rewrite (IH (fun q Hq => Hp q (or_intror Hq)) s').
  Qed.
End round.

(** ** The whole step *)
Lemma ffbs_no_overflow rd summ gamma_0 Gammas log_lik N bound :
  rounds rd -> sum_ok_r rd summ -> 0 < bound -> ffbs_args gamma_0 Gammas log_lik N ->
  (Z.of_nat (N * (length gamma_0 + 4)) <= 2 ^ 53)%Z ->
  (forall x, In x gamma_0 -> is_double x) -> lsum gamma_0 <= pw 60 ->
  (forall G row, In G Gammas -> In row G -> lsum row <= 1 + (1 / 2) ^ 52 /\ forall x, In x row -> x <= 1) ->
  (forall row x, In row log_lik -> In (Some x) row -> Rabs x <= pw 1022) ->
  exists summ', sum_ok summ' /\
    ffbs_step_r rd summ gamma_0 Gammas log_lik N bound = ffbs_step_f summ' gamma_0 Gammas log_lik N bound.
Proof.
  intros Hrd Hsum Hb Hargs HN Hdbl Hg60 HG Hll. set (M := length gamma_0) in *.
  assert (HN1 := fa_N _ _ _ _ Hargs).
  assert (HM : (Z.of_nat (M + 4) <= 2 ^ 53)%Z) by nia.
  exists (fixsum summ). split; [now apply (fixsum_ok rd Hrd)|].
  assert (Hfix := fixsum_ok rd Hrd summ Hsum).
  assert (Hg : small M gamma_0).
  { split; [|split; [reflexivity|exact Hg60]]. intros x Hx. split; [apply (fa_g0 _ _ _ _ Hargs x Hx)|auto]. }
  unfold ffbs_step_r, ffbs_step_f. fold M. rewrite (fixsum_eq summ M HM gamma_0 Hg). cbv zeta.
  destruct (Req_EM_T (fixsum summ gamma_0) 0) as [E|E]; [reflexivity|].
  destruct (summ_nn _ Hfix gamma_0 (proj1 Hg)) as [H0 _].
  destruct (div_small rd Hrd M HM gamma_0 (fixsum summ gamma_0) (proj1 Hg) eq_refl ltac:(lra)
    (fun x Hx => summ_ge _ Hfix gamma_0 x (proj1 Hg) Hx)) as (Eg & Gn & Gl & Gs).
  rewrite Eg. rewrite (broadcast_spec _ _ _ _ Hargs).
  set (gsel := fun n => nth (if Nat.eqb (length Gammas) 1 then 0%nat else n) Gammas []) in *.
  set (g := map (fun x => rnd (x / fixsum summ gamma_0)) gamma_0) in *.
  assert (HGok : forall n, Gok M (gsel n)).
  { intros n. pose proof (gsel_nonneg _ _ _ _ Hargs n) as Hnn. change (forall i j, 0 <= mget (gsel n) i j) in Hnn.
    assert (Hp2 : 1 + (1 / 2) ^ 52 <= p ^ 2).
    { rewrite <- (tech_pow_Rmult p 1), pow_1. assert (E2 : (1 / 2) ^ 52 = 2 * (1 / 2) ^ 53) by (rewrite <- (tech_pow_Rmult (1 / 2) 52); lra).
      rewrite E2. assert (0 < (1 / 2) ^ 53) by (apply pow_lt; lra). set (u := (1 / 2) ^ 53) in *.
      replace ((1 + u) * (1 + u)) with (1 + 2 * u + u * u) by ring. assert (0 <= u * u) by (apply Rmult_le_pos; lra). lra. }
    assert (Hcase : In (gsel n) Gammas \/ gsel n = []).
    { unfold gsel. match goal with |- context [nth ?k Gammas []] => destruct (lt_dec k (length Gammas)) as [Hk|Hk] end.
      - left. now apply nth_In.
      - right. apply nth_overflow. lia. }
    destruct Hcase as [Hin|Hnil].
    - assert (Hrow : forall i, In (nth i (gsel n) []) (gsel n) \/ nth i (gsel n) [] = []).
      { intros i. destruct (lt_dec i (length (gsel n))); [left; now apply nth_In|right; apply nth_overflow; lia]. }
      split.
      + intros i j. split; [apply Hnn|]. unfold mget, vget. destruct (Hrow i) as [Hr|Hr]; [|rewrite Hr; destruct j; simpl; lra].
        destruct (lt_dec j (length (nth i (gsel n) []))) as [Hj|Hj]; [|rewrite nth_overflow by lia; lra].
        apply (proj2 (HG _ _ Hin Hr)). now apply nth_In.
      + intros i Hi. apply Rle_trans with (2 := Hp2). destruct (fa_Gshape _ _ _ _ Hargs _ Hin) as [HlG Hlr].
        assert (Hr : In (nth i (gsel n) []) (gsel n)) by (apply nth_In; fold M in HlG; lia).
        pose proof (proj1 (HG _ _ Hin Hr)) as Hs. rewrite lsum_nsum in Hs.
        replace (length (nth i (gsel n) [])) with M in Hs by (symmetry; apply Hlr, Hr). exact Hs.
    - rewrite Hnil. split.
      + intros i j. unfold mget, vget. destruct i, j; simpl; lra.
      + intros i _. rewrite nsum_zero; [pose proof (pk_ge 2); lra|]. intros j _. unfold mget, vget. destruct i, j; reflexivity. }
  assert (Hst : forall q, In q (combine (transpose log_lik N) (map gsel (seq 0 N))) ->
    Gok M (snd q) /\ forall x, In (Some x) (fst q) -> Rabs x <= pw 1022).
  { intros q Hq. unfold transpose in Hq. rewrite combine_map in Hq. apply in_map_seq in Hq as (n & Hn & ->). simpl.
    split; [apply HGok|]. intros x Hx. unfold column in Hx. apply in_map_iff in Hx as (row & Er & Hr).
    apply (Hll row x Hr). rewrite <- Er. apply nth_In. rewrite (fa_llshape _ _ _ _ Hargs row Hr). exact Hn. }
  assert (Hcap : lsum g <= cap M 0) by (pose proof (cap_ge M HM 0); lra).
  assert (Hgs : small M g).
  { split; [exact Gn|]. split; [exact Gl|]. apply Rle_trans with (1 := Hcap). apply (cap_60 M HM). simpl. lia. }
  destruct (forward_r_eq rd Hrd summ Hsum M HM bound _ Hb Hst g [] 0 Hgs Hcap) as [Ef Hf].
  { intros w []. }
  { unfold transpose. rewrite combine_map, map_length, seq_length. rewrite Nat.add_0_r. exact HN. }
  match goal with |- (match ?f with _ => _ end) = _ => replace f with
    (forward_f (fixsum summ) bound M (combine (transpose log_lik N) (map gsel (seq 0 N))) g []) by (symmetry; exact Ef) end.
  match goal with |- _ = (match ?f with _ => _ end) => change f with
    (forward_f (fixsum summ) bound M (combine (transpose log_lik N) (map gsel (seq 0 N))) g []) end.
  destruct (forward_f (fixsum summ) bound M (combine (transpose log_lik N) (map gsel (seq 0 N))) g []) as [[|aN earlier]|];
    [reflexivity| |reflexivity].
  specialize (Hf _ eq_refl).
  rewrite (normed_r_eq rd Hrd summ Hsum M HM aN) by (apply Hf; simpl; auto).
  unfold dbind at 1 3. f_equal. apply functional_extensionality. intros [o x]. destruct o as [s|]; [cbn [fst snd]|reflexivity].
  rewrite (backward_r_eq rd Hrd summ Hsum M HM); [reflexivity|].
  intros q Hq. destruct q as [v G]. simpl. split.
  - apply Hf. right. now apply in_combine_l in Hq.
  - apply in_combine_r in Hq. apply in_rev in Hq.
    assert (Hq' : In G (map gsel (seq 0 N))) by (destruct (map gsel (seq 0 N)); [destruct Hq|right; exact Hq]).
    apply in_map_iff in Hq' as (n & <- & _). apply HGok.
Qed.
