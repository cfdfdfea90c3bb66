(** Lemmas for C66: FFBS in double precision. *)
From Flocq Require Import Core.
From Verif Require Import S_ffbs_float L_ffbs.
Open Scope R_scope.

Notation pw := (bpow radix2).

(** ** Rounding *)
Global Instance prec53 : Prec_gt_0 53 := eq_refl.
Global Instance fexp_valid : Valid_exp (FLT_exp (-1074) 53) := FLT_exp_valid (-1074) 53.

Lemma rnd_le x y : x <= y -> rnd x <= rnd y.
Proof. intros; unfold rnd; apply round_le; auto with typeclass_instances. Qed.
Lemma rnd_0 : rnd 0 = 0.
Proof. unfold rnd; apply round_0; auto with typeclass_instances. Qed.
Lemma rnd_nonneg x : 0 <= x -> 0 <= rnd x.
Proof. intros; rewrite <- rnd_0; now apply rnd_le. Qed.
Lemma rnd_double x : is_double (rnd x).
Proof.
  unfold is_double, rnd. apply round_generic; auto with typeclass_instances.
  apply generic_format_round; auto with typeclass_instances.
Qed.
Lemma double_0 : is_double 0.
Proof. exact rnd_0. Qed.
Lemma rnd_F2R (m e : Z) : (Z.abs m < 2 ^ 53)%Z -> (-1074 <= e)%Z -> is_double (IZR m * pw e).
Proof.
  intros Hm He. unfold is_double, rnd. apply round_generic; auto with typeclass_instances.
  apply generic_format_FLT. exists (Float radix2 m e); simpl; auto.
Qed.
Lemma rnd_pw e : (-1074 <= e)%Z -> rnd (pw e) = pw e.
Proof. intros He. replace (pw e) with (IZR 1 * pw e) by lra. apply (rnd_F2R 1 e); simpl; lia. Qed.
Lemma rnd_IZR m : (Z.abs m < 2 ^ 53)%Z -> rnd (IZR m) = IZR m.
Proof. intros Hm. replace (IZR m) with (IZR m * pw 0) by (simpl; lra). apply rnd_F2R; [exact Hm|lia]. Qed.

Lemma double_ge x : is_double x -> 0 < x -> pw (-1074) <= x.
Proof.
  intros Hx Hp. apply (generic_format_ge_bpow radix2 (FLT_exp (-1074) 53)); [|exact Hp|].
  - intros e. unfold FLT_exp. lia.
  - rewrite <- Hx. unfold rnd. apply generic_format_round; auto with typeclass_instances.
Qed.

Lemma rnd_tiny x : 0 <= x -> x < pw (-1075) -> rnd x = 0.
Proof.
  intros H0 Hx. destruct (Req_dec x 0) as [->|Hn]; [exact rnd_0|].
  unfold rnd. apply (round_N_small_pos radix2 _ _ x (mag radix2 x)).
  - destruct (mag radix2 x) as [ex Hex]; simpl. specialize (Hex Hn).
    rewrite Rabs_pos_eq in Hex; lra.
  - assert ((mag radix2 x <= -1075)%Z).
    { apply mag_le_bpow; [exact Hn|]. rewrite Rabs_pos_eq; lra. }
    unfold FLT_exp. lia.
Qed.

(** one rounding costs at most a factor of two *)
Lemma rnd_up y e : 0 <= y -> y <= pw (e - 1) -> rnd y <= pw e.
Proof.
  intros H0 Hy. destruct (Z_le_dec (-1074) e) as [He|He].
  - rewrite <- rnd_pw by exact He. apply rnd_le.
    apply Rle_trans with (1 := Hy). apply bpow_le; lia.
  - rewrite rnd_tiny; [apply bpow_ge_0|exact H0|].
    apply Rle_lt_trans with (1 := Hy). apply bpow_lt; lia.
Qed.

Lemma rnd_low y e : (-1074 <= e)%Z -> pw e <= y -> pw e <= rnd y.
Proof. intros He Hy. rewrite <- (rnd_pw e) by exact He. now apply rnd_le. Qed.

(** ** Sums *)
Definition nn (l : list R) : Prop := forall x, In x l -> 0 <= x /\ is_double x.

Lemma nn_split l l1 l2 : Permutation l (l1 ++ l2) -> nn l -> nn l1 /\ nn l2.
Proof.
  intros Hp H. split; intros x Hx; apply H; apply (Permutation_in x (Permutation_sym Hp));
    apply in_or_app; auto.
Qed.

Lemma fl_sum_nn l s : fl_sum l s -> nn l -> 0 <= s /\ is_double s.
Proof.
  induction 1 as [|x|l1 l2 l s1 s2 _ IH1 _ IH2 Hp]; intros Hn.
  - split; [lra|exact double_0].
  - apply Hn; simpl; auto.
  - destruct (nn_split _ _ _ Hp Hn) as [Hn1 Hn2].
    destruct (IH1 Hn1), (IH2 Hn2). split; [apply rnd_nonneg; lra|apply rnd_double].
Qed.

Lemma fl_sum_ge l s x : fl_sum l s -> nn l -> In x l -> x <= s.
Proof.
  induction 1 as [|y|l1 l2 l s1 s2 H1 IH1 H2 IH2 Hp]; intros Hn Hx.
  - destruct Hx.
  - destruct Hx as [->|[]]; lra.
  - destruct (nn_split _ _ _ Hp Hn) as [Hn1 Hn2].
    destruct (fl_sum_nn _ _ H1 Hn1) as [P1 D1]. destruct (fl_sum_nn _ _ H2 Hn2) as [P2 D2].
    apply (Permutation_in x Hp) in Hx. apply in_app_or in Hx as [Hx|Hx].
    + apply Rle_trans with s1; [auto|]. apply Rle_trans with (rnd s1); [rewrite D1; lra|apply rnd_le; lra].
    + apply Rle_trans with s2; [auto|]. apply Rle_trans with (rnd s2); [rewrite D2; lra|apply rnd_le; lra].
Qed.

Lemma fl_sum_zero l s : fl_sum l s -> (forall x, In x l -> x = 0) -> s = 0.
Proof.
  induction 1 as [|y|l1 l2 l s1 s2 H1 IH1 H2 IH2 Hp]; intros Hz.
  - reflexivity.
  - apply Hz; simpl; auto.
  - rewrite IH1, IH2.
    + rewrite Rplus_0_r. exact rnd_0.
    + intros x Hx; apply Hz, (Permutation_in x (Permutation_sym Hp)), in_or_app; auto.
    + intros x Hx; apply Hz, (Permutation_in x (Permutation_sym Hp)), in_or_app; auto.
Qed.

Lemma fl_sum_le l s k : fl_sum l s -> nn l -> (forall x, In x l -> x <= pw k) ->
  (Z.of_nat (length l) < 2 ^ 53)%Z -> s <= INR (length l) * pw k.
Proof.
  intros Hs Hn Hk Hl. destruct (Z_le_dec (-1074) k) as [He|He].
  - induction Hs as [|y|l1 l2 l s1 s2 H1 IH1 H2 IH2 Hp].
    + simpl; lra.
    + simpl. assert (y <= pw k) by (apply Hk; simpl; auto). lra.
    + destruct (nn_split _ _ _ Hp Hn) as [Hn1 Hn2].
      assert (Hlen : length l = (length l1 + length l2)%nat)
        by (rewrite (Permutation_length Hp); apply app_length).
      assert (A1 : s1 <= INR (length l1) * pw k).
      { apply IH1; [exact Hn1| |lia]. intros x Hx; apply Hk, (Permutation_in x (Permutation_sym Hp)), in_or_app; auto. }
      assert (A2 : s2 <= INR (length l2) * pw k).
      { apply IH2; [exact Hn2| |lia]. intros x Hx; apply Hk, (Permutation_in x (Permutation_sym Hp)), in_or_app; auto. }
      assert (D : is_double (INR (length l) * pw k)).
      { rewrite INR_IZR_INZ. apply rnd_F2R; [|exact He]. rewrite Z.abs_eq; lia. }
      rewrite <- D. apply rnd_le. rewrite Hlen, plus_INR. lra.
  - rewrite (fl_sum_zero _ _ Hs).
    + apply Rmult_le_pos; [apply pos_INR|apply bpow_ge_0].
    + intros x Hx. destruct (Hn x Hx) as [H0 Hd]. destruct (Req_dec x 0) as [|Hne]; [assumption|].
      exfalso. assert (pw (-1074) <= x) by (apply double_ge; [exact Hd|lra]).
      assert (x <= pw k) by auto. assert (pw k < pw (-1074)) by (apply bpow_lt; lia). lra.
Qed.

(** ** Draws that cannot fail *)
Definition safe {A} (d : fdist A) : Prop := forall w, In (None, w) d -> w = 0.

Lemma safe_dprob {A} (d : fdist A) : safe d -> dprob d is_failure = 0.
Proof.
  induction d as [|[[x|] w] d IH]; intros H; simpl; [reflexivity| |].
  - rewrite IH; [lra|]. intros w' Hw; apply H; simpl; auto.
  - rewrite IH; [|intros w' Hw; apply H; simpl; auto]. rewrite (H w); [lra|]. simpl; auto.
Qed.

Lemma safe_dret {A} (x : A) : safe (dret x).
Proof. intros w [H|[]]; discriminate. Qed.

Lemma safe_dcat p : safe (dcat p).
Proof. intros w H. unfold dcat in H. apply in_map_iff in H as (q & Hq & _). discriminate. Qed.

Lemma safe_dbind {A B} (d : fdist A) (f : A -> fdist B) : safe d ->
  (forall x w, In (Some x, w) d -> w <> 0 -> safe (f x)) -> safe (dbind d f).
Proof.
  intros Hd Hf w H. unfold dbind in H. apply in_flat_map in H as ([o v] & Hin & H).
  unfold dscale in H. apply in_map_iff in H as ([o' v'] & Heq & H). simpl in *.
  injection Heq as -> <-. destruct (Req_dec v 0) as [->|Hv]; [lra|].
  destruct o as [x|].
  - rewrite (Hf x v Hin Hv v' H); lra.
  - rewrite (Hd v Hin); lra.
Qed.

Lemma in_dcat_nth p s w : In (Some s, w) (dcat p) -> (s < length p)%nat /\ w = nth s p 0.
Proof.
  unfold dcat. intros H. apply in_map_iff in H as ([i v] & Heq & H). simpl in Heq. injection Heq as <- <-.
  apply In_nth with (d := (O, 0)) in H as (n & Hn & H).
  rewrite combine_length, seq_length, Nat.min_id in Hn.
  rewrite combine_nth in H by apply seq_length. injection H as H1 H2.
  rewrite seq_nth in H1 by exact Hn. simpl in H1. subst i. auto.
Qed.

Lemma in_map_seq {A} (f : nat -> A) M x : In x (map f (seq 0 M)) <-> exists i, (i < M)%nat /\ x = f i.
Proof.
  rewrite in_map_iff. split.
  - intros (i & <- & Hi). apply in_seq in Hi. exists i; split; [lia|reflexivity].
  - intros (i & Hi & ->). exists i; split; [reflexivity|]. apply in_seq; lia.
Qed.

Lemma vget_out v i : (length v <= i)%nat -> vget v i = 0.
Proof. intros; unfold vget; now apply nth_overflow. Qed.

Lemma nn_vget v i : nn v -> 0 <= vget v i /\ is_double (vget v i).
Proof.
  intros H. destruct (lt_dec i (length v)) as [Hi|Hi].
  - apply H. unfold vget. now apply nth_In.
  - rewrite vget_out by lia. split; [lra|exact double_0].
Qed.

Section float.
  Context (summ : list R -> R) (Hsum : sum_ok summ).

  Lemma summ_nn l : nn l -> 0 <= summ l /\ is_double (summ l).
  Proof. apply fl_sum_nn, Hsum. Qed.
  Lemma summ_ge l x : nn l -> In x l -> x <= summ l.
  Proof. apply fl_sum_ge, Hsum. Qed.
  Lemma summ_zero l : (forall x, In x l -> x = 0) -> summ l = 0.
  Proof. apply fl_sum_zero, Hsum. Qed.

  Lemma summ_nonzero l : summ l <> 0 -> exists x, In x l /\ x <> 0.
  Proof.
    intros H. destruct (Exists_dec (fun x => x <> 0) l) as [He|He].
    - intros x. destruct (Req_EM_T x 0); [right|left]; auto.
    - apply Exists_exists in He. exact He.
    - exfalso. apply H, summ_zero. intros x Hx. destruct (Req_EM_T x 0) as [|Hn]; [assumption|].
      exfalso; apply He, Exists_exists; eauto.
  Qed.

  Lemma summ_pos l x : nn l -> In x l -> x <> 0 -> summ l <> 0.
  Proof.
    intros Hn Hx Hx0. assert (x <= summ l) by now apply summ_ge.
    destruct (Hn x Hx). lra.
  Qed.

  Lemma safe_normed w : summ w <> 0 -> safe (normed_categorical_f summ w).
  Proof.
    intros H. unfold normed_categorical_f. destruct (Req_EM_T (summ w) 0); [contradiction|]. apply safe_dcat.
  Qed.

  Lemma normed_drawn w s v : In (Some s, v) (normed_categorical_f summ w) -> v <> 0 ->
    (s < length w)%nat /\ vget w s <> 0.
  Proof.
    unfold normed_categorical_f. destruct (Req_EM_T (summ w) 0); [intros [H|[]]; discriminate|].
    intros H Hv. apply in_dcat_nth in H as [Hs ->]. rewrite map_length in Hs. split; [exact Hs|].
    intros H0. apply Hv.
    rewrite (nth_indep _ 0 (rnd (0 / summ w))) by (rewrite map_length; exact Hs).
    rewrite (map_nth (fun x => rnd (x / summ w))). unfold vget in H0. rewrite H0.
    unfold Rdiv. rewrite Rmult_0_l. exact rnd_0.
  Qed.

  (** [a'] follows [a] through [G]: where [a'] is not zero, some product in the sum is not *)
  Definition link (M : nat) (a : vec) (G : mat) (a' : vec) : Prop :=
    forall s, vget a' s <> 0 -> exists i, (i < M)%nat /\ rnd (vget a i * mget G i s) <> 0.

  Fixpoint good (M : nat) (l : list vec) (gs : list mat) : Prop :=
    match l, gs with
    | [], _ => True
    | a :: l', G :: gs' =>
        nn a /\ (match l' with [] => True | a' :: _ => link M a' G a end) /\ good M l' gs'
    | _, [] => False
    end.

  Definition Gnn (G : mat) : Prop := forall i j, 0 <= mget G i j.

  Lemma flik_nn ll l : flik ll = Some l -> nn l.
  Proof.
    unfold flik. destruct (lmax ll); [|discriminate]. intros H; injection H as <-.
    intros x Hx. apply in_map_iff in Hx as ([a|] & <- & _).
    - split; [apply rnd_nonneg, Rlt_le, exp_pos|apply rnd_double].
    - split; [lra|exact double_0].
  Qed.

  Lemma prods_nn M a G j : nn a -> Gnn G -> nn (map (fun i => rnd (vget a i * mget G i j)) (seq 0 M)).
  Proof.
    intros Ha HG x Hx. apply in_map_seq in Hx as (i & _ & ->).
    split; [|apply rnd_double]. apply rnd_nonneg, Rmult_le_pos; [now apply nn_vget|apply HG].
  Qed.

  Lemma fdot_get M a G j : (j < M)%nat ->
    vget (fdot summ M a G) j = summ (map (fun i => rnd (vget a i * mget G i j)) (seq 0 M)).
  Proof. intros Hj. unfold fdot. apply (vget_seq M (fun j => summ (map (fun i => rnd (vget a i * mget G i j)) (seq 0 M)))); exact Hj. Qed.

  Lemma fmul_get M a b j : (j < M)%nat -> vget (fmul M a b) j = rnd (vget a j * vget b j).
  Proof. intros Hj. unfold fmul. apply (vget_seq M (fun i => rnd (vget a i * vget b i))); exact Hj. Qed.

  Lemma fdot_nn M a G : nn a -> Gnn G -> nn (fdot summ M a G).
  Proof.
    intros Ha HG x Hx. unfold fdot in Hx. apply in_map_seq in Hx as (j & _ & ->).
    apply summ_nn, prods_nn; assumption.
  Qed.

  Lemma fmul_nn M a b : nn a -> nn b -> nn (fmul M a b).
  Proof.
    intros Ha Hb x Hx. unfold fmul in Hx. apply in_map_seq in Hx as (j & _ & ->).
    split; [|apply rnd_double]. apply rnd_nonneg, Rmult_le_pos; now apply nn_vget.
  Qed.

  Lemma scaled_nn v b : nn v -> 0 < b -> nn (map (fun x => rnd (x / b)) v).
  Proof.
    intros Hv Hb x Hx. apply in_map_iff in Hx as (y & <- & Hy). destruct (Hv y Hy) as [H0 _].
    split; [|apply rnd_double]. apply rnd_nonneg. apply Rmult_le_pos; [exact H0|].
    left. now apply Rinv_0_lt_compat.
  Qed.

  Lemma scaled_get v b s : vget (map (fun x => rnd (x / b)) v) s = rnd (vget v s / b).
  Proof.
    unfold vget. rewrite <- (map_nth (fun x => rnd (x / b))). f_equal.
    unfold Rdiv. rewrite Rmult_0_l. symmetry; exact rnd_0.
  Qed.

  Lemma forward_step_link bound M ll G a a' : 0 < bound -> nn a -> Gnn G ->
    forward_step_f summ bound M ll G a = Some a' ->
    nn a' /\ length a' = M /\ link M a G a'.
  Proof.
    intros Hb Ha HG. unfold forward_step_f. destruct (flik ll) as [lk|] eqn:El; [|discriminate].
    pose proof (flik_nn _ _ El) as Hlk. intros H; injection H as <-.
    set (v := fmul M (fdot summ M a G) lk).
    assert (Hv : nn v) by (apply fmul_nn; [apply fdot_nn|]; assumption).
    assert (Hlen : length v = M) by (unfold v, fmul; now rewrite map_length, seq_length).
    assert (Hl : link M a G v).
    { intros s Hs. destruct (lt_dec s M) as [Hs'|Hs']; [|exfalso; apply Hs, vget_out; lia].
      unfold v in Hs. rewrite fmul_get in Hs by exact Hs'. rewrite fdot_get in Hs by exact Hs'.
      destruct (summ_nonzero (map (fun i => rnd (vget a i * mget G i s)) (seq 0 M))) as (x & Hx & Hx0).
      { intros H0. apply Hs. rewrite H0, Rmult_0_l. exact rnd_0. }
      apply in_map_seq in Hx as (i & Hi & ->). exists i; auto. }
    destruct (Rlt_dec (summ v) bound).
    - split; [apply scaled_nn; assumption|]. split; [rewrite map_length; exact Hlen|].
      intros s Hs. apply Hl. intros H0. apply Hs. rewrite scaled_get, H0.
      unfold Rdiv. rewrite Rmult_0_l. exact rnd_0.
    - auto.
  Qed.

  Lemma forward_good bound M steps : 0 < bound -> (forall p, In p steps -> Gnn (snd p)) ->
    forall alpha acc gs l, nn alpha -> good M acc gs -> (acc = [] \/ exists t, acc = alpha :: t) ->
    forward_f summ bound M steps alpha acc = Some l ->
    good M l (rev (map snd steps) ++ gs).
  Proof.
    intros Hb. induction steps as [|[ll G] steps IH]; intros HG alpha acc gs l Ha Hacc Hhd H; simpl in *.
    - injection H as <-. exact Hacc.
    - destruct (forward_step_f summ bound M ll G alpha) as [a|] eqn:Ea; [|discriminate].
      destruct (forward_step_link _ _ _ _ _ _ Hb Ha (HG (ll, G) (or_introl eq_refl)) Ea) as (Hna & _ & Hlk).
      rewrite <- app_assoc. apply (IH (fun p Hp => HG p (or_intror Hp)) a (a :: acc) (G :: gs) l Hna).
      + simpl. split; [exact Hna|]. split; [|exact Hacc].
        destruct Hhd as [->|(t & ->)]; [exact I|exact Hlk].
      + right; eauto.
      + exact H.
  Qed.

  Lemma backward_safe M : forall earlier gs a s, (forall G, In G gs -> Gnn G) ->
    good M (a :: earlier) gs -> vget a s <> 0 -> safe (backward_f summ M (combine earlier gs) s).
  Proof.
    induction earlier as [|a1 earlier IH]; intros gs a s HG Hg Hs; simpl.
    - apply safe_dret.
    - destruct gs as [|G gs]; [destruct Hg|]. simpl. destruct Hg as (Hna & Hlk & Hg).
      destruct gs as [|G' gs']; [destruct Hg|].
      pose proof Hg as (Hna1 & _).
      set (w := fmul M a1 (map (fun i => mget G i s) (seq 0 M))).
      assert (Hcol : forall i, (i < M)%nat -> vget (map (fun i => mget G i s) (seq 0 M)) i = mget G i s)
        by (intros i Hi; apply (vget_seq M (fun i => mget G i s)); exact Hi).
      assert (Hw : nn w).
      { intros x Hx. unfold w, fmul in Hx. apply in_map_seq in Hx as (i & Hi & ->).
        split; [|apply rnd_double]. apply rnd_nonneg, Rmult_le_pos; [now apply nn_vget|].
        rewrite Hcol by exact Hi. apply HG; simpl; auto. }
      assert (Hne : summ w <> 0).
      { destruct (Hlk s Hs) as (i & Hi & Hne). apply (summ_pos w (rnd (vget a1 i * mget G i s)) Hw); [|exact Hne].
        unfold w, fmul. apply in_map_seq. exists i. split; [exact Hi|]. now rewrite Hcol. }
      apply safe_dbind; [apply safe_normed; exact Hne|].
      intros s' v Hin Hv. destruct (normed_drawn _ _ _ Hin Hv) as [Hs' Hw'].
      apply safe_dbind; [|intros; apply safe_dret].
      apply (IH (G' :: gs') a1 s'); [intros G0 HG0; apply HG; simpl in *; tauto|exact Hg|].
      intros H0. apply Hw'. fold w. unfold w. rewrite fmul_get.
      + rewrite H0, Rmult_0_l. exact rnd_0.
      + fold w in Hs'. unfold w, fmul in Hs'. now rewrite map_length, seq_length in Hs'.
  Qed.
End float.

(** ** Enough weight is left at every step *)
Lemma half_pw n : (1 / 2) ^ n = pw (- Z.of_nat n).
Proof.
  replace (1 / 2) with (/ 2) by lra. rewrite pow_inv.
  rewrite bpow_opp. f_equal.
  induction n as [|n IH]; [reflexivity|].
  rewrite Nat2Z.inj_succ. unfold Z.succ. rewrite bpow_plus, <- IH. simpl. lra.
Qed.

Lemma exp_le_pw (c l : nat) : (3 * c <= 2 * l)%nat -> pw (- Z.of_nat l) <= exp (- INR c).
Proof.
  intros H. rewrite <- half_pw.
  assert (E16 : exp (/ 16) <= 16 / 15).
  { assert (1 + - / 16 <= exp (- / 16)).
    { destruct (Req_dec (- / 16) 0); [lra|]. left. now apply exp_ineq1. }
    rewrite exp_Ropp in H0. pose proof (exp_pos (/ 16)) as P.
    assert (15 / 16 * exp (/ 16) <= / exp (/ 16) * exp (/ 16)) by (apply Rmult_le_compat_r; lra).
    rewrite Rinv_l in H1 by lra. lra. }
  assert (E2 : exp 2 <= 8).
  { replace 2 with (INR 32 * / 16) by (simpl; lra).
    assert (G : forall n, exp (INR n * / 16) = exp (/ 16) ^ n).
    { induction n as [|n IH]; [simpl; rewrite Rmult_0_l; apply exp_0|].
      rewrite S_INR, Rmult_plus_distr_r, Rmult_1_l, exp_plus, IH. simpl; ring. }
    rewrite G. apply Rle_trans with ((16 / 15) ^ 32); [|lra].
    apply pow_incr. split; [left; apply exp_pos|exact E16]. }
  assert (E2n : exp (INR c) ^ 2 <= 8 ^ c).
  { replace (exp (INR c) ^ 2) with (exp 2 ^ c).
    - apply pow_incr. split; [left; apply exp_pos|exact E2].
    - clear. induction c as [|c IH]; [simpl; rewrite exp_0; ring|].
      rewrite S_INR, exp_plus. simpl in *. rewrite IH.
      replace 2 with (1 + 1) by ring. rewrite exp_plus. ring. }
  assert (E8 : 8 ^ c <= (2 ^ l) ^ 2).
  { replace 8 with (2 ^ 3) by ring. rewrite <- !pow_mult. apply Rle_pow; [lra|lia]. }
  assert (Ec : exp (INR c) <= 2 ^ l).
  { apply Rsqr_incr_0_var; [|left; apply pow_lt; lra]. unfold Rsqr. simpl in *. lra. }
  rewrite exp_Ropp. replace (1 / 2) with (/ 2) by lra. rewrite pow_inv.
  apply Rinv_le_contravar; [apply exp_pos|exact Ec].
Qed.

Lemma lmax_in ll m : lmax ll = Some m -> exists k, nth k ll None = Some m.
Proof.
  revert m. induction ll as [|x ll IH]; intros m H; simpl in H; [discriminate|].
  destruct x as [a|].
  - destruct (lmax ll) as [b|]; simpl in H; injection H as <-.
    + unfold Rmax. destruct (Rle_dec a b); [|exists 0%nat; reflexivity].
      destruct (IH b eq_refl) as (k & Hk). exists (S k); exact Hk.
    + exists 0%nat; reflexivity.
  - simpl in H. destruct (IH m H) as (k & Hk). exists (S k); exact Hk.
Qed.

Lemma lmax_some ll j y : nth j ll None = Some y -> exists m, lmax ll = Some m.
Proof.
  revert j. induction ll as [|x ll IH]; intros j H; [destruct j; discriminate|].
  simpl. destruct j as [|j]; simpl in H.
  - subst x. destruct (lmax ll); simpl; eauto.
  - destruct (IH j H) as (m & ->). destruct x; simpl; eauto.
Qed.

  Lemma flik_low ll j y c l : (3 * c <= 2 * l)%nat -> (l <= 500)%nat -> nth j ll None = Some y ->
    (forall k x, nth k ll None = Some x -> x - INR c <= y) ->
    exists lk, flik ll = Some lk /\ pw (- Z.of_nat l) <= vget lk j.
  Proof.
    intros Hc Hl Hy Hx. destruct (lmax_some _ _ _ Hy) as (m & Hm). unfold flik. rewrite Hm.
    eexists; split; [reflexivity|]. unfold vget.
    pose (f := fun x => match x with Some a => rnd (exp (rnd (a - m))) | None => 0 end).
    change (pw (- Z.of_nat l) <= nth j (map f ll) (f None)). rewrite map_nth, Hy. unfold f.
    destruct (lmax_in _ _ Hm) as (k & Hk). specialize (Hx k m Hk).
    apply rnd_low; [lia|]. apply Rle_trans with (1 := exp_le_pw c l Hc).
    assert (Hr : - INR c <= rnd (y - m)).
    { rewrite INR_IZR_INZ, <- opp_IZR. rewrite <- rnd_IZR by lia. apply rnd_le.
      rewrite opp_IZR, <- INR_IZR_INZ. lra. }
    destruct (Rle_lt_or_eq_dec _ _ Hr) as [Hlt|<-]; [|lra]. left. now apply exp_increasing.
  Qed.

Section weight.
  Context (summ : list R -> R) (Hsum : sum_ok summ).
  Context (beta M : nat) (bound : R).
  Context (Hbeta : (beta <= 500)%nat) (HM : (Z.of_nat M < 2 ^ 53)%Z).
  Context (Hb1 : pw (- Z.of_nat (S beta)) <= bound) (Hb2 : bound <= pw (- Z.of_nat beta)).

  Let T : Z := (Z.of_nat beta + 55)%Z.

  Definition heavy (a : vec) : Prop := exists m, (m < M)%nat /\ pw (- T) <= vget a m.

  Lemma bound_pos : 0 < bound.
  Proof using Hb1. apply Rlt_le_trans with (2 := Hb1). apply bpow_gt_0. Qed.

  Lemma forward_step_heavy ll G a : nn a -> Gnn G -> can_go_on beta M ll G -> heavy a ->
    exists a', forward_step_f summ bound M ll G a = Some a' /\ heavy a'.
  Proof using Hsum Hbeta HM Hb1 Hb2.
    intros Ha HG Hgo (m & Hm & Hw).
    destruct (Hgo m Hm) as (j & y & e & c & Hj & Hy & He & Hx & Hec).
    destruct (flik_low ll j y c (beta - e)%nat) as (lk & Hlk & Hlj); [lia|lia|exact Hy|exact Hx|].
    pose proof (flik_nn _ _ Hlk) as Hlkn.
    unfold forward_step_f. rewrite Hlk. eexists; split; [reflexivity|].
    set (v := fmul M (fdot summ M a G) lk).
    assert (Hv : nn v) by (apply fmul_nn; [apply fdot_nn|]; assumption).
    assert (Hlen : length v = M) by (unfold v, fmul; now rewrite map_length, seq_length).
    rewrite half_pw in He.
    assert (Hd : pw (- T - Z.of_nat e) <= vget (fdot summ M a G) j).
    { rewrite fdot_get by exact Hj.
      apply Rle_trans with (rnd (vget a m * mget G m j)).
      - apply rnd_low; [unfold T; lia|]. replace (- T - Z.of_nat e)%Z with (- T + - Z.of_nat e)%Z by lia.
        rewrite bpow_plus. apply Rmult_le_compat; auto using bpow_ge_0.
      - apply summ_ge; [exact Hsum|apply prods_nn; assumption|]. apply in_map_seq. exists m; auto. }
    assert (Hvj : pw (- T - Z.of_nat beta) <= vget v j).
    { unfold v. rewrite fmul_get by exact Hj. apply rnd_low; [unfold T; lia|].
      replace (- T - Z.of_nat beta)%Z with ((- T - Z.of_nat e) + - Z.of_nat (beta - e))%Z by lia.
      rewrite bpow_plus. apply Rmult_le_compat; auto using bpow_ge_0. }
    pose proof bound_pos as Hb.
    destruct (Rlt_dec (summ v) bound) as [Hs|Hs].
    - exists j. split; [exact Hj|]. rewrite scaled_get. apply rnd_low; [unfold T; lia|].
      apply Rmult_le_reg_r with bound; [exact Hb|].
      unfold Rdiv. rewrite Rmult_assoc, Rinv_l, Rmult_1_r by lra.
      apply Rle_trans with (2 := Hvj). unfold Z.sub. rewrite bpow_plus.
      apply Rmult_le_compat_l; [apply bpow_ge_0|exact Hb2].
    - destruct (Exists_dec (fun x => pw (- T) <= x) v) as [Hex|Hex].
      + intros x. destruct (Rle_dec (pw (- T)) x); auto.
      + apply Exists_exists in Hex as (x & Hx' & Hxw). apply In_nth with (d := 0) in Hx' as (i & Hi & <-).
        exists i. split; [lia|exact Hxw].
      + exfalso. apply Hs.
        assert (Hle : summ v <= INR (length v) * pw (- T)).
        { apply fl_sum_le; [apply Hsum|exact Hv| |rewrite Hlen; exact HM].
          intros x Hx'. destruct (Rle_dec x (pw (- T))) as [|Hn]; [assumption|].
          exfalso; apply Hex, Exists_exists. exists x. split; [exact Hx'|lra]. }
        apply Rle_lt_trans with (1 := Hle). apply Rlt_le_trans with (2 := Hb1).
        rewrite Hlen, INR_IZR_INZ.
        replace (- Z.of_nat (S beta))%Z with (54 + - T)%Z by (unfold T; lia).
        rewrite bpow_plus. apply Rmult_lt_compat_r; [apply bpow_gt_0|].
        apply Rlt_trans with (IZR (2 ^ 53)); [now apply IZR_lt|].
        change (pw 54) with (IZR (2 ^ 54)). apply IZR_lt. lia.
  Qed.

  Lemma forward_heavy steps : (forall p, In p steps -> Gnn (snd p) /\ can_go_on beta M (fst p) (snd p)) ->
    forall alpha acc, nn alpha -> heavy alpha -> (acc = [] \/ exists t, acc = alpha :: t) ->
    exists l, forward_f summ bound M steps alpha acc = Some l /\
      length l = (length steps + length acc)%nat /\
      (forall a t, l = a :: t -> heavy a).
  Proof using Hsum Hbeta HM Hb1 Hb2.
    induction steps as [|[ll G] steps IH]; intros Hst alpha acc Ha Hw Hacc; simpl.
    - exists acc. repeat split. intros a t ->. destruct Hacc as [|(t' & Ht)]; [discriminate|].
      injection Ht as -> _. exact Hw.
    - destruct (Hst (ll, G) (or_introl eq_refl)) as [HG Hgo]. simpl in HG, Hgo.
      destruct (forward_step_heavy ll G alpha Ha HG Hgo Hw) as (a' & Ea & Hw').
      rewrite Ea. destruct (forward_step_link summ Hsum bound M ll G alpha a' bound_pos Ha HG Ea) as (Hna & _).
      destruct (IH (fun p Hp => Hst p (or_intror Hp)) a' (a' :: acc) Hna Hw') as (l & El & Hll & Hl).
      + right; eauto.
      + exists l. split; [exact El|]. split; [rewrite Hll; simpl; lia|exact Hl].
  Qed.
End weight.

Lemma double_between x : is_double x -> 0 < x -> exists k, (-1074 <= k)%Z /\ pw k <= x <= pw (k + 1).
Proof.
  intros Hd Hx. exists (mag radix2 x - 1)%Z. pose proof (double_ge x Hd Hx) as Hge.
  destruct (mag radix2 x) as [e He]; simpl. specialize (He ltac:(lra)). rewrite Rabs_pos_eq in He by lra.
  assert (-1074 < e)%Z by (apply (lt_bpow radix2); lra).
  split; [lia|]. replace (e - 1 + 1)%Z with e by lia. lra.
Qed.

(** the largest entry *)
Lemma largest l : l <> [] -> exists x : R, In x l /\ forall y, In y l -> y <= x.
Proof.
  induction l as [|a l IH]; [congruence|]. intros _. destruct l as [|b l].
  - exists a. split; [simpl; auto|]. intros y [->|[]]; lra.
  - destruct IH as (x & Hx & Hm); [discriminate|]. destruct (Rle_dec a x).
    + exists x. split; [right; exact Hx|]. intros y [->|Hy]; auto.
    + exists a. split; [left; reflexivity|]. intros y [->|Hy]; [lra|]. specialize (Hm y Hy). lra.
Qed.

Lemma start_heavy summ beta g : sum_ok summ -> nn g -> (Z.of_nat (length g) < 2 ^ 53)%Z ->
  (exists x, In x g /\ 0 < x) ->
  0 < summ g /\ heavy beta (length g) (map (fun x => rnd (x / summ g)) g).
Proof.
  intros Hsum Hg HM (x0 & Hx0 & Hp0). destruct (largest g) as (x & Hx & Hmax); [intros ->; destruct Hx0|].
  assert (Hp : 0 < x) by (specialize (Hmax x0 Hx0); lra).
  destruct (Hg x Hx) as [_ Hd]. destruct (double_between x Hd Hp) as (k & Hk & Hlo & Hhi).
  assert (Hge : x <= summ g) by now apply summ_ge. split; [lra|].
  assert (Hle : summ g <= INR (length g) * pw (k + 1)).
  { apply fl_sum_le; [apply Hsum|exact Hg| |exact HM]. intros y Hy. specialize (Hmax y Hy). lra. }
  apply In_nth with (d := 0) in Hx as (i & Hi & Ei). exists i. split; [exact Hi|].
  rewrite scaled_get. unfold vget. rewrite Ei.
  apply Rle_trans with (pw (-54)); [apply bpow_le; lia|].
  apply rnd_low; [lia|]. apply Rmult_le_reg_r with (summ g); [lra|].
  unfold Rdiv. rewrite Rmult_assoc, Rinv_l, Rmult_1_r by lra.
  apply Rle_trans with (2 := Hlo).
  apply Rle_trans with (pw (-54) * (pw 53 * pw (k + 1))).
  - apply Rmult_le_compat_l; [apply bpow_ge_0|]. apply Rle_trans with (1 := Hle).
    apply Rmult_le_compat_r; [apply bpow_ge_0|]. rewrite INR_IZR_INZ.
    change (pw 53) with (IZR (2 ^ 53)). apply IZR_le. lia.
  - rewrite <- !bpow_plus. apply bpow_le. lia.
Qed.

Lemma heavy_sum summ beta M a : sum_ok summ -> nn a -> length a = M -> heavy beta M a -> summ a <> 0.
Proof.
  intros Hsum Ha Hl (m & Hm & Hw). apply (summ_pos summ Hsum a (vget a m) Ha).
  - unfold vget. apply nth_In. lia.
  - assert (0 < pw (- (Z.of_nat beta + 55))) by apply bpow_gt_0. lra.
Qed.

Lemma combine_trunc {A B} (l : list A) (l1 l2 : list B) : (length l <= length l1)%nat ->
  combine l (l1 ++ l2) = combine l l1.
Proof.
  revert l1. induction l as [|a l IH]; intros [|b l1] H; simpl in *; try lia; [destruct l2; reflexivity|reflexivity|].
  f_equal. apply IH. lia.
Qed.

Lemma ffbs_float_safe summ beta gamma_0 Gammas log_lik N bound :
  sum_ok summ -> (beta <= 500)%nat -> (1 / 2) ^ S beta <= bound <= (1 / 2) ^ beta ->
  ffbs_args gamma_0 Gammas log_lik N -> (Z.of_nat (length gamma_0) < 2 ^ 53)%Z ->
  (forall x, In x gamma_0 -> is_double x) -> (exists x, In x gamma_0 /\ 0 < x) ->
  (forall n, (n < N)%nat -> can_go_on beta (length gamma_0) (column log_lik n)
     (nth (if Nat.eqb (length Gammas) 1 then 0%nat else n) Gammas [])) ->
  dprob (ffbs_step_f summ gamma_0 Gammas log_lik N bound) is_failure = 0.
Proof.
  intros Hsum Hbeta [Hb1 Hb2] Hargs HM Hdbl Hpos Hgo. rewrite half_pw in Hb1, Hb2.
  apply safe_dprob. unfold ffbs_step_f.
  assert (Hg : nn gamma_0) by (intros x Hx; split; [apply (fa_g0 _ _ _ _ Hargs x Hx)|auto]).
  destruct (start_heavy summ beta gamma_0 Hsum Hg HM Hpos) as [Ht Hh].
  destruct (Req_EM_T (summ gamma_0) 0) as [E|_]; [lra|].
  rewrite (broadcast_spec _ _ _ _ Hargs).
  set (gsel := fun n => nth (if Nat.eqb (length Gammas) 1 then 0%nat else n) Gammas []) in *.
  set (M := length gamma_0) in *. unfold transpose. rewrite combine_map.
  set (steps := map (fun n => (column log_lik n, gsel n)) (seq 0 N)).
  assert (Hst : forall p, In p steps -> Gnn (snd p) /\ can_go_on beta M (fst p) (snd p)).
  { intros p Hp. unfold steps in Hp. apply in_map_seq in Hp as (n & Hn & ->). simpl. split.
    - intros i j. apply (gsel_nonneg _ _ _ _ Hargs n i j).
    - apply (Hgo n Hn). }
  assert (Hbp := bound_pos beta bound Hb1).
  set (g := map (fun x => rnd (x / summ gamma_0)) gamma_0) in *.
  assert (Hgn : nn g) by (apply scaled_nn; assumption).
  destruct (forward_heavy summ Hsum beta M bound Hbeta HM Hb1 Hb2 steps Hst g [] Hgn Hh (or_introl eq_refl))
    as (l & El & Hlen & Hl).
  match goal with |- safe (match ?f with _ => _ end) => replace f with (Some l) by (symmetry; exact El) end.
  pose proof (forward_good summ Hsum bound M steps Hbp (fun p Hp => proj1 (Hst p Hp)) g [] [] l Hgn I (or_introl eq_refl) El) as Hgood.
  rewrite app_nil_r in Hgood.
  replace (map snd steps) with (map gsel (seq 0 N)) in Hgood by (unfold steps; now rewrite map_map).
  assert (HlN : length l = N) by (rewrite Hlen; unfold steps; rewrite map_length, seq_length; simpl; lia).
  destruct l as [|aN earlier]; [pose proof (fa_N _ _ _ _ Hargs); simpl in HlN; lia|].
  destruct N as [|N']; [discriminate|]. simpl in HlN. injection HlN as HlN.
  simpl seq in *. simpl map in *. simpl tl. simpl rev in Hgood.
  assert (HaN : nn aN) by (destruct (rev (map gsel (seq 1 N')) ++ [gsel 0%nat]) in Hgood; [destruct Hgood|apply Hgood]).
  assert (HaNl : length aN = M).
  { clear -El. revert El. generalize (@nil vec). generalize g.
    assert (Hgen : forall steps g acc, steps <> [] \/ (forall a t, acc = a :: t -> length a = M) ->
      forward_f summ bound M steps g acc = Some (aN :: earlier) -> length aN = M).
    { clear. induction steps as [|[ll G] steps IH]; intros g acc Hacc H; simpl in H.
      - injection H as ->. destruct Hacc as [Hc|Hc]; [congruence|]. eapply Hc; reflexivity.
      - destruct (forward_step_f summ bound M ll G g) as [a|] eqn:Ea; [|discriminate].
        apply (IH a (a :: acc)); [|exact H]. right. intros a0 t Heq. injection Heq as <- <-.
        revert Ea. unfold forward_step_f. destruct (flik ll); [|discriminate]. intros Heq; injection Heq as <-.
        destruct (Rlt_dec _ _); rewrite ?map_length; unfold fmul; now rewrite map_length, seq_length. }
    intros g0 acc. apply Hgen. left. unfold steps. discriminate. }
  apply safe_dbind.
  - apply safe_normed. eapply heavy_sum; eauto.
  - intros s w Hin Hw. destruct (normed_drawn _ _ _ _ Hin Hw) as [_ Hs].
    apply safe_dbind; [|intros; apply safe_dret].
    rewrite <- (combine_trunc earlier _ [gsel 0%nat]) by (rewrite rev_length, map_length, seq_length; lia).
    apply (backward_safe summ Hsum M _ _ aN); [|exact Hgood|exact Hs].
    intros G HG i j. assert (exists n, G = gsel n) as (n & ->).
    { apply in_app_or in HG as [HG|[<-|[]]]; [|eauto]. apply in_rev in HG. apply in_map_iff in HG as (n & <- & _). eauto. }
    apply (gsel_nonneg _ _ _ _ Hargs n i j).
Qed.

(** ** A model on which the weights die out *)
Definition decay_gamma : vec := [1; 0].
Definition decay_Gammas : list mat := [[[1; 0]; [0; 1]]].
Definition decay_lik (c N : nat) : list (list (option R)) :=
  [repeat (Some (- INR c)) N; repeat (Some 0) N].

Lemma decay_args c N : (1 <= N)%nat -> ffbs_args decay_gamma decay_Gammas (decay_lik c N) N.
Proof.
  intros HN. constructor; simpl.
  - exact HN.
  - intros x [<-|[<-|[]]]; lra.
  - auto.
  - intros G row x [<-|[]] [<-|[<-|[]]] [<-|[<-|[]]]; lra.
  - intros G [<-|[]]. split; [reflexivity|]. intros row [<-|[<-|[]]]; reflexivity.
  - reflexivity.
  - intros row [<-|[<-|[]]]; apply repeat_length.
Qed.

Lemma nth_repeat_in {A} (x d : A) N n : (n < N)%nat -> nth n (repeat x N) d = x.
Proof. revert n. induction N as [|N IH]; intros [|n] H; simpl; try lia; auto. apply IH; lia. Qed.

Lemma decay_column c N n : (n < N)%nat -> column (decay_lik c N) n = [Some (- INR c); Some 0].
Proof. intros H. unfold column, decay_lik. simpl. now rewrite !nth_repeat_in. Qed.

Lemma decay_evidence c N : (1 <= N)%nat ->
  0 < evidence 2 (vget decay_gamma) (hmm_of decay_Gammas (decay_lik c N) N).
Proof.
  intros HN. pose proof (decay_args c N HN) as Ha.
  change 2%nat with (length decay_gamma). rewrite (evidence_Fwd _ _ _ _ Ha).
  change (length decay_gamma) with 2%nat. set (g0 := fun i => _).
  assert (Ht : nsum 2 (vget decay_gamma) = 1) by (unfold nsum, vget; simpl; lra).
  assert (Hg : forall i, (i < 2)%nat -> 0 <= g0 i).
  { intros i Hi. unfold g0. rewrite Ht. unfold vget. destruct i as [|[|i]]; simpl; try lra; lia. }
  pose proof (fs_ok _ _ _ _ Ha) as Hok. change (length decay_gamma) with 2%nat in Hok.
  assert (Hst : Forall (fun st : hmm_step => 0 < fst st 0%nat /\ snd st 0%nat 0%nat = 1)
    (hmm_of decay_Gammas (decay_lik c N) N)).
  { apply Forall_forall. intros st H. unfold hmm_of in H. apply in_map_seq in H as (n & Hn & ->). simpl.
    rewrite nth_repeat_in by exact Hn. split; [apply exp_pos|reflexivity]. }
  apply Forall_rev in Hok. apply Forall_rev in Hst. revert Hok Hst.
  generalize (rev (hmm_of decay_Gammas (decay_lik c N) N)). intros sr Hok Hst.
  assert (Hp : 0 < Fwd 2 g0 sr 0%nat).
  { induction sr as [|[L G] sr IH]; [simpl; unfold g0; rewrite Ht; unfold vget; simpl; lra|].
    apply Forall_cons_iff in Hok as [(HL & _ & HG) Hok]. apply Forall_cons_iff in Hst as [[HL0 HG0] Hst].
    simpl in *. specialize (IH Hok Hst). apply Rmult_lt_0_compat; [|exact HL0].
    unfold nsum. simpl. rewrite HG0.
    assert (0 <= Fwd 2 g0 sr 1%nat) by (apply Fwd_nonneg; auto).
    assert (0 <= Fwd 2 g0 sr 1%nat * G 1%nat 0%nat) by (apply Rmult_le_pos; auto). lra. }
  unfold nsum. simpl.
  assert (0 <= Fwd 2 g0 sr 1%nat) by (apply Fwd_nonneg; auto). lra.
Qed.

Lemma some_inj {A} (x y : A) : Some x = Some y -> x = y.
Proof. congruence. Qed.

Section decay.
  Context (summ : list R -> R) (Hsum : sum_ok summ).
  Context (beta : nat) (bound : R).
  Context (Hbeta : (beta <= 500)%nat) (Hb1 : pw (- Z.of_nat (S beta)) <= bound).

  Let C : nat := (2 * beta + 6)%nat.
  Let ll : list (option R) := [Some (- INR C); Some 0].
  Let G : mat := [[1; 0]; [0; 1]].

  Definition dying (e : Z) (a : vec) : Prop :=
    nn a /\ vget a 0 <= pw e /\ forall s, s <> 0%nat -> vget a s = 0.

  Lemma decay_flik : exists l1, flik ll = Some [rnd (exp (- INR C)); l1].
  Proof using Hbeta.
    unfold flik, ll. simpl lmax. assert (0 <= INR C) by apply pos_INR.
    rewrite Rmax_right by lra. simpl map. eexists. do 3 f_equal.
    rewrite Rminus_0_r, INR_IZR_INZ, <- opp_IZR. f_equal. apply rnd_IZR. unfold C. lia.
  Qed.

  Lemma decay_lik_le : rnd (exp (- INR C)) <= pw (1 - Z.of_nat C).
  Proof using Hbeta.
    apply rnd_up; [left; apply exp_pos|]. replace (1 - Z.of_nat C - 1)%Z with (- Z.of_nat C)%Z by lia.
    rewrite <- half_pw. generalize C. intros n. induction n as [|n IH]; [simpl; rewrite Ropp_0, exp_0; lra|].
    rewrite S_INR, Ropp_plus_distr, exp_plus. simpl.
    assert (exp (- (1)) <= 1 / 2).
    { rewrite exp_Ropp. assert (2 < exp 1) by (pose proof (exp_ineq1 1 ltac:(lra)); lra).
      unfold Rdiv. rewrite Rmult_1_l. apply Rinv_le_contravar; lra. }
    rewrite Rmult_comm. apply Rmult_le_compat; auto; left; apply exp_pos.
  Qed.

  Lemma decay_step e a : dying e a ->
    exists a', forward_step_f summ bound 2 ll G a = Some a' /\ length a' = 2%nat /\
      dying (e - Z.of_nat (S beta)) a'.
  Proof using Hsum Hbeta Hb1.
    intros (Ha & H0 & Hz). pose proof (bound_pos beta bound Hb1) as Hb.
    assert (HG : Gnn G).
    { intros i j. unfold G, mget, vget. destruct i as [|[|[|i]]], j as [|[|[|j]]]; simpl; lra. }
    destruct decay_flik as (l1 & El).
    destruct (forward_step_f summ bound 2 ll G a) as [a'|] eqn:Ea.
    2:{ unfold forward_step_f in Ea. rewrite El in Ea. discriminate. }
    destruct (forward_step_link summ Hsum bound 2 ll G a a' Hb Ha HG Ea) as (Hna & Hlen & Hlk).
    exists a'. split; [reflexivity|]. split; [exact Hlen|]. split; [exact Hna|]. split.
    - unfold forward_step_f in Ea. rewrite El in Ea. apply some_inj in Ea. subst a'.
      set (v := fmul 2 (fdot summ 2 a G) [rnd (exp (- INR C)); l1]).
      assert (Hd : vget (fdot summ 2 a G) 0 <= pw (e + 1)).
      { rewrite fdot_get by lia.
        apply Rle_trans with (INR 2 * pw e); [|rewrite bpow_plus; simpl; lra].
        apply (fl_sum_le (map (fun i => rnd (vget a i * mget G i 0)) (seq 0 2)));
          [apply Hsum|apply prods_nn; assumption| |simpl; lia].
        intros x Hx. apply in_map_seq in Hx as (i & Hi & ->).
        destruct i as [|i].
        - change (mget G 0 0) with 1. rewrite Rmult_1_r. destruct (nn_vget a 0 Ha) as [_ ->]. exact H0.
        - rewrite (Hz (S i)) by lia. rewrite Rmult_0_l, rnd_0. apply bpow_ge_0. }
      assert (Hv : vget v 0 <= pw (e + 3 - Z.of_nat C)).
      { unfold v. rewrite fmul_get by lia.
        assert (0 <= vget (fdot summ 2 a G) 0) by (apply nn_vget, fdot_nn; assumption).
        assert (0 <= rnd (exp (- INR C))) by (apply rnd_nonneg; left; apply exp_pos).
        apply rnd_up; [apply Rmult_le_pos; assumption|].
        replace (e + 3 - Z.of_nat C - 1)%Z with ((e + 1) + (1 - Z.of_nat C))%Z by lia.
        rewrite bpow_plus. apply Rmult_le_compat; auto using decay_lik_le. }
      assert (Hv0 : 0 <= vget v 0).
      { apply nn_vget, fmul_nn; [apply fdot_nn; assumption|]. exact (flik_nn _ _ El). }
      destruct (Rlt_dec (summ v) bound).
      + rewrite scaled_get. apply rnd_up.
        * apply Rmult_le_pos; [exact Hv0|left; now apply Rinv_0_lt_compat].
        * apply Rmult_le_reg_r with bound; [exact Hb|].
          unfold Rdiv. rewrite Rmult_assoc, Rinv_l, Rmult_1_r by lra.
          apply Rle_trans with (1 := Hv).
          apply Rle_trans with (pw (e - Z.of_nat (S beta) - 1) * pw (- Z.of_nat (S beta))).
          -- rewrite <- bpow_plus. apply bpow_le. unfold C. lia.
          -- apply Rmult_le_compat_l; [apply bpow_ge_0|exact Hb1].
      + apply Rle_trans with (1 := Hv). apply bpow_le. unfold C. lia.
    - intros s Hs. destruct (Req_EM_T (vget a' s) 0) as [|Hn]; [assumption|exfalso].
      destruct (Hlk s Hn) as (i & Hi & Hr). apply Hr. destruct i as [|[|i]]; [| |lia].
      + replace (mget G 0 s) with 0; [rewrite Rmult_0_r; exact rnd_0|].
        unfold G, mget, vget. destruct s as [|[|[|s]]]; simpl; congruence || reflexivity.
      + rewrite (Hz 1%nat) by lia. rewrite Rmult_0_l. exact rnd_0.
  Qed.

  Lemma decay_forward n : forall e a acc, dying e a ->
    exists l, forward_f summ bound 2 (repeat (ll, G) (S n)) a acc = Some l /\
      exists a' t, l = a' :: t /\ length a' = 2%nat /\ dying (e - Z.of_nat (S n * S beta)) a'.
  Proof using Hsum Hbeta Hb1.
    induction n as [|n IH]; intros e a acc Ha.
    - destruct (decay_step e a Ha) as (a' & Ea & Hl & Hd). change (repeat (ll, G) 1) with [(ll, G)]. cbn [forward_f]. rewrite Ea.
      eexists; split; [reflexivity|]. exists a', acc. split; [reflexivity|]. split; [exact Hl|].
      replace (1 * S beta)%nat with (S beta) by lia. exact Hd.
    - destruct (decay_step e a Ha) as (a' & Ea & Hl & Hd).
      change (repeat (ll, G) (S (S n))) with ((ll, G) :: repeat (ll, G) (S n)). cbn [forward_f]. rewrite Ea.
      destruct (IH _ a' (a' :: acc) Hd) as (l & El & a2 & t & -> & Hl2 & Hd2).
      eexists; split; [exact El|]. exists a2, t. split; [reflexivity|]. split; [exact Hl2|].
      replace (e - Z.of_nat (S (S n) * S beta))%Z with (e - Z.of_nat (S beta) - Z.of_nat (S n * S beta))%Z by lia.
      exact Hd2.
  Qed.

  Lemma decay_fails N : (1075 <= N * S beta)%nat ->
    dprob (ffbs_step_f summ decay_gamma decay_Gammas (decay_lik C N) N bound) is_failure = 1.
  Proof using Hsum Hbeta Hb1.
    intros HN. destruct N as [|N]; [lia|].
    unfold ffbs_step_f. destruct (Req_EM_T (summ decay_gamma) 0) as [|Ht]; [simpl; lra|].
    rewrite (broadcast_spec _ _ _ _ (decay_args C (S N) ltac:(lia))).
    unfold transpose. rewrite combine_map. cbn [length Nat.eqb decay_Gammas]. fold G.
    assert (Est : map (fun x => (column (decay_lik C (S N)) x, nth 0 [G] [])) (seq 0 (S N)) = repeat (ll, G) (S N)).
    { assert (E : forall L k, (k + L <= S N)%nat ->
        map (fun x => (column (decay_lik C (S N)) x, nth 0 [G] [])) (seq k L) = repeat (ll, G) L).
      { induction L as [|L IH]; intros k Hk; [reflexivity|]. simpl seq. rewrite map_cons, IH by lia.
        rewrite decay_column by lia. reflexivity. }
      apply E. lia. }
    assert (Hg : nn decay_gamma).
    { intros x [<-|[<-|[]]]; (split; [lra|]); [apply (rnd_IZR 1); lia|exact rnd_0]. }
    assert (H1 : 1 <= summ decay_gamma) by (apply summ_ge; [exact Hsum|exact Hg|simpl; auto]).
    set (g := map (fun x => rnd (x / summ decay_gamma)) decay_gamma).
    assert (Hd : dying 0 g).
    { split; [apply scaled_nn; [exact Hg|lra]|]. unfold g. split.
      - rewrite scaled_get. rewrite <- (rnd_pw 0) by lia. apply rnd_le. unfold vget. simpl.
        apply Rmult_le_reg_r with (summ decay_gamma); [lra|].
        unfold Rdiv. rewrite Rmult_assoc, Rinv_l by lra. lra.
      - intros s Hs. rewrite scaled_get. replace (vget decay_gamma s) with 0.
        + unfold Rdiv. rewrite Rmult_0_l. exact rnd_0.
        + unfold vget, decay_gamma. destruct s as [|[|[|s]]]; simpl; congruence || reflexivity. }
    destruct (decay_forward N 0 g [] Hd) as (l & El & a & t & -> & Hl & Ha & H0 & Hz).
    match goal with |- dprob (match ?f with _ => _ end) _ = _ =>
      replace f with (Some (a :: t)) by (symmetry; etransitivity; [|exact El]; f_equal; exact Est) end.
    assert (Hs : summ a = 0).
    { apply summ_zero; [exact Hsum|]. intros x Hx. apply In_nth with (d := 0) in Hx as (i & Hi & <-).
      change (vget a i = 0). destruct i as [|i]; [|apply Hz; lia].
      destruct (nn_vget a 0 Ha) as [Hp Hdb]. destruct (Req_dec (vget a 0) 0) as [|Hne]; [assumption|exfalso].
      assert (pw (-1074) <= vget a 0) by (apply double_ge; [exact Hdb|lra]).
      assert (pw (0 - Z.of_nat (S N * S beta)) < pw (-1074)) by (apply bpow_lt; lia). lra. }
    unfold normed_categorical_f. rewrite Hs. destruct (Req_EM_T 0 0) as [_|Hc]; [|congruence].
    simpl. lra.
  Qed.
End decay.

(** ** Only possible sequences are drawn *)
Lemma in_dbind_some {A B} (d : fdist A) (f : A -> fdist B) y w : In (Some y, w) (dbind d f) -> w <> 0 ->
  exists x u v, In (Some x, u) d /\ u <> 0 /\ In (Some y, v) (f x) /\ v <> 0.
Proof.
  unfold dbind. intros H Hw. apply in_flat_map in H as ([[x|] u] & Hd & H); unfold dscale in H;
    apply in_map_iff in H as ([o v] & Heq & H); simpl in *; injection Heq as -> <-.
  - exists x, u, v. repeat split; auto; intros ->; apply Hw; ring.
  - destruct H as [H|[]]; discriminate.
Qed.

Lemma dprob_drawn ss (d : fdist (list nat)) : dprob d (is_seq ss) <> 0 -> exists w, In (Some ss, w) d /\ w <> 0.
Proof.
  induction d as [|[o w] d IH]; simpl; [congruence|]. intros H.
  destruct (is_seq ss o) eqn:E.
  - destruct (Req_dec w 0) as [->|Hw].
    + destruct IH as (v & Hv & Hv0); [lra|]. exists v; auto.
    + exists w. split; [|exact Hw]. left. destruct o as [y|]; simpl in E; [|discriminate].
      destruct (list_eq_dec Nat.eq_dec ss y) as [->|]; [reflexivity|discriminate].
  - destruct IH as (v & Hv & Hv0); [lra|]. exists v; auto.
Qed.

Section possible.
  Context (summ : list R -> R) (Hsum : sum_ok summ) (M : nat) (bound : R) (g : vec).

  Definition slink (a : vec) (ll : list (option R)) (G : mat) (a' : vec) : Prop :=
    forall s, vget a' s <> 0 -> 0 < elik (nth s ll None) /\ exists i, (i < M)%nat /\ vget a i * mget G i s <> 0.

  Fixpoint chain (l : list vec) (st : list (list (option R) * mat)) : Prop :=
    match l, st with
    | [], [] => True
    | a :: l', (ll, G) :: st' => slink (hd g l') ll G a /\ chain l' st'
    | _, _ => False
    end.

  Lemma rnd_arg x : rnd x <> 0 -> x <> 0.
  Proof. intros H ->. apply H, rnd_0. Qed.

  Lemma forward_step_slink ll G a a' : forward_step_f summ bound M ll G a = Some a' -> slink a ll G a'.
  Proof using Hsum.
    unfold forward_step_f. destruct (flik ll) as [lk|] eqn:El; [|discriminate]. intros H. apply some_inj in H. subst a'.
    set (v := fmul M (fdot summ M a G) lk).
    assert (Hlen : length v = M) by (unfold v, fmul; now rewrite map_length, seq_length).
    assert (Hl : slink a ll G v).
    { intros s Hs. destruct (lt_dec s M) as [Hs'|Hs']; [|exfalso; apply Hs, vget_out; lia].
      unfold v in Hs. rewrite fmul_get in Hs by exact Hs'. apply rnd_arg in Hs. split.
      - revert El. unfold flik. destruct (lmax ll) as [m|]; [|discriminate]. intros El. apply some_inj in El. subst lk.
        pose (f := fun x => match x with Some a => rnd (exp (rnd (a - m))) | None => 0 end).
        change (vget (fdot summ M a G) s * nth s (map f ll) (f None) <> 0) in Hs. rewrite map_nth in Hs.
        destruct (nth s ll None) as [y|]; simpl in *; [apply exp_pos|exfalso; apply Hs; ring].
      - rewrite fdot_get in Hs by exact Hs'.
        destruct (summ_nonzero summ Hsum (map (fun i => rnd (vget a i * mget G i s)) (seq 0 M))) as (x & Hx & Hx0).
        { intros H0. apply Hs. rewrite H0. ring. }
        apply in_map_seq in Hx as (i & Hi & ->). exists i. split; [exact Hi|]. now apply rnd_arg. }
    destruct (Rlt_dec (summ v) bound); [|exact Hl].
    intros s Hs. apply Hl. intros H0. apply Hs. rewrite scaled_get, H0. unfold Rdiv. rewrite Rmult_0_l. exact rnd_0.
  Qed.

  Lemma forward_chain steps : forall alpha acc st l, chain acc st -> hd g acc = alpha ->
    forward_f summ bound M steps alpha acc = Some l -> chain l (rev steps ++ st).
  Proof using Hsum.
    induction steps as [|[ll G] steps IH]; intros alpha acc st l Hc Hh H; simpl in H.
    - injection H as <-. exact Hc.
    - destruct (forward_step_f summ bound M ll G alpha) as [a|] eqn:Ea; [|discriminate].
      simpl. rewrite <- app_assoc. apply (IH a (a :: acc)); [|reflexivity|exact H].
      simpl. split; [|exact Hc]. rewrite Hh. exact (forward_step_slink _ _ _ _ Ea).
  Qed.

  Context (g0 : nat -> R) (Hg0 : forall i, (i < M)%nat -> 0 <= g0 i) (Hg : forall i, vget g i <> 0 -> g0 i <> 0).

  Lemma backward_possible : forall earlier a st sr s rest w, chain (a :: earlier) st -> Forall2 crel st sr ->
    (forall q, In q sr -> forall i j, 0 <= snd q i j) -> vget a s <> 0 ->
    In (Some rest, w) (backward_f summ M (combine earlier (map snd st)) s) -> w <> 0 -> 0 < J M g0 sr (s :: rest).
  Proof using Hsum Hg0 Hg.
    induction earlier as [|a1 earlier IH]; intros a st sr s rest w Hc Hr Hnn Hs Hin Hw.
    - destruct st as [|[ll G] st]; [destruct Hc|]. destruct Hc as [Hl Hc]. destruct st; [|destruct Hc].
      destruct Hin as [Hin|[]]. injection Hin as <- _.
      inversion Hr as [|p [L G'] ? sr' [HL HG] Hr']; subst. inversion Hr'; subst. simpl in *.
      destruct (Hl s Hs) as [He (i & Hi & Hne)].
      apply Rmult_lt_0_compat; [|rewrite HL; exact He].
      assert (Hp : forall k, (k < M)%nat -> 0 <= g0 k * G' k s) by (intros k Hk; apply Rmult_le_pos; [auto|apply (Hnn (L, G')); auto]).
      assert (Hi0 : 0 < g0 i * G' i s).
      { destruct (Hp i Hi) as [|E]; [assumption|exfalso]. symmetry in E. apply Rmult_integral in E as [E|E].
        - apply (Hg i); [|exact E]. intros E'. apply Hne. rewrite E'. ring.
        - apply Hne. rewrite HG, E. ring. }
      destruct (nsum_nonneg M _ Hp) as [|E]; [assumption|exfalso]. symmetry in E.
      pose proof (nsum_zero_all M _ Hp E i Hi) as Ei. simpl in Ei. lra.
    - destruct st as [|[ll G] st]; [destruct Hc|]. destruct Hc as [Hl Hc].
      simpl in Hin. apply in_dbind_some in Hin as (s' & u & v & Hu & Hu0 & Hin & Hv); [|exact Hw].
      apply in_dbind_some in Hin as (rest' & u' & v' & Hu' & Hu0' & Hin & Hv'); [|exact Hv].
      destruct Hin as [Hin|[]]. injection Hin as <- _.
      unfold backward_step_f in Hu. destruct (normed_drawn _ _ _ _ Hu Hu0) as [Hs' Hw'].
      assert (HsM : (s' < M)%nat) by (unfold fmul in Hs'; now rewrite map_length, seq_length in Hs').
      rewrite fmul_get in Hw' by exact HsM. apply rnd_arg in Hw'.
      rewrite (vget_seq M (fun i => mget G i s)) in Hw' by exact HsM.
      inversion Hr as [|p [L G'] ? sr' [HL HG] Hr']; subst. simpl in HL, HG, Hl.
      destruct (Hl s Hs) as [He _].
      assert (IHs : 0 < J M g0 sr' (s' :: rest')).
      { apply (IH a1 st sr' s' rest' u'); [exact Hc|exact Hr'| | |exact Hu'|exact Hu0'].
        - intros q Hq. apply Hnn. simpl; auto.
        - intros E. apply Hw'. rewrite E. ring. }
      assert (HG0 : 0 < G' s' s).
      { destruct (Hnn (L, G') (or_introl eq_refl) s' s) as [|E]; [assumption|exfalso].
        apply Hw'. rewrite HG. simpl in E. rewrite <- E. ring. }
      destruct sr' as [|q sr']; [simpl in IHs; lra|].
      change (0 < J M g0 (q :: sr') (s' :: rest') * G' s' s * L s).
      apply Rmult_lt_0_compat; [now apply Rmult_lt_0_compat|rewrite HL; exact He].
  Qed.
End possible.

Lemma ffbs_float_possible summ gamma_0 Gammas log_lik N bound ss : sum_ok summ ->
  ffbs_args gamma_0 Gammas log_lik N ->
  dprob (ffbs_step_f summ gamma_0 Gammas log_lik N bound) (is_seq ss) <> 0 ->
  0 < joint (length gamma_0) (vget gamma_0) (hmm_of Gammas log_lik N) ss.
Proof.
  intros Hsum Hargs Hd. apply dprob_drawn in Hd as (w & Hin & Hw). revert Hin. unfold ffbs_step_f.
  destruct (Req_EM_T (summ gamma_0) 0) as [|Ht]; [intros [H|[]]; discriminate|].
  rewrite (broadcast_spec _ _ _ _ Hargs).
  set (gsel := fun n => nth (if Nat.eqb (length Gammas) 1 then 0%nat else n) Gammas []).
  set (M := length gamma_0).
  set (g := map (fun x => rnd (x / summ gamma_0)) gamma_0).
  set (steps := combine (transpose log_lik N) (map gsel (seq 0 N))).
  destruct (forward_f summ bound M steps g []) as [l|] eqn:El; [|intros [H|[]]; discriminate].
  destruct l as [|aN earlier]; [intros [H|[]]; discriminate|].
  intros Hin. apply in_dbind_some in Hin as (s & u & v & Hu & Hu0 & Hin & Hv); [|exact Hw].
  apply in_dbind_some in Hin as (rest & u' & v' & Hu' & Hu0' & Hin & _); [|exact Hv].
  destruct Hin as [Hin|[]]. injection Hin as Hss _.
  rewrite (joint_J _ _ _ _ Hargs). rewrite <- Hss.
  replace (rev (rev rest ++ [s])) with (s :: rest) by (rewrite rev_app_distr, rev_involutive; reflexivity).
  pose proof (forward_chain summ Hsum M bound g steps g [] [] (aN :: earlier) I eq_refl El) as Hc.
  rewrite app_nil_r in Hc.
  pose proof (steps_crel _ _ _ _ Hargs) as Hcr. fold gsel in Hcr. change (Forall2 crel steps (hmm_of Gammas log_lik N)) in Hcr.
  assert (Hcr' : Forall2 crel (rev steps) (rev (hmm_of Gammas log_lik N))).
  { clear -Hcr. induction Hcr; simpl; [constructor|]. apply Forall2_app; auto. }
  assert (Hg0 : forall i, (i < M)%nat -> 0 <= vget gamma_0 i / nsum M (vget gamma_0)) by (intros i _; apply (g0n_nonneg _ _ _ _ Hargs)).
  apply (backward_possible summ Hsum M g _ Hg0) with (a := aN) (earlier := earlier) (st := rev steps) (w := u').
  - intros i Hi. assert (Hi' : vget gamma_0 i <> 0).
    { intros E. apply Hi. unfold g. rewrite scaled_get, E. unfold Rdiv. rewrite Rmult_0_l. exact rnd_0. }
    assert (0 <= vget gamma_0 i) by apply (g0_nonneg _ _ _ _ Hargs).
    assert (HiM : (i < M)%nat) by (destruct (lt_dec i M); [assumption|exfalso; apply Hi', vget_out; unfold M in *; lia]).
    assert (Hs : nsum M (vget gamma_0) <> 0).
    { intros E. apply Hi'. exact (nsum_zero_all M _ (fun k _ => g0_nonneg _ _ _ _ Hargs k) E i HiM). }
    intros E. unfold Rdiv in E. apply Rmult_integral in E as [E|E]; [contradiction|].
    revert E. now apply Rinv_neq_0_compat.
  - exact Hc.
  - exact Hcr'.
  - intros q Hq i j. apply in_rev in Hq. pose proof (fs_ok _ _ _ _ Hargs) as Hok.
    rewrite Forall_forall in Hok. apply (Hok q Hq).
  - destruct (normed_drawn _ _ _ _ Hu Hu0) as [_ H]. exact H.
  - assert (Ems : map snd steps = map gsel (seq 0 N)).
    { unfold steps, transpose. rewrite combine_map, map_map. reflexivity. }
    rewrite map_rev, Ems.
    assert (Hlen : (length earlier <= length (rev (tl (map gsel (seq 0 N)))))%nat).
    { assert (Hcl : forall l st, chain M g l st -> length l = length st).
      { clear. induction l as [|a l IH]; intros [|[ll G] st] H; simpl in *; try tauto. f_equal. apply IH, H. }
      apply Hcl in Hc. rewrite rev_length in Hc. rewrite <- (map_length snd), Ems in Hc.
      rewrite rev_length. destruct (map gsel (seq 0 N)); simpl in *; lia. }
    destruct (map gsel (seq 0 N)) as [|G0 Gs]; [exact Hu'|].
    simpl rev. simpl tl in Hlen, Hu'. rewrite combine_trunc by exact Hlen. exact Hu'.
  - exact Hu0'.
Qed.
