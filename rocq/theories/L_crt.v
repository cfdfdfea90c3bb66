(** Proofs about sample_CRT. *)
From Verif Require Export L_dist S_crt.

Lemma dexp_bern p g : dexp (dbern p) g = p * g (Some 1%nat) + (1 - p) * g (Some 0%nat).
Proof. simpl. lra. Qed.

Lemma bern_sum_cons h n ns g :
  dexp (bern_sum h (n :: ns)) g =
  h / (INR n - 1 + h) * dexp (bern_sum h ns) (fun o => g (match o with Some s => Some (S s) | None => None end))
  + (1 - h / (INR n - 1 + h)) * dexp (bern_sum h ns) g.
Proof.
  cbn [bern_sum]. rewrite dexp_bind, dexp_bern, !dexp_bind.
  f_equal; f_equal; apply dexp_ext; intros [s|]; try reflexivity; apply dexp_ret.
Qed.

Lemma bern_sum_snoc h ns n g :
  dexp (bern_sum h (ns ++ [n])) g =
  h / (INR n - 1 + h) * dexp (bern_sum h ns) (fun o => g (match o with Some s => Some (S s) | None => None end))
  + (1 - h / (INR n - 1 + h)) * dexp (bern_sum h ns) g.
Proof.
  revert g. induction ns as [|m ns IH]; intros g.
  - simpl app. rewrite bern_sum_cons. reflexivity.
  - simpl app. rewrite bern_sum_cons, !IH. rewrite !bern_sum_cons.
    set (p := h / (INR n - 1 + h)). set (q := h / (INR m - 1 + h)).
    set (A := dexp (bern_sum h ns) _).
    set (B := dexp (bern_sum h ns) (fun o => g _)).
    set (C := dexp (bern_sum h ns) g).
    replace (dexp (bern_sum h ns) (fun o => g match match o with Some s => Some (S s) | None => None end with
        | Some s => Some (S s) | None => None end)) with A by reflexivity.
    ring.
Qed.

Lemma bern_sum_none h ns : dexp (bern_sum h ns) (fun o => if is_fail o then 1 else 0) = 0.
Proof.
  induction ns as [|n ns IH]; [simpl; lra|]. rewrite bern_sum_cons.
  rewrite (dexp_ext _ (fun o => if is_fail (match o with Some s => Some (S s) | None => None end) then 1 else 0)
             (fun o => if is_fail o then 1 else 0)) by (intros [s|]; reflexivity).
  rewrite IH. ring.
Qed.

Lemma rising_pos h n : 0 < h -> 0 < rising_fact h n.
Proof.
  intros Hh. induction n; simpl; [lra|]. apply Rmult_lt_0_compat; [exact IHn|].
  pose proof (pos_INR n). lra.
Qed.

Lemma stirling_S_0 n : stirling (S n) 0 = 0%nat. Proof. reflexivity. Qed.

Lemma stirling_gt n k : (n < k)%nat -> stirling n k = 0%nat.
Proof.
  revert k. induction n as [|n IH]; intros [|k] H; simpl; try lia.
  rewrite !IH by lia. lia.
Qed.

Lemma stirling_pos n k : (1 <= k <= n)%nat -> (1 <= stirling n k)%nat.
Proof.
  revert k. induction n as [|n IH]; intros [|k] H; try lia. simpl.
  destruct (Nat.eq_dec k n) as [->|Hne].
  - destruct n as [|n]; [simpl; lia|]. specialize (IH (S n)). lia.
  - destruct k as [|k].
    + destruct n as [|n]; [lia|]. specialize (IH 1%nat). destruct n; simpl in *; lia.
    + specialize (IH (S k)). lia.
Qed.

(** the sum of the stirling weights is the rising factorial *)
Lemma stirling_generating x n : nsum (S n) (fun k => INR (stirling n k) * x ^ k) = rising_fact x n.
Proof.
  induction n as [|n IH]; [unfold nsum; simpl; lra|].
  assert (Hshift : forall m f, nsum (S m) f = f 0%nat + nsum m (fun k => f (S k))).
  { intros m f. unfold nsum. rewrite <- cons_seq. simpl. f_equal.
    rewrite <- seq_shift, map_map. reflexivity. }
  rewrite Hshift. rewrite stirling_S_0. simpl (INR 0).
  rewrite (nsum_ext (S n) _ (fun k => x * (INR (stirling n k) * x ^ k)
     + INR n * (INR (stirling n (S k)) * x ^ (S k)))).
  2:{ intros k _. cbn [stirling]. rewrite plus_INR, mult_INR. simpl. ring. }
  rewrite nsum_plus, !nsum_scal, IH.
  assert (H2 : INR n * nsum (S n) (fun k => INR (stirling n (S k)) * x ^ S k) = INR n * rising_fact x n).
  { destruct n as [|n]; [simpl; ring|]. rewrite <- IH. f_equal.
    rewrite nsum_S. rewrite stirling_gt by lia. rewrite (Hshift (S n)), stirling_S_0. simpl. ring. }
  rewrite H2. simpl. ring.
Qed.

(** law of one entry *)
Lemma single_pos_law h y l : 0 < h ->
  dexp (bern_sum h (seq 2 y)) (fun o => match o with Some s => if Nat.eqb l (1 + s) then 1 else 0 | None => 0 end)
  = crt_pmf (S y) h l.
Proof.
  intros Hh. revert l. induction y as [|y IH]; intros l.
  - unfold crt_pmf. simpl. destruct l as [|[|l]]; simpl; try (field; lra).
  - rewrite seq_S, bern_sum_snoc, IH.
    assert (Hp : dexp (bern_sum h (seq 2 y)) (fun o =>
         match match o with Some s => Some (S s) | None => None end with
         | Some s => if Nat.eqb l (1 + s) then 1 else 0 | None => 0 end)
       = match l with O => 0 | S l' => crt_pmf (S y) h l' end).
    { destruct l as [|l].
      - rewrite (dexp_ext _ _ (fun _ => 0)); [|intros [s|]; reflexivity].
        generalize (bern_sum h (seq 2 y)). intros d. induction d as [|[o w] d IHd]; simpl; [reflexivity|]. rewrite IHd. ring.
      - rewrite <- IH. apply dexp_ext. intros [s|]; reflexivity. }
    rewrite Hp. clear Hp IH.
    pose proof (rising_pos h (S y) Hh) as Hr. pose proof (pos_INR (S y)) as Hy.
    replace (INR (2 + y) - 1 + h) with (h + INR (S y)) by (rewrite plus_INR, S_INR; simpl; ring).
    unfold crt_pmf. change (rising_fact h (S (S y))) with (rising_fact h (S y) * (h + INR (S y))).
    set (r := rising_fact h (S y)) in *. set (q := h + INR (S y)) in *.
    assert (Hq : 0 < q) by (unfold q; lra).
    destruct l as [|l].
    + rewrite !stirling_S_0. simpl. field. lra.
    + change (stirling (S (S y)) (S l)) with (stirling (S y) l + S y * stirling (S y) (S l))%nat.
      rewrite plus_INR, mult_INR. change (h ^ S l) with (h * h ^ l).
      set (a := INR (stirling (S y) l)). set (b := INR (stirling (S y) (S l))).
      replace (INR (S y)) with (q - h) by (unfold q; ring). field. lra.
Qed.

Lemma single_law h y l : 0 < h ->
  dprob (single_sample_CRT (Z.of_nat y) h) (is_nat l) = crt_pmf y h l.
Proof.
  intros Hh. rewrite dprob_dexp. unfold single_sample_CRT, arange2. rewrite dexp_bind.
  destruct y as [|y].
  - change (Z.to_nat (Z.of_nat 0 - 1)) with 0%nat. simpl.
    unfold crt_pmf. destruct l; simpl; lra.
  - replace (Z.to_nat (Z.of_nat (S y) - 1)) with y by lia.
    rewrite <- single_pos_law by exact Hh. apply dexp_ext. intros [s|]; [|reflexivity].
    rewrite dexp_ret. destruct (Z.ltb_spec (Z.of_nat (S y)) 1); [lia|].
    simpl is_nat. reflexivity.
Qed.

Lemma single_neg y h : (y < 0)%Z -> single_sample_CRT y h = [(Some 0%nat, 1 * 1 )].
Proof.
  intros Hy. unfold single_sample_CRT, arange2. replace (Z.to_nat (y - 1)) with 0%nat by lia.
  simpl. destruct (Z.ltb_spec y 1); [reflexivity|lia].
Qed.

Lemma single_no_fail y h : dprob (single_sample_CRT y h) is_fail = 0.
Proof.
  rewrite dprob_dexp. unfold single_sample_CRT. rewrite dexp_bind.
  rewrite (dexp_ext _ _ (fun o => if is_fail o then 1 else 0)).
  - apply bern_sum_none.
  - intros [s|]; [rewrite dexp_ret|]; reflexivity.
Qed.

Definition is_list (ls : list nat) (o : option (list nat)) : bool :=
  match o with Some ls' => if list_eq_dec Nat.eq_dec ls ls' then true else false | None => false end.

Lemma scan_nil ys h : dexp (scan_CRT ys h) (fun o => if is_list [] o then 1 else 0)
  = match ys with [] => 1 | _ => 0 end.
Proof.
  destruct ys as [|y ys]; [simpl; lra|]. cbn [scan_CRT]. rewrite dexp_bind.
  rewrite (dexp_ext _ _ (fun _ => 0)).
  - generalize (single_sample_CRT y h). intros d. induction d as [|[o w] d IH]; simpl; [reflexivity|]. rewrite IH. ring.
  - intros [l|]; [|reflexivity]. rewrite dexp_bind. rewrite (dexp_ext _ _ (fun _ => 0)).
    + generalize (scan_CRT ys h). intros d. induction d as [|[o w] d IH]; simpl; [reflexivity|]. rewrite IH. ring.
    + intros [ls|]; [rewrite dexp_ret|]; reflexivity.
Qed.

Lemma scan_law ys h ls :
  dprob (scan_CRT ys h) (is_list ls)
  = if Nat.eqb (length ls) (length ys)
    then lprod (map (fun p => dprob (single_sample_CRT (fst p) h) (is_nat (snd p))) (combine ys ls))
    else 0.
Proof.
  rewrite dprob_dexp. revert ls. induction ys as [|y ys IH]; intros ls.
  - destruct ls; simpl; lra.
  - destruct ls as [|l ls]; [rewrite scan_nil; reflexivity|].
    cbn [length combine map lprod fold_right fst snd]. cbn [Nat.eqb].
    cbn [scan_CRT]. rewrite dexp_bind.
    rewrite (dexp_ext _ _ (fun o => (if is_nat l o then 1 else 0) *
       dexp (scan_CRT ys h) (fun o => if is_list ls o then 1 else 0))).
    2:{ intros [l'|]; [|simpl; ring]. rewrite dexp_bind. cbn [is_nat].
        destruct (Nat.eqb_spec l l') as [<-|Hne].
        - rewrite Rmult_1_l. apply dexp_ext. intros [ls'|]; [|reflexivity]. rewrite dexp_ret.
          unfold is_list. destruct (list_eq_dec Nat.eq_dec (l :: ls) (l :: ls')) as [E|E];
            destruct (list_eq_dec Nat.eq_dec ls ls') as [E'|E']; try reflexivity; congruence.
        - rewrite (dexp_ext _ _ (fun _ => 0)).
          + generalize (scan_CRT ys h). intros d. induction d as [|[o w] d IHd]; simpl; [ring|]. rewrite IHd. ring.
          + intros [ls'|]; [|reflexivity]. rewrite dexp_ret. unfold is_list.
            destruct (list_eq_dec Nat.eq_dec (l :: ls) (l' :: ls')); [congruence|reflexivity]. }
    rewrite IH. rewrite dprob_dexp.
    assert (Hsc : forall (d : fdist nat) c f, dexp d (fun o => f o * c) = dexp d f * c).
    { clear. induction d as [|[o w] d IHd]; intros c f; simpl; [ring|]. rewrite IHd. ring. }
    rewrite Hsc. destruct (Nat.eqb (length ls) (length ys)); [reflexivity|ring].
Qed.

Lemma sample_CRT_law y h a :
  dprob (sample_CRT y h) (is_arr a)
  = if list_eq_dec Nat.eq_dec (a_shape a) (a_shape y)
    then if Nat.eqb (length (a_data a)) (length (a_data y))
         then lprod (map (fun p => dprob (single_sample_CRT (fst p) h) (is_nat (snd p)))
                       (combine (a_data y) (a_data a)))
         else 0
    else 0.
Proof.
  rewrite <- scan_law, !dprob_dexp. unfold sample_CRT. rewrite dexp_bind.
  destruct (list_eq_dec Nat.eq_dec (a_shape a) (a_shape y)) as [E|E].
  - apply dexp_ext. intros [ls|]; [|reflexivity]. rewrite dexp_ret. unfold is_arr, is_list. cbn [a_shape a_data].
    destruct (list_eq_dec Nat.eq_dec (a_shape a) (a_shape y)); [|contradiction]. reflexivity.
  - rewrite (dexp_ext _ _ (fun _ => 0)).
    + generalize (scan_CRT (a_data y) h). intros d. induction d as [|[o w] d IHd]; simpl; [reflexivity|]. rewrite IHd. ring.
    + intros [ls|]; [|reflexivity]. rewrite dexp_ret. unfold is_arr. cbn [a_shape a_data].
      destruct (list_eq_dec Nat.eq_dec (a_shape a) (a_shape y)); [contradiction|reflexivity].
Qed.

Lemma lprod_ext {A} (l : list A) f g : (forall x, In x l -> f x = g x) ->
  lprod (map f l) = lprod (map g l).
Proof.
  induction l as [|x l IH]; simpl; intros H; [reflexivity|]. rewrite H by auto. rewrite IH; auto.
Qed.

Lemma CRT_joint shape ys h a : 0 < h ->
  dprob (sample_CRT (Arr shape (map Z.of_nat ys)) h) (is_arr a)
  = if list_eq_dec Nat.eq_dec (a_shape a) shape
    then if Nat.eqb (length (a_data a)) (length ys)
         then lprod (map (fun p => crt_pmf (fst p) h (snd p)) (combine ys (a_data a)))
         else 0
    else 0.
Proof.
  intros Hh. rewrite sample_CRT_law. cbn [a_shape a_data]. rewrite map_length.
  destruct (list_eq_dec _ _ _) as [_|_]; [|reflexivity].
  destruct (Nat.eqb _ _); [|reflexivity].
  generalize (a_data a). intros ls. revert ls. induction ys as [|y ys IH]; intros [|l ls]; try reflexivity.
  simpl. rewrite IH. f_equal. apply single_law. exact Hh.
Qed.

Lemma crt_pmf_support y h l : 0 < h ->
  (crt_pmf y h l <> 0 <-> (y = 0 /\ l = 0)%nat \/ (1 <= l <= y)%nat).
Proof.
  intros Hh. unfold crt_pmf. pose proof (rising_pos h y Hh) as Hr. pose proof (pow_lt h l Hh) as Hp. split.
  - intros H. destruct y as [|y]; destruct l as [|l]; [auto| | |].
    + exfalso. apply H. simpl. unfold Rdiv. ring.
    + exfalso. apply H. rewrite stirling_S_0. simpl. unfold Rdiv. ring.
    + right. destruct (Nat.le_gt_cases (S l) (S y)); [lia|].
      exfalso. apply H. rewrite stirling_gt by lia. simpl. unfold Rdiv. ring.
  - intros H.
    assert (1 <= INR (stirling y l)).
    { destruct H as [[-> ->]|H]; [simpl; lra|]. apply stirling_pos in H.
      apply le_INR in H. simpl in H. exact H. }
    apply Rgt_not_eq. apply Rdiv_lt_0_compat; [|exact Hr]. apply Rmult_lt_0_compat; lra.
Qed.

Lemma crt_pmf_sums y h : 0 < h -> nsum (S y) (crt_pmf y h) = 1.
Proof.
  intros Hh. unfold crt_pmf.
  rewrite (nsum_ext _ _ (fun l => (INR (stirling y l) * h ^ l) * / rising_fact h y)) by (intros; reflexivity).
  rewrite nsum_scal_r, stirling_generating. apply Rinv_r. apply Rgt_not_eq, rising_pos, Hh.
Qed.
