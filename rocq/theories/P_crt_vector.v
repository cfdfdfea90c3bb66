(** C67: dispersions that differ between observations (/repo/aemcmc/gibbs.py:367-478). *)
From Verif Require Import S_crt_vector M_crt_vector S_crt L_crt.

Lemma bern_list_mass ps : dexp (bern_list ps) (fun _ => 1) = 1.
Proof.
  induction ps as [|p ps IH]; [simpl; lra|]. cbn [bern_list]. rewrite dexp_bind, dexp_bern, !dexp_bind.
  match goal with |- p * ?A + (1 - p) * ?B = _ => assert (EA : A = 1); [|assert (EB : B = 1); [|rewrite EA, EB; ring]] end.
  - etransitivity; [|exact IH]. apply dexp_ext. intros [s|]; rewrite ?dexp_ret; reflexivity.
  - etransitivity; [|exact IH]. apply dexp_ext. intros [s|]; rewrite ?dexp_ret; reflexivity.
Qed.

Lemma bern_list_fail ps : dexp (bern_list ps) (fun o => if is_fail o then 1 else 0) = 0.
Proof.
  induction ps as [|p ps IH]; [simpl; lra|]. cbn [bern_list]. rewrite dexp_bind, dexp_bern, !dexp_bind.
  match goal with |- p * ?A + (1 - p) * ?B = _ => assert (EA : A = 0); [|assert (EB : B = 0); [|rewrite EA, EB; ring]] end.
  - etransitivity; [|exact IH]. apply dexp_ext. intros [s|]; rewrite ?dexp_ret; reflexivity.
  - etransitivity; [|exact IH]. apply dexp_ext. intros [s|]; rewrite ?dexp_ret; reflexivity.
Qed.

Lemma dexp_const {A} (d : fdist A) c : dexp d (fun _ => c) = c * dexp d (fun _ => 1).
Proof. induction d as [|[o w] d IH]; simpl; [lra|]. rewrite IH. ring. Qed.

Lemma arange2_length y : length (arange2 (Z.of_nat y)) = (y - 1)%nat.
Proof. unfold arange2. rewrite seq_length. lia. Qed.

Definition fits (n y : nat) : bool := Nat.eqb y 2 || Nat.eqb y (S n).

Lemma crt_probs_fits hs y : (2 <= length hs)%nat ->
  (exists ps, crt_probs hs (arange2 (Z.of_nat y)) = Some ps) <-> fits (length hs) y = true.
Proof.
  intros Hn. unfold crt_probs, fits. rewrite arange2_length, Bool.orb_true_iff, !Nat.eqb_eq.
  pose proof (arange2_length y) as Hl.
  destruct (Nat.eqb_spec (length hs) (y - 1)) as [E|E].
  - split; [intros _; lia|eauto].
  - destruct hs as [|h [|h' hs]]; [simpl in Hn; lia|simpl in Hn; lia|].
    destruct (arange2 (Z.of_nat y)) as [|n1 [|n2 ns]]; simpl in *.
    + split; [intros [ps H]; discriminate|lia].
    + split; [lia|eauto].
    + split; [intros [ps H]; discriminate|lia].
Qed.

Lemma single_v_dexp hs y : (2 <= length hs)%nat ->
  dexp (single_sample_CRT_v (Z.of_nat y) hs) (fun o => if is_fail o then 1 else 0) = (if fits (length hs) y then 0 else 1) /\
  dexp (single_sample_CRT_v (Z.of_nat y) hs) (fun _ => 1) = 1.
Proof.
  intros Hn. pose proof (crt_probs_fits hs y Hn) as H. unfold single_sample_CRT_v.
  destruct (crt_probs hs (arange2 (Z.of_nat y))) as [ps|].
  - destruct (fits (length hs) y) eqn:Ef.
    + rewrite !dexp_bind.
      rewrite (dexp_ext (bern_list ps) _ (fun o => if is_fail o then 1 else 0)) by (intros [s|]; rewrite ?dexp_ret; reflexivity).
      rewrite bern_list_fail.
      rewrite (dexp_ext (bern_list ps) _ (fun _ => 1)) by (intros [s|]; rewrite ?dexp_ret; reflexivity).
      rewrite bern_list_mass. auto.
    + destruct H as [H _]. discriminate H. eauto.
  - destruct (fits (length hs) y) eqn:Ef.
    + destruct H as [_ H]. destruct (H eq_refl) as [ps Hps]. discriminate.
    + rewrite !dexp_fail. auto.
Qed.

(** [d] with total weight one, and [c] what a continuation contributes after success *)
Lemma dexp_success {A} (d : fdist A) c :
  dexp d (fun o => match o with Some _ => c | None => 1 end)
  = dexp d (fun o => if is_fail o then 1 else 0) + c * (dexp d (fun _ => 1) - dexp d (fun o => if is_fail o then 1 else 0)).
Proof. induction d as [|[[x|] w] d IH]; simpl; [lra| |]; rewrite IH; ring. Qed.

(** C67. Full claim: for a vector [h], one concentration per count, entry [i] of sample_CRT(y, h)
    has the law CRT(y_i, h_i).  Which calls go through: with two or more concentrations the call
    always ends in an error unless every count is 2 or the number of concentrations plus one. *)
Theorem C67_vector_error_iff_partial :
  forall hs ys, (2 <= length hs)%nat ->
    dprob (scan_CRT_v (map Z.of_nat ys) hs) is_fail
    = if forallb (fun y => (Nat.eqb y 2 || Nat.eqb y (S (length hs)))%bool) ys then 0 else 1.
Proof.
  intros hs ys Hn. rewrite dprob_dexp. induction ys as [|y ys IH]; [simpl; lra|].
  cbn [map scan_CRT_v forallb]. rewrite dexp_bind.
  set (F := if forallb (fun y => (Nat.eqb y 2 || Nat.eqb y (S (length hs)))%bool) ys then 0 else 1) in *.
  rewrite (dexp_ext _ _ (fun o => match o with Some _ => F | None => 1 end)).
  - rewrite dexp_success. destruct (single_v_dexp hs y Hn) as [-> ->]. unfold fits.
    destruct ((Nat.eqb y 2 || Nat.eqb y (S (length hs)))%bool); simpl; fold F; lra.
  - intros [l|]; [|reflexivity]. rewrite dexp_bind, <- IH. apply dexp_ext. intros [ls|]; [rewrite dexp_ret|]; reflexivity.
Qed.
Print Assumptions C67_vector_error_iff_partial.

Lemma bern_list_all ps : dexp (bern_list ps) (fun o => if is_nat (length ps) o then 1 else 0) = lprod ps /\
  forall k, (length ps < k)%nat -> dexp (bern_list ps) (fun o => if is_nat k o then 1 else 0) = 0.
Proof.
  induction ps as [|p ps [IH1 IH2]].
  - split; [simpl; lra|]. intros k Hk. simpl. destruct k; [simpl in Hk; lia|]. simpl. lra.
  - assert (E : forall k, dexp (bern_list (p :: ps)) (fun o => if is_nat (S k) o then 1 else 0)
      = p * dexp (bern_list ps) (fun o => if is_nat k o then 1 else 0)
        + (1 - p) * dexp (bern_list ps) (fun o => if is_nat (S k) o then 1 else 0)).
    { intros k. cbn [bern_list]. rewrite dexp_bind, dexp_bern, !dexp_bind.
      f_equal; f_equal; apply dexp_ext; intros [s|]; rewrite ?dexp_ret; reflexivity. }
    split.
    + change (length (p :: ps)) with (S (length ps)). rewrite E, IH1, (IH2 (S (length ps))) by lia. simpl. ring.
    + intros k Hk. simpl in Hk. destruct k; [lia|]. rewrite E, !IH2 by lia. ring.
Qed.

(** When it goes through it can return impossible numbers: for a count of 2 and [n >= 2]
    concentrations it returns n + 1 tables with positive probability, while the Chinese restaurant
    never has more tables than customers. *)
Theorem C67_vector_refuted :
  forall hs, (2 <= length hs)%nat -> (forall h, In h hs -> 0 < h) ->
    0 < dprob (single_sample_CRT_v 2 hs) (is_nat (S (length hs))) /\
    forall h, 0 < h -> crt_pmf 2 h (S (length hs)) = 0.
Proof.
  intros hs Hn Hp. split.
  - rewrite dprob_dexp.
    assert (E : crt_probs hs (arange2 2) = Some (map (fun h => h / (INR 2 - 1 + h)) hs)).
    { destruct hs as [|h [|h' hs]]; [simpl in Hn; lia|simpl in Hn; lia|]. reflexivity. }
    unfold single_sample_CRT_v. rewrite E. rewrite dexp_bind.
    set (ps := map (fun h => h / (INR 2 - 1 + h)) hs).
    assert (Hlen : length ps = length hs) by (unfold ps; apply map_length).
    rewrite (dexp_ext (bern_list ps) _ (fun o => if is_nat (length ps) o then 1 else 0))
      by (intros [s|]; [rewrite dexp_ret; rewrite <- Hlen|]; reflexivity).
    rewrite (proj1 (bern_list_all ps)). unfold ps. clear -Hp.
    induction hs as [|h hs IH]; simpl; [lra|]. assert (0 < h) by (apply Hp; simpl; auto).
    apply Rmult_lt_0_compat; [apply Rdiv_lt_0_compat; lra|]. apply IH. intros h' Hh'. apply Hp; simpl; auto.
  - intros h Hh. destruct (Req_dec (crt_pmf 2 h (S (length hs))) 0) as [|Hne]; [assumption|exfalso].
    apply crt_pmf_support in Hne; [lia|exact Hh].
Qed.
Print Assumptions C67_vector_refuted.

(** A vector with a single concentration is the same as the scalar: the law of C28. *)
Theorem C67_single_concentration_partial :
  forall ys h, scan_CRT_v ys [h] = scan_CRT ys h.
Proof.
  intros ys h.
  assert (Hb : forall ns, bern_list (map (fun n => h / (INR n - 1 + h)) ns) = bern_sum h ns).
  { induction ns as [|n ns IH]; [reflexivity|]. cbn [map bern_list bern_sum]. rewrite IH. reflexivity. }
  assert (Hp : forall ns, crt_probs [h] ns = Some (map (fun n => h / (INR n - 1 + h)) ns)).
  { intros ns. unfold crt_probs. destruct ns as [|n [|n' ns]]; reflexivity. }
  induction ys as [|y ys IH]; [reflexivity|]. cbn [scan_CRT_v scan_CRT]. rewrite IH.
  unfold single_sample_CRT_v, single_sample_CRT. rewrite Hp, Hb. reflexivity.
Qed.
Print Assumptions C67_single_concentration_partial.

Lemma bc_nil s : bc_shape [] s = Some s.
Proof. unfold bc_shape. simpl. now rewrite rev_involutive. Qed.
Lemma bc_nil_r s : bc_shape s [] = Some s.
Proof.
  unfold bc_shape. assert (E : bc_rev (rev s) (rev []) = Some (rev s)) by (simpl; destruct (rev s); reflexivity).
  rewrite E. simpl. now rewrite rev_involutive.
Qed.

(** The shape of the step.  With a prior with scalar parameters, success probabilities of [n]
    observations and counts of shape [k ++ [m]], the step has shape [k]. *)
Lemma dispersion_shape_k n k m : dispersion_shape [] [] [n] (k ++ [m]) = Some k.
Proof.
  unfold dispersion_shape, sum_last_shape. rewrite rev_app_distr. cbn [rev app obind].
  rewrite rev_involutive, bc_nil. cbn [obind]. rewrite bc_nil. cbn [obind]. apply bc_nil_r.
Qed.

(** The dispersion has shape [sh_h] and the counts are drawn with [size=None]: the new value has the
    shape of the dispersion exactly if the dispersion is a scalar. *)
Theorem C67_step_shape_iff_partial :
  forall sh_h n sh_y, bc_shape sh_h [n] = Some sh_y ->
    exists st, dispersion_shape [] [] [n] sh_y = Some st /\ (st = sh_h <-> sh_h = []).
Proof.
  intros sh_h n sh_y H. unfold bc_shape in H. rewrite <- (rev_involutive sh_h) in *.
  destruct (rev sh_h) as [|a r].
  - simpl in H. injection H as <-. exists []. split; [apply (dispersion_shape_k n [] n)|]. simpl. tauto.
  - rewrite rev_involutive in H. simpl in H. destruct (bc_dim a n) as [d|]; [|discriminate].
    assert (Hr : bc_rev r [] = Some r) by (destruct r; reflexivity). rewrite Hr in H. simpl in H. injection H as <-.
    exists (rev r). split; [apply dispersion_shape_k|]. simpl. split.
    + intros E. apply (f_equal (@length nat)) in E. rewrite app_length in E. simpl in E. lia.
    + intros E. apply (f_equal (@length nat)) in E. rewrite app_length in E. simpl in E. lia.
Qed.
Print Assumptions C67_step_shape_iff_partial.

(** A scalar dispersion and counts drawn with a [size]: one new value for each row of counts. *)
Theorem C67_step_shape_size_refuted :
  forall n k m, k <> [] ->
    exists st, dispersion_shape [] [] [n] (k ++ [m]) = Some st /\ st <> [].
Proof. intros n k m Hk. exists k. split; [apply dispersion_shape_k|exact Hk]. Qed.
Print Assumptions C67_step_shape_size_refuted.

(** In general: the shape of the step is what broadcasting makes of the shapes of the prior's
    parameters and of the counts and probabilities without their last dimension, and there is a step
    exactly if these can be broadcast. *)
Lemma bc_rev_spec s t u : bc_rev s t = Some u <->
  length u = Nat.max (length s) (length t) /\
  forall k, (nth k s 1%nat = nth k t 1%nat /\ nth k u 1%nat = nth k s 1%nat) \/
            (nth k s 1%nat = 1%nat /\ nth k u 1%nat = nth k t 1%nat) \/
            (nth k t 1%nat = 1%nat /\ nth k u 1%nat = nth k s 1%nat).
Proof.
  assert (Hext : forall a b : list nat, length a = length b -> (forall k, nth k a 1%nat = nth k b 1%nat) -> a = b).
  { induction a as [|x a IH]; intros [|y b] Hl Hk; try discriminate; [reflexivity|]. f_equal; [apply (Hk 0%nat)|].
    apply IH; [simpl in Hl; lia|]. intros k. apply (Hk (S k)). }
  assert (Hn : forall k, nth k (@nil nat) 1%nat = 1%nat) by (intros [|k]; reflexivity).
  revert t u. induction s as [|a s IH]; intros t u.
  - cbn [bc_rev length Nat.max]. split.
    + intros H. injection H as <-. split; [reflexivity|]. intros k. rewrite Hn. auto.
    + intros [Hl Hk]. f_equal. apply Hext; [auto|]. intros k. destruct (Hk k) as [[H1 H2]|[[H1 H2]|[H1 H2]]]; rewrite ?Hn in *; congruence.
  - destruct t as [|b t].
    + cbn [bc_rev]. split.
      * intros H. injection H as <-. split; [simpl; lia|]. intros k. rewrite Hn. auto.
      * intros [Hl Hk]. f_equal. apply Hext; [simpl in *; lia|]. intros k.
        destruct (Hk k) as [[H1 H2]|[[H1 H2]|[H1 H2]]]; rewrite ?Hn in *; congruence.
    + cbn [bc_rev]. split.
      * unfold bc_dim. destruct (bc_rev s t) as [r|] eqn:Er.
        -- apply IH in Er as [Hl Hk]. intros H.
           assert (exists d, u = d :: r /\ ((a = b /\ d = a) \/ (a = 1%nat /\ d = b) \/ (b = 1%nat /\ d = a))) as (d & -> & Hd).
           { destruct (Nat.eqb_spec a b); [injection H as <-; exists a; auto|].
             destruct (Nat.eqb_spec a 1); [injection H as <-; exists b; auto|].
             destruct (Nat.eqb_spec b 1); [injection H as <-; exists a; auto|discriminate]. }
           split; [simpl; lia|]. intros [|k]; [exact Hd|apply Hk].
        -- destruct (Nat.eqb a b), (Nat.eqb a 1), (Nat.eqb b 1); discriminate.
      * intros [Hl Hk]. destruct u as [|d u]; [discriminate|].
        assert (Er : bc_rev s t = Some u) by (apply IH; split; [simpl in Hl; lia|]; intros k; apply (Hk (S k))).
        rewrite Er. specialize (Hk 0%nat). simpl in Hk. unfold bc_dim.
        destruct (Nat.eqb_spec a b) as [|Hab]; [repeat f_equal; lia|].
        destruct (Nat.eqb_spec a 1) as [|Ha]; [repeat f_equal; lia|].
        destruct (Nat.eqb_spec b 1) as [|Hb]; [repeat f_equal; lia|lia].
Qed.

Lemma bc_shape_spec s t u : bc_shape s t = Some u <-> broadcasts s t u.
Proof.
  unfold bc_shape, broadcasts, dim_at. rewrite <- (rev_length u), <- (rev_length s), <- (rev_length t), <- bc_rev_spec.
  destruct (bc_rev (rev s) (rev t)) as [r|]; simpl; [|split; discriminate].
  split; intros H; injection H as H; subst; now rewrite ?rev_involutive.
Qed.

Theorem C67_step_shape :
  forall sh_a sh_b sh_p n sh_y m st,
    dispersion_shape sh_a sh_b (sh_p ++ [n]) (sh_y ++ [m]) = Some st <->
    exists s r, broadcasts sh_a sh_y s /\ broadcasts sh_b sh_p r /\ broadcasts s r st.
Proof.
  intros sh_a sh_b sh_p n sh_y m st. unfold dispersion_shape, sum_last_shape. rewrite !rev_app_distr. cbn [rev app obind].
  rewrite !rev_involutive. split.
  - destruct (bc_shape sh_a sh_y) as [s|] eqn:Es; [|discriminate]. cbn [obind].
    destruct (bc_shape sh_b sh_p) as [r|] eqn:Er; [|discriminate]. cbn [obind]. intros H.
    exists s, r. repeat split; now apply bc_shape_spec.
  - intros (s & r & Hs & Hr & H). apply bc_shape_spec in Hs, Hr, H. rewrite Hs. cbn [obind]. rewrite Hr. cbn [obind]. exact H.
Qed.
Print Assumptions C67_step_shape.

(** ** Examples *)
(** two observations with their own dispersion: counts 3 and 0 give an error *)
Example ex_vector_error : dprob (scan_CRT_v [3; 0]%Z [1; 1]) is_fail = 1.
Proof. exact (C67_vector_error_iff_partial [1; 1] [3; 0]%nat ltac:(simpl; lia)). Qed.
(** counts 2 and 3 go through *)
Example ex_vector_no_error : dprob (scan_CRT_v [2; 3]%Z [1; 1]) is_fail = 0.
Proof. exact (C67_vector_error_iff_partial [1; 1] [2; 3]%nat ltac:(simpl; lia)). Qed.
(** three tables for two customers *)
Example ex_vector_impossible : dprob (single_sample_CRT_v 2 [1; 1]) (is_nat 3) = 1 / 4.
Proof. unfold single_sample_CRT_v. simpl. lra. Qed.
(** a dispersion per observation: the new value is a scalar *)
Example ex_shape_vector : bc_shape [5%nat] [5%nat] = Some [5%nat] /\ dispersion_shape [] [] [5%nat] [5%nat] = Some [].
Proof. split; reflexivity. Qed.
(** seven replicates of the counts: seven new values for one dispersion *)
Example ex_shape_size : dispersion_shape [] [] [5%nat] [7%nat; 5%nat] = Some [7%nat].
Proof. reflexivity. Qed.
(** a prior with three values of one parameter and two rows of counts: an error *)
Example ex_shape_error : dispersion_shape [3%nat] [] [5%nat] [2%nat; 5%nat] = None.
Proof. reflexivity. Qed.
Example ex_broadcasts : broadcasts [3%nat; 1%nat] [5%nat] [3%nat; 5%nat].
Proof. apply bc_shape_spec. reflexivity. Qed.
