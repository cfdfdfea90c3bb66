(** The program of draws of the horseshoe kernel and Gibbs sweeps. *)
From Coq Require Import Lra.
From Verif Require Export L_horseshoe_graph L_kernel_runs.
From Verif Require Import L_horseshoe L_array L_match L_match_fun L_build L_conjugates L_inner L_gibbs S_gibbs L_elem_value.
Global Open Scope nat_scope.

Lemma components_unique s x f g : components s x f -> components s x g -> forall j, j < size_of s -> f j = g j.
Proof.
  intros [_ Hf] [_ Hg] j Hj. destruct (lookup_lt_is_Some_2 (indices s) j) as [idx Hidx]; [by rewrite indices_length|].
  apply index_at in Hidx as [Hr <-]. specialize (Hf idx Hr). rewrite (Hg idx Hr) in Hf. by injection Hf.
Qed.
Lemma components_ext s x f g : components s x f -> (forall j, j < size_of s -> f j = g j) -> components s x g.
Proof. intros [H1 H2] H. split; [done|]. intros idx Hi. rewrite (H2 idx Hi). f_equal. by apply H, ravel_lt. Qed.

(** the program, with the number of rows in the parameter of the last draw *)
Definition hs_rows (rows p : nat) (beta : nat -> R) (sigma2 : R) (lambda2 : nat -> R) (tau2 : R) : prog ((nat -> R) * R) :=
  (Draw (NExponential p (fun j => 1 + / lambda2 j)) (fun u =>
  Draw (NExponential 1 (fun _ => 1 + / tau2)) (fun z =>
  Draw (NExponential p (fun j => u j + / 2 * beta j ^ 2 * / tau2 / sigma2)) (fun l =>
  Draw (NGamma 1 (fun _ => / 2 * (INR rows + 1)) (fun _ => z 0%nat + / 2 * nsum p (fun j => beta j ^ 2 * l j) / sigma2)) (fun t =>
  Ret (fun j => / R_sqrt.sqrt (l j), / R_sqrt.sqrt (t 0%nat)))))))%R.
Lemma hs_rows_posterior p beta sigma2 lambda2 tau2 : hs_rows p p beta sigma2 lambda2 tau2 = horseshoe_posterior p beta sigma2 lambda2 tau2.
Proof. reflexivity. Qed.

Lemma foldr_nsum n f : foldr Rplus 0%R (f <$> seq 0 n) = nsum n f.
Proof. reflexivity. Qed.

Lemma hs_meets s k rows beta l2 t2 : k <= length s ->
  meets s (ones k) (hs_tprog s k rows beta l2 t2) (hs_rows rows (size_of s) beta 1 l2 t2).
Proof.
  intros Hk. unfold hs_tprog, hs_rows.
  constructor; [apply components_mkt|]. intros u Hu.
  rewrite <- (size_ones k) at 1. constructor; [apply components_mkt|]. intros z Hz.
  constructor.
  { eapply components_ext; [apply components_mkt|]. intros j Hj. cbv beta. unfold Rdiv. ring. }
  intros l Hl. rewrite <- (size_ones k) at 1. constructor.
  - eapply components_ext; [apply (components_ones _ 0); lia|]. done.
  - eapply components_ext; [apply components_mkt|]. intros j Hj. cbv beta. rewrite foldr_nsum.
    rewrite (nsum_ext' _ (fun j => beta j ^ 2 * entries l j)%R (fun j => beta j * beta j * entries l j)%R); [unfold Rdiv; ring|].
    intros i Hi. ring.
  - intros t Ht. constructor; [done|apply components_mkt|done|apply components_mkt].
Qed.

(** ** draws that are not those of a sweep *)
Section draws.
Open Scope R_scope.
Lemma hs_xi_scale p beta sigma2 lambda2 tau2 nu arg :
  0 < sigma2 -> orthant p lambda2 -> 0 < tau2 -> orthant p nu -> arg 0%nat = 1 + / tau2 ->
  ~ draws_reciprocal_of Scale (NExponential 1 arg) (fun xi => hs_joint p beta sigma2 lambda2 tau2 nu (xi 0%nat)).
Proof.
  intros Hs Hl Ht Hnu Harg (c & Hc & H2). simpl node_size in H2.
  assert (Hp : forall x, 0 < x -> orthant 1 (fun _ => x)) by (intros x Hx j _; exact Hx).
  assert (E : forall x, 0 < x -> exists K, K = ln c + nsum p (fun j => hs_term sigma2 tau2 (beta j) (lambda2 j) (nu j)) - 3 / 2 * ln tau2
     /\ - (/ (1 + / tau2) * / x) = K - (1 + / tau2) * / x).
  { intros x Hx. eexists. split; [reflexivity|]. specialize (H2 (fun _ => x) (Hp x Hx)).
    rewrite recip_exp_density, hs_joint_exp in H2 by auto.
    apply (f_equal ln) in H2. rewrite ln_mult in H2 by (auto; apply exp_pos).
    rewrite !ln_exp in H2. rewrite nsum1 in H2. simpl exponential_rate in H2. rewrite Harg in H2. unfold hs_rest in H2.
    match type of H2 with context [nsum p ?f] => set (N := nsum p f) in * end.
    unfold Rdiv in *. lra. }
  destruct (E 1 ltac:(lra)) as (K & E1 & E2). destruct (E (/ 2) ltac:(lra)) as (K' & E3 & E4).
  rewrite <- E1 in E3. subst K'. clear E1 E Hp H2 Hl.
  rewrite Rinv_inv in E4. rewrite Rinv_1 in E2.
  pose proof (Rinv_0_lt_compat _ Ht).
  assert (/ (1 + / tau2) < / 1) by (apply Rinv_lt_contravar; lra). lra.
Qed.
Lemma hs_tau_rows cv rows p beta sigma2 l nu xi shape rate :
  0 < sigma2 -> orthant p l -> orthant p nu -> 0 < xi -> shape 0%nat = / 2 * (INR rows + 1) -> rows <> p ->
  ~ draws_reciprocal_of cv (NGamma 1 shape rate) (fun t => hs_joint p beta sigma2 l (t 0%nat) nu xi).
Proof.
  intros Hs Hl Hnu Hxi Hsh Hne (c & Hc & H). simpl node_size in H.
  pose (K := fun j => / 2 * (ln (l j) + ln sigma2) + (/ 2 * ln (nu j) + 3 / 2 * ln (l j) + / nu j / l j) + (3 / 2 * ln (nu j) + / nu j)).
  pose (B := nsum p (fun j => beta j ^ 2 * / l j)).
  assert (E : forall t, 0 < t -> (/ 2 * (INR rows + 1) + 1) * ln t =
      (INR p + 3) / 2 * ln t + (- ln c + nsum p K + 2 * ln xi + / xi) + (B / (2 * sigma2) + / xi - rate 0%nat) * / t).
  { intros t Ht. assert (Ho : orthant 1 (fun _ => t)) by (intros j _; exact Ht). specialize (H _ Ho). cbv beta in H.
    rewrite recip_gamma_density, hs_joint_exp in H by auto.
    apply (f_equal ln) in H. rewrite ln_mult in H by (auto; apply exp_pos). rewrite !ln_exp, nsum1 in H. rewrite Hsh in H.
    rewrite (nsum_ext' p (fun j => hs_term _ _ _ _ _) (fun j => ((-1) * K j + - / 2 * ln t) + (- / (2 * sigma2 * t)) * (beta j ^ 2 * / l j))) in H.
    - rewrite (nsum_add p (fun j => -1 * K j + - / 2 * ln t)), (nsum_add p (fun j => -1 * K j)),
        nsum_const', (nsum_mul p (-1) K), (nsum_mul p (- / (2 * sigma2 * t)) (fun j => beta j ^ 2 * / l j)) in H.
      fold B in H. unfold hs_rest in H.
      assert (Q : (/ 2 * (INR rows + 1) + 1) * ln t = - rate 0%nat * / t - (ln c + (-1 * nsum p K + INR p * (- / 2 * ln t) + - / (2 * sigma2 * t) * B + (- / 2 * ln xi - 3 / 2 * ln t - / xi / t + (-3 / 2 * ln xi - / xi))))) by lra.
      rewrite Q. field. lra.
    - intros j Hj. unfold hs_term, K. specialize (Hl j Hj). specialize (Hnu j Hj). field. lra. }
  pose proof (E 1 ltac:(lra)) as E1. pose proof (E 2 ltac:(lra)) as E2. pose proof (E (2 * 2) ltac:(lra)) as E4.
  rewrite ln_mult in E4 by lra. rewrite ln_1, Rinv_1 in E1. replace (/ (2 * 2)) with (/ 4) in E4 by (f_equal; lra).
  revert E1 E2 E4. generalize (B / (2 * sigma2) + / xi - rate 0%nat) (- ln c + nsum p K + 2 * ln xi + / xi). intros M N E1 E2 E4.
  pose proof ln_lt_2 as Hl2. assert (HM : M = 0) by lra. subst M. assert (HN : N = 0) by lra. subst N.
  assert (Hz : (INR rows - INR p) * ln 2 = 0) by lra. apply Rmult_integral in Hz as [Hz|Hz]; [|lra].
  apply Hne, INR_eq. lra.
Qed.
End draws.

Lemma orthant_entries s (v : tensor R) : (forall j, j < size_of s -> (0 < entries v j)%R) -> orthant (size_of s) (entries v).
Proof. intros H j Hj. by apply H. Qed.

(** a draw of ones *)
Definition ones_of (s : list nat) : tensor R := mkt s (fun _ => 1%R).
Lemma ones_drawn d s : drawn d s (ones_of s).
Proof.
  split; [apply mkt_ok|]. split; [done|]. intros _. apply Forall_forall. intros x Hx. unfold ones_of, mkt in Hx. cbn [t_data] in Hx.
  apply elem_of_list_fmap in Hx as (? & -> & _). lra.
Qed.
Lemma ones_orthant s : orthant (size_of s) (entries (ones_of s)).
Proof. intros j Hj. unfold ones_of. rewrite entries_mkt by exact Hj. lra. Qed.

Lemma orthant_one k : orthant 1 (entries (ones_of (ones k))).
Proof. pose proof (ones_orthant (ones k)) as H. rewrite size_ones in H. exact H. Qed.

Section not_sweep.
  Context (s : list nat) (k rows : nat) (Hk : k <= length s) (beta l2 : nat -> R) (t2 : R).
  Context (Hl2 : orthant (size_of s) l2) (Ht2 : (0 < t2)%R).

  Lemma hs_not_scale prg : meets s (ones k) (hs_tprog s k rows beta l2 t2) prg -> ~ gibbs_sweep Scale (size_of s) beta 1 l2 t2 prg.
  Proof using All.
    intros Hm (d1 & k1 & -> & _ & _ & H1). unfold hs_tprog in Hm. inversion Hm as [|? ? ? ? ? Hc1 Hk1|]; subst.
    specialize (Hk1 _ (ones_drawn _ _)). destruct (H1 _ (ones_orthant s)) as (d2 & k2 & E2 & _ & H2 & _).
    rewrite E2 in Hk1. inversion Hk1 as [|? ? ? ? ? Hc2 Hk2|]; subst.
    rewrite size_ones in H2. revert H2. apply hs_xi_scale; [lra|done|done|apply orthant_inv, ones_orthant|].
    refine (components_unique _ _ _ _ Hc2 (components_mkt _ _) 0 _). rewrite size_ones. lia.
  Qed.
  Lemma hs_not_rows cv prg : rows <> size_of s -> meets s (ones k) (hs_tprog s k rows beta l2 t2) prg ->
    ~ gibbs_sweep cv (size_of s) beta 1 l2 t2 prg.
  Proof using All.
    intros Hne Hm (d1 & k1 & -> & _ & _ & H1). unfold hs_tprog in Hm. inversion Hm as [|? ? ? ? ? Hc1 Hk1|]; subst.
    specialize (Hk1 _ (ones_drawn _ _)). destruct (H1 _ (ones_orthant s)) as (d2 & k2 & E2 & _ & _ & H2).
    rewrite E2 in Hk1. inversion Hk1 as [|? ? ? ? ? Hc2 Hk2|]; subst.
    specialize (Hk2 _ (ones_drawn _ _)). destruct (H2 _ (orthant_one k)) as (d3 & k3 & E3 & _ & _ & H3).
    rewrite E3 in Hk2. inversion Hk2 as [|? ? ? ? ? Hc3 Hk3|]; subst.
    specialize (Hk3 _ (ones_drawn _ _)). destruct (H3 _ (ones_orthant s)) as (d4 & k4 & E4 & _ & H4 & _).
    rewrite E4 in Hk3. inversion Hk3 as [| |? ? ? ? ? ? ? Hc4 Hc5 Hk4]; subst.
    rewrite size_ones in H4. revert H4.
    eapply hs_tau_rows; [lra|apply orthant_inv, ones_orthant|apply orthant_inv, ones_orthant|apply Rinv_0_lt_compat, (orthant_one k); lia| |exact Hne].
    refine (components_unique _ _ _ _ Hc4 (components_ones _ 0 _ _) 0 _); [lia|]. rewrite size_ones. lia.
  Qed.
End not_sweep.

(** ** the finder *)
Lemma mk_elem_fresh B h e vs : good_heap h -> (forall v, v ∈ vs -> is_Some (hv h v)) -> hv h (mk_elem B h e vs).2 = None.
Proof.
  intros Hg Hv. pose proof (elem_ok h (fun _ => True) B h e vs) as H. cbv zeta in H.
  destruct H as (_ & _ & _ & H); [split; [apply extends_refl|done]|intros v Hvin; split; [by apply Hv|by left]|]. exact H.
Qed.
Lemma horseshoe_kernel (B : builder) h n nd y lam tau : good_heap h -> (forall v, shared_var h v -> owner h v = None) ->
  constant_leaves h -> hn h n = Some nd -> n_outs nd !! 1 = Some y -> builder_ok B ->
  horseshoe_match B h y = Ok (lam, tau) ->
  exists h' m lam' tau' l2 t2 inner,
    normal_horseshoe_finder B h n = (h', Ok [(lam, lam', []); (tau, tau', [])]) /\ extends h h' /\
    kernel_node h' m [y; l2; t2] inner [lam'; tau'] /\
    forall scalar other cval, ranks_ok B other -> constants_ok B cval -> arithmetic_ok scalar -> sums_ok other ->
    forall rho p rest k (beta lf : nat -> R) (tf : R), let s := p :: rest in k <= length s ->
      gives_old h rho -> has_value B scalar other cval h rho y (mkt s beta) ->
      has_value B scalar other cval h rho lam (mkt s lf) -> has_value B scalar other cval h rho tau (mkt (ones k) (fun _ => tf)) ->
      (forall j, (j < size_of s)%nat -> lf j <> 0%R) -> tf <> 0%R ->
      let l2f := fun j => (lf j * lf j)%R in let t2f := (tf * tf)%R in
      has_value B scalar other cval h' rho l2 (mkt s l2f) /\ has_value B scalar other cval h' rho t2 (mkt (ones k) (fun _ => t2f)) /\
      realises scalar other cval h' [] (given [y; l2; t2] [mkt s beta; mkt s l2f; mkt (ones k) (fun _ => t2f)]) inner (hs_tprog s k p beta l2f t2f).
Proof.
  intros Hg Hleaf Hcl Hn Hy HB Hm. pose proof (y_some h Hg n nd y Hn Hy) as Sy. pose proof (y_owner h Hg n nd y Hn Hy) as Oy.
  pose proof (y_plain h Hg n nd y Hn Hy (fun v _ => Hleaf v)) as Py.
  unfold normal_horseshoe_finder, with_rv. rewrite Hn, Hy, Hm.
  apply horseshoe_match_iff in Hm as (mu & scale & a & b & Hrv & Hap & (na & ka & nda & Ha & _) & (nb & kb & ndb & Hb & _) & Hlt).
  assert (Hlt' : is_Some (hv h lam) /\ is_Some (hv h tau)).
  { apply owner_some in Ha. apply owner_some in Hb. destruct Hlt as [(_ & -> & ->)|(_ & _ & -> & ->)]; done. }
  destruct Hlt' as [Slam Stau]. clear Hlt Ha Hb Hap Hrv.
  pose proof (mk_const_struct h (b_int B 2) Hg) as T1.
  pose proof (fun scalar other cval rho (HC : constants_ok B cval) Ho => const_keeps B scalar other cval rho h (b_int B 2) _ Hg Ho (cn_int B cval HC 2) (eq_sym (bo_int B HB 2))) as V1.
  destruct (mk_const h _) as [h1 two]. cbn [fst snd] in T1, V1. destruct T1 as (E1 & G1 & S1).
  pose proof (mk_elem_struct B h1 E_pow [tau; two] G1 (two_some _ _ _ (extends_some _ _ _ E1 Stau) S1)) as T2.
  pose proof (mk_elem_plain B h1 E_pow [tau; two]) as P2.
  pose proof (mk_elem_fresh B h1 E_pow [tau; two] G1 (two_some _ _ _ (extends_some _ _ _ E1 Stau) S1)) as N2.
  pose proof (fun scalar other cval rho xs z => elem_keeps B HB scalar other cval rho h1 E_pow [tau; two] xs z G1) as V2.
  destruct (mk_elem B h1 E_pow _) as [h2 tau2]. cbn [fst snd] in T2, P2, V2, N2. destruct T2 as (E2 & G2 & S2).
  pose proof (mk_const_struct h2 (b_int B 2) G2) as T3.
  pose proof (fun scalar other cval rho (HC : constants_ok B cval) Ho => const_keeps B scalar other cval rho h2 (b_int B 2) _ G2 Ho (cn_int B cval HC 2) (eq_sym (bo_int B HB 2))) as V3.
  destruct (mk_const h2 _) as [h3 two']. cbn [fst snd] in T3, V3. destruct T3 as (E3 & G3 & S3).
  pose proof (extends_trans _ _ _ (extends_trans _ _ _ E1 E2) E3) as E13.
  pose proof (mk_elem_struct B h3 E_pow [lam; two'] G3 (two_some _ _ _ (extends_some _ _ _ E13 Slam) S3)) as T4.
  pose proof (mk_elem_plain B h3 E_pow [lam; two']) as P4.
  pose proof (mk_elem_fresh B h3 E_pow [lam; two'] G3 (two_some _ _ _ (extends_some _ _ _ E13 Slam) S3)) as N4.
  pose proof (fun scalar other cval rho xs z => elem_keeps B HB scalar other cval rho h3 E_pow [lam; two'] xs z G3) as V4.
  destruct (mk_elem B h3 E_pow _) as [h4 lam2]. cbn [fst snd] in T4, P4, V4, N4. destruct T4 as (E4 & G4 & S4).
  pose proof (extends_trans _ _ _ E13 E4) as E14. pose proof (extends_trans _ _ _ E3 E4) as E34.
  assert (Hi : forall u, u ∈ [y; lam2; tau2] -> is_Some (hv h4 u)).
  { intros u [->|[->|[->|?%elem_of_nil]%elem_of_cons]%elem_of_cons]%elem_of_cons; [|done| |done].
    - eapply extends_some; [exact E14|exact Sy].
    - eapply extends_some; [exact E34|done]. }
  pose proof (mk_body_struct B h4 [y; lam2; tau2] horseshoe_code horseshoe_outs G4 Hi eq_refl) as T5.
  pose proof (fun scalar other cval HR HC => mk_body_realises B HB scalar other cval HR HC horseshoe_code horseshoe_outs h4 [y; lam2; tau2]) as V5.
  destruct (mk_body B h4 _ _ _) as [h5 inner]. cbv zeta in T5, V5. cbn [fst snd] in T5, V5. destruct T5 as (E5 & G5 & Hr & Hli).
  destruct P2 as [ow2 P2]. destruct P4 as [ow4 P4].
  assert (Hpl : forall u, u ∈ [y; lam2; tau2] -> is_constant h5 u = false /\ ~ shared_var h5 u).
  { intros u [->|[->|[->|?%elem_of_nil]%elem_of_cons]%elem_of_cons]%elem_of_cons; [| | |done].
    - destruct Sy as [[nm ty kd ow] Hyv]. pose proof (proj1 (extends_trans _ _ _ E14 E5) _ _ Hyv) as Hy5. split.
      + unfold is_constant. rewrite Hy5. destruct kd as [c| |]; [|done|done].
        pose proof (Hcl y nm ty c ow Hyv) as Hno. unfold owner in Oy. rewrite Hyv in Oy. cbn in Oy. congruence.
      + intros Hs. apply Py. apply (shared_extends h h5 y (extends_trans _ _ _ E14 E5) ltac:(eauto)) in Hs. exact Hs.
    - pose proof (proj1 E5 _ _ P4) as Q. split; [unfold is_constant; by rewrite Q|]. intros (? & ? & ? & ? & Q'). rewrite Q in Q'. done.
    - pose proof (proj1 (extends_trans _ _ _ E34 E5) _ _ P2) as Q. split; [unfold is_constant; by rewrite Q|]. intros (? & ? & ? & ? & Q'). rewrite Q in Q'. done. }
  change [PVar y; PVar lam2; PVar tau2] with (PVar <$> [y; lam2; tau2]).
  assert (Hrc : remove_constants h5 (PVar <$> [y; lam2; tau2]) = [y; lam2; tau2]).
  { cbn. rewrite (proj1 (Hpl y ltac:(by left))), (proj1 (Hpl lam2 ltac:(right; by left))), (proj1 (Hpl tau2 ltac:(right; right; by left))). done. }
  destruct (mk_kernel_cases h5 K_horseshoe [y; lam2; tau2] inner [posterior_name h lam "lambda"; posterior_name h tau "tau"] G5) as [[(v & Hv & Hs) _]|[_ H]].
  - intros u Hu. eapply extends_some; [exact E5|by apply Hi].
  - intros u Hu. by apply Hr.
  - exact Hli.
  - exfalso. by apply (proj2 (Hpl v Hv)).
  - destruct H as (h' & outs & m & -> & E6 & G6 & Hlen & Hnd & Hnode & Ho).
    destruct outs as [|l' [|t' [|]]]; try done. rewrite Hrc in Hnode.
    pose proof (extends_trans _ _ _ (extends_trans _ _ _ E14 E5) E6) as E16. pose proof (extends_trans _ _ _ E5 E6) as E46.
    exists h', m, l', t', lam2, tau2, inner. split; [done|]. split; [done|]. split.
    { split; [exact Hli|]. exists K_horseshoe. rewrite Hnode. do 3 f_equal. symmetry. apply shared_inputs_extends; [exact E6|apply G5|exact Hr]. }
    intros scalar other cval HR HC HA HF rho p rest k beta lf tf Hk Hold Hyv Hlv Htv Hl0 Ht0.
    set (s := p :: rest) in *. set (l2f := fun j => (lf j * lf j)%R). set (t2f := (tf * tf)%R).
    specialize (V1 scalar other cval rho HC Hold). pose proof V1 as (_ & _ & O1 & W1).
    assert (K2 : keeps B scalar other cval rho h1 h2 tau2 (mkt (ones k) (fun _ => t2f))).
    { eapply V2; [exact O1|apply F2_c; [eapply has_extends; [apply Hg|exact E1|exact Hold|exact Htv]|apply F2_1; exact W1]|].
      apply (elem_components _ (ones k) _ [fun _ => tf; fun _ => 2%R]).
      - apply Forall2_cons_2; [apply components_mkt|]. apply Forall2_cons_2; [exact (components_ones (ones k) 0 2%R ltac:(lia))|apply Forall2_nil_2].
      - eexists. split; [apply elem_of_list_here|done].
      - intros j Hj. cbn. apply (ar_square scalar HA). }
    pose proof K2 as (_ & _ & O2 & W2). specialize (V3 scalar other cval rho HC O2). pose proof V3 as (_ & _ & O3 & W3).
    assert (K4 : keeps B scalar other cval rho h3 h4 lam2 (mkt s l2f)).
    { eapply V4; [exact O3|apply F2_c; [eapply has_extends; [apply Hg|exact E13|exact Hold|exact Hlv]|apply F2_1; exact W3]|].
      apply (elem_components _ s _ [lf; fun _ => 2%R]).
      - apply Forall2_cons_2; [apply components_mkt|]. apply Forall2_cons_2; [exact (components_ones s 0 2%R ltac:(lia))|apply Forall2_nil_2].
      - eexists. split; [apply elem_of_list_here|done].
      - intros j Hj. cbn. apply (ar_square scalar HA). }
    pose proof K4 as (_ & _ & O4 & W4).
    split; [eapply has_extends; [apply G4|exact E46|exact O4|exact W4]|].
    split; [eapply has_extends; [apply G2|exact (extends_trans _ _ _ E34 E46)|exact O2|exact W2]|].
    assert (Hgo : gives_old h4 (given [y; lam2; tau2] [mkt s beta; mkt s l2f; mkt (ones k) (fun _ => t2f)])).
    { intros v Hv. by apply Hi, (given_elem _ _ _ Hv). }
    eapply realises_extends; [apply G5|exact E6|eapply gives_old_extends; [exact E5|exact Hgo]|].
    refine (proj2 (proj2 (V5 scalar other cval HR HC [mkt s beta; mkt s l2f; mkt (ones k) (fun _ => t2f)] _ _ G4 Hgo _ _))).
    + assert (D1 : lam2 <> y) by (intros ->; destruct (extends_some _ _ _ E13 Sy) as [? Q]; clear -Q N4; congruence).
      assert (D2 : tau2 <> y) by (intros ->; destruct (extends_some _ _ _ E1 Sy) as [? Q]; clear -Q N2; congruence).
      assert (D3 : tau2 <> lam2) by (intros ->; destruct (extends_some _ _ _ E3 S2) as [? Q]; clear -Q N4; congruence).
      assert (Gv : forall v x, given [y; lam2; tau2] [mkt s beta; mkt s l2f; mkt (ones k) (fun _ => t2f)] v = Some x -> rank x = a_ndim B (ty_def h4 v) ->
        has_value B scalar other cval h4 (given [y; lam2; tau2] [mkt s beta; mkt s l2f; mkt (ones k) (fun _ => t2f)]) v x).
      { intros v x Hx Hrk. split; [by apply ev_given|exact Hrk]. }
      repeat apply F2_c; [| | |apply Forall2_nil_2]; apply Gv; cbn [given].
      * by rewrite decide_True.
      * rewrite (ty_def_extends h h4); [apply Hyv|exact E14|exact Sy].
      * rewrite decide_False by done. by rewrite decide_True.
      * apply W4.
      * rewrite decide_False by done. rewrite decide_False by done. by rewrite decide_True.
      * rewrite (ty_def_extends h2 h4); [apply W2|exact E34|exact S2].
    + apply horseshoe_runs; [done..| |].
      * intros j Hj. unfold l2f. specialize (Hl0 j Hj). by apply Rsqr_pos_lt.
      * by apply Rsqr_pos_lt.
Qed.
