(** Proofs about the Cong algorithm and the regression functions. *)
From Coq Require Import Ring.
From mathcomp Require Import all_ssreflect all_algebra.
From Verif Require Export L_gauss.
Set Implicit Arguments. Unset Strict Implicit. Unset Printing Implicit Defensive.
Local Open Scope ring_scope.

Section gen.
  Variables (T : Type) (O I : T) (add mul sub : T -> T -> T) (opp : T -> T).
  Hypothesis th : ring_theory O I add mul sub opp eq.
  Add Ring gen_ring : th.
  Lemma gen_polar qx qy bxy bxm bym qm c :
    add (sub (sub (add (add (sub (add (add qx (add bxy bxy)) qy) (add (add bxm bym) (add bxm bym))) qm) c)
      (add (add (sub qx (add bxm bxm)) qm) c)) (add (add (sub qy (add bym bym)) qm) c)) (add qm c) = add bxy bxy.
  Proof. ring. Qed.
End gen.

Section vec.
  Variable F : realFieldType.

  Lemma vmulE n (a b : 'cV[F]_n) : vmul a b = diag a *m b.
  Proof. by apply/matrixP => i j; rewrite (ord1 j) /diag mul_diag_mx !mxE. Qed.

  Lemma scale_rowsE n p (a : 'cV[F]_n) (X : 'M[F]_(n, p)) : scale_rows a X = diag a *m X.
  Proof. by apply/matrixP => i j; rewrite /diag mul_diag_mx !mxE. Qed.

  Lemma add_to_diagE n (B : 'M[F]_n) d : add_to_diag B d = B + diag d.
  Proof.
    apply/matrixP => i j; rewrite !mxE; case: eqP => [->|_]; first by rewrite mulr1n.
    by rewrite mulr0n addr0.
  Qed.

  Lemma diag_inv n (a : 'cV[F]_n) : positive_vec a -> diag (vmap (fun x => 1 / x) a) *m diag a = 1%:M.
  Proof.
    move=> Ha; rewrite /diag mulmx_diag; apply/matrixP => i j; rewrite !mxE.
    by case: eqP => [->|_] //; rewrite div1r mulVf // gt_eqF.
  Qed.

  Lemma diag_inv' n (a : 'cV[F]_n) : positive_vec a -> diag a *m diag (vmap (fun x => 1 / x) a) = 1%:M.
  Proof. by move=> Ha; apply: mulmx1C; apply: diag_inv. Qed.

  Lemma positive_inv n (a : 'cV[F]_n) : positive_vec a -> positive_vec (vmap (fun x => 1 / x) a).
  Proof. by move=> Ha i; rewrite mxE div1r invr_gt0. Qed.
End vec.

Section cong.
  Variable F : realFieldType.
  Variable sqrtF : F -> F.
  Hypothesis sqrtF_spec : forall x, 0 <= x -> 0 <= sqrtF x /\ sqrtF x ^+ 2 = x.

  Lemma diag_sqrt n (a : 'cV[F]_n) :
    positive_vec a -> diag (vmap sqrtF a) *m diag (vmap sqrtF a) = diag a.
  Proof.
    move=> Ha; rewrite /diag mulmx_diag; congr diag_mx; apply/matrixP => i j.
    by rewrite !mxE (ord1 i) -expr2; case: (sqrtF_spec (ltW (Ha j))).
  Qed.

  Lemma diag_isqrt n (a : 'cV[F]_n) :
    positive_vec a -> diag (vmap (fun x => 1 / sqrtF x) a) *m diag (vmap (fun x => 1 / sqrtF x) a)
                      = diag (vmap (fun x => 1 / x) a).
  Proof.
    move=> Ha; rewrite /diag mulmx_diag; congr diag_mx; apply/matrixP => i j.
    rewrite !mxE !div1r -invfM -expr2; congr (_^-1); by case: (sqrtF_spec (ltW (Ha j))).
  Qed.

  (** Woodbury, for abstract [Ai = A^-1], [Oi = Omega^-1] and [Bi = (Phi Ai Phi' + Oi)^-1] *)
  Lemma woodbury n p (A Ai : 'M[F]_p) (O Oi Bi : 'M[F]_n) (Phi : 'M[F]_(n, p)) :
    A *m Ai = 1%:M -> O *m Oi = 1%:M -> (Phi *m Ai *m Phi^T + Oi) *m Bi = 1%:M ->
    (A + Phi^T *m O *m Phi) *m (Ai - Ai *m Phi^T *m Bi *m Phi *m Ai) = 1%:M.
  Proof.
    move=> HA HO HB.
    rewrite mulmxDl !mulmxBr HA !mulmxA HA mul1mx.
    have E : Phi^T *m O *m Phi *m Ai *m Phi^T *m Bi *m Phi *m Ai =
             Phi^T *m O *m Phi *m Ai - Phi^T *m Bi *m Phi *m Ai.
    { have -> : Phi^T *m O *m Phi *m Ai *m Phi^T *m Bi = Phi^T *m O - Phi^T *m Bi.
      { have E1 : Phi *m Ai *m Phi^T *m Bi = 1%:M - Oi *m Bi.
        { by rewrite -HB mulmxDl addrK. }
        rewrite -!mulmxA (mulmxA Ai) (mulmxA Phi) mulmxA (mulmxA Phi) E1.
        by rewrite mulmxBr mulmx1 -(mulmxA Phi^T) (mulmxA O) HO mul1mx. }
      by rewrite !mulmxBl. }
    by rewrite E opprB [X in _ + X]addrC subrK subrK.
  Qed.

  Lemma cong_law n p (A : 'cV[F]_p) (omega : 'cV[F]_n) (phi : 'M[F]_(n, p)) (t : 'cV[F]_n) :
    positive_vec A -> positive_vec omega ->
    let L := diag A + phi^T *m diag omega *m phi in
    gaussian (multivariate_normal_cong2017 sqrtF A omega phi t)
      (invmx L *m (phi^T *m diag omega *m t)) (invmx L).
  Proof.
    move=> HA HO L.
    set Ai := diag (vmap (fun a => 1 / a) A); set Oi := diag (vmap (fun a => 1 / a) omega).
    set B := phi *m Ai *m phi^T + Oi.
    have UL : L \in unitmx by apply: spd_unit; apply: spd_diag_plus.
    have SB : spd B.
    { rewrite /B addrC -{1}(trmxK phi).
      by apply: spd_diag_plus; apply: positive_inv. }
    have UB := spd_unit SB.
    have HB : B *m invmx B = 1%:M by rewrite mulmxV.
    have EL : invmx L = Ai - Ai *m phi^T *m invmx B *m phi *m Ai.
    { have W := woodbury (diag_inv' HA) (diag_inv' HO) HB.
      by apply: (can_inj (mulKmx UL)); rewrite mulmxV // W. }
    have TAi : Ai^T = Ai by rewrite diag_sym.
    have TBi : (invmx B)^T = invmx B by rewrite trmx_inv (proj1 SB).
    set K := Ai *m phi^T *m invmx B.
    set S1 := diag (vmap sqrtF (vmap (fun a => 1 / a) A)).
    set S2 := diag (vmap (fun w => 1 / sqrtF w) omega).
    have E1 : S1 *m S1 = Ai by apply: diag_sqrt; apply: positive_inv.
    have E2 : S2 *m S2 = Oi by apply: diag_isqrt.
    have T1 : S1^T = S1 by rewrite diag_sym.
    have T2 : S2^T = S2 by rewrite diag_sym.
    have KB : K *m B = Ai *m phi^T by rewrite /K -mulmxA mulVmx // mulmx1.
    have EK : invmx L = Ai - K *m phi *m Ai by rewrite EL.
    have EM : K = invmx L *m (phi^T *m diag omega).
    { have : K *m B *m diag omega = Ai *m phi^T *m diag omega by rewrite KB.
      rewrite /B mulmxDr mulmxDl -(mulmxA K Oi) diag_inv // mulmx1 EK mulmxBl !mulmxA => <-.
      by rewrite [X in X - _]addrC addrK. }
    exists (row_mx (S1 - K *m phi *m S1) (- (K *m S2))); split.
    - move=> z; rewrite /multivariate_normal_cong2017 /solve !vmulE scale_rowsE add_to_diagE.
      rewrite -/Ai -/Oi -/S1 -/S2 mulmxA -/B -[X in row_mx _ _ *m X](vsubmxK z) mul_row_col.
      rewrite !mulmxA -/K !mulmxBr !mulmxA mulmxBl mulNmx.
      have -> : invmx L *m phi^T *m diag omega *m t = K *m t.
      { by rewrite -(mulmxA (invmx L)) -EM. }
      by rewrite !addrA (addrC (S1 *m _) (K *m t)).
    - clearbody K; rewrite tr_row_mx mul_row_col linearB /= linearN /= !trmx_mul T1 T2 mulNmx mulmxN opprK.
      rewrite mulmxBr !mulmxBl EK !mulmxA -(mulmxA _ S1 S1) -(mulmxA _ S2 S2) E1 E2.
      rewrite opprB -!addrA; congr (_ + _).
      have : K *m B *m K^T = Ai *m phi^T *m K^T by rewrite KB.
      rewrite /B mulmxDr mulmxDl !mulmxA => <-.
      by rewrite opprD subrK subrr addr0.
  Qed.
End cong.

Section regression.
  Variable F : realFieldType.
  Variable sqrtF : F -> F.
  Hypothesis sqrtF_spec : forall x, 0 <= x -> 0 <= sqrtF x /\ sqrtF x ^+ 2 = x.
  Variable cholesky : forall n, 'M[F]_n -> 'M[F]_n.
  Hypothesis cholesky_spec : forall n (Q : 'M[F]_n), spd Q -> cholesky_factor Q (cholesky Q).

  Lemma gaussian_precision_intro n k (f : 'cV[F]_k -> 'cV[F]_n) m (Q : 'M[F]_n) :
    spd Q -> gaussian f m (invmx Q) -> gaussian_precision f m Q.
  Proof.
    move=> HQ Hf; have U := spd_unit HQ.
    by exists (invmx Q); rewrite mulVmx // mulmxV.
  Qed.

  Lemma over_law n p (omega : 'cV[F]_n) (prec : 'cV[F]_p) (X : 'M[F]_(n, p)) z :
    positive_vec prec -> positive_vec omega ->
    let L := diag prec + X^T *m diag omega *m X in
    gaussian (normal_regression_overdetermined_posterior cholesky omega prec X z)
      (invmx L *m (X^T *m diag omega *m z)) (invmx L).
  Proof.
    move=> HA HO L; rewrite /normal_regression_overdetermined_posterior.
    rewrite add_to_diagE scale_rowsE vmulE (mulmxA X^T _ X) (mulmxA X^T _ z) addrC -/L.
    have HL : spd L by apply: spd_diag_plus.
    by apply: rue_law => //; apply: cholesky_spec.
  Qed.

  Lemma under_law n p (omega : 'cV[F]_n) (prec : 'cV[F]_p) (X : 'M[F]_(n, p)) z :
    positive_vec prec -> positive_vec omega ->
    let L := diag prec + X^T *m diag omega *m X in
    gaussian (normal_regression_underdetermined_posterior sqrtF omega prec X z)
      (invmx L *m (X^T *m diag omega *m z)) (invmx L).
  Proof. by move=> HA HO L; apply: cong_law. Qed.

  Lemma quad_sub k (Q : 'M[F]_k) (x y : 'cV[F]_k) : Q^T = Q ->
    quad Q (x - y) = quad Q x - 2%:R * (x^T *m Q *m y) 0 0 + quad Q y.
  Proof.
    move=> HQ; have TB : (x - y)^T = x^T - y^T by apply/matrixP => ? ?; rewrite !mxE.
    rewrite /quad TB !mulmxBl !mulmxBr.
    have -> : y^T *m Q *m x = (x^T *m Q *m y)^T by rewrite !trmx_mul trmxK HQ mulmxA.
    move: (x^T *m Q *m x) (x^T *m Q *m y) (y^T *m Q *m y) => a b d.
    rewrite !mxE mulr_natl mulr2n opprB opprD !addrA.
    by rewrite [LHS]addrAC.
  Qed.

  Lemma quad_add k (Q : 'M[F]_k) (x y : 'cV[F]_k) : Q^T = Q ->
    quad Q (x + y) = quad Q x + ((x^T *m Q *m y) 0 0 + (x^T *m Q *m y) 0 0) + quad Q y.
  Proof.
    move=> HQ; have TB : (x + y)^T = x^T + y^T by apply/matrixP => ? ?; rewrite !mxE.
    rewrite /quad TB !mulmxDl !mulmxDr.
    have -> : y^T *m Q *m x = (x^T *m Q *m y)^T by rewrite !trmx_mul trmxK HQ mulmxA.
    move: (x^T *m Q *m x) (x^T *m Q *m y) (y^T *m Q *m y) => a b d.
    by rewrite !mxE !addrA.
  Qed.

  Lemma F_ring : @ring_theory F 0 1 +%R *%R (fun a b => a - b) -%R eq.
  Proof.
    split; [exact: add0r|exact: addrC|exact: addrA|exact: mul1r|exact: mulrC|exact: mulrA
           |exact: mulrDl|by []|exact: addrN].
  Qed.

  Lemma energy_square n p (omega : 'cV[F]_n) (prec : 'cV[F]_p) (X : 'M[F]_(n, p)) z :
    positive_vec prec -> positive_vec omega ->
    let L := diag prec + X^T *m diag omega *m X in
    let m := invmx L *m (X^T *m diag omega *m z) in
    exists c, forall beta, regression_energy omega prec X z beta = quad L (beta - m) + c.
  Proof.
    move=> HA HO L m.
    have HL : spd L by apply: spd_diag_plus.
    have UL := spd_unit HL.
    exists (quad (diag omega) z - quad L m) => beta.
    have -> : regression_energy omega prec X z beta =
              quad (diag prec) beta + quad (diag omega) (z - X *m beta).
    { rewrite /regression_energy !quad_diag; congr (_ + _).
      by apply: eq_bigr => i _; congr (_ * _ ^+ 2); rewrite !mxE. }
    rewrite !quad_sub ?diag_sym //; last by case: HL.
    rewrite -[quad (diag omega) (X *m beta)]quad_conj.
    have -> : quad L beta = quad (diag prec) beta + quad (X^T *m diag omega *m X) beta by rewrite -quadD.
    have -> : (beta^T *m L *m m) 0 0 = (z^T *m diag omega *m (X *m beta)) 0 0.
    { rewrite /m -mulmxA (mulmxA L) mulmxV // mul1mx.
      have TR (M : 'M[F]_1) : M 0 0 = M^T 0 0 by rewrite mxE.
      by rewrite TR !trmx_mul !trmxK diag_sym !mulmxA. }
    move: (quad (diag prec) _) (quad (diag omega) z) (quad (X^T *m _ *m X) _) (quad L m) (2%:R * _)
      => a b c d e.
    by rewrite (addrC b (- d)) (addrA _ (- d)) addrK (addrC _ c) !addrA [LHS]addrAC.
  Qed.

  Lemma gaussian_pad n k l (f : 'cV[F]_k -> 'cV[F]_n) m S :
    gaussian f m S -> gaussian (fun e : 'cV[F]_(k + l) => f (usubmx e)) m S.
  Proof.
    move=> [T [Hf HT]]; exists (row_mx T 0); split.
    - by move=> e; rewrite Hf -[X in row_mx _ _ *m X](vsubmxK e) mul_row_col mul0mx addr0.
    - by rewrite tr_row_mx mul_row_col trmx0 mul0mx addr0.
  Qed.

  Lemma gaussian_pad' n k l (f : 'cV[F]_k -> 'cV[F]_n) m S :
    gaussian f m S -> gaussian (fun e : 'cV[F]_(l + k) => f (dsubmx e)) m S.
  Proof.
    move=> [T [Hf HT]]; exists (row_mx 0 T); split.
    - by move=> e; rewrite Hf -[X in row_mx _ _ *m X](vsubmxK e) mul_row_col mul0mx add0r.
    - by rewrite tr_row_mx mul_row_col mul0mx add0r.
  Qed.

  Lemma regression_law n p (omega : 'cV[F]_n) (prec : 'cV[F]_p) (X : 'M[F]_(n, p)) z :
    positive_vec prec -> positive_vec omega ->
    let L := diag prec + X^T *m diag omega *m X in
    gaussian (fun e => normal_regression_posterior sqrtF cholesky omega prec X z (usubmx e) (dsubmx e))
      (invmx L *m (X^T *m diag omega *m z)) (invmx L).
  Proof.
    move=> HA HO L; rewrite /normal_regression_posterior; case: (n < p)%N.
    - by apply: (@gaussian_pad _ _ p (normal_regression_underdetermined_posterior sqrtF omega prec X z)); apply: under_law.
    - by apply: (@gaussian_pad' _ _ (p + n)%N (normal_regression_overdetermined_posterior cholesky omega prec X z)); apply: over_law.
  Qed.

  Lemma regression_draws n p (omega : 'cV[F]_n) (prec : 'cV[F]_p) (X : 'M[F]_(n, p)) z :
    positive_vec prec -> positive_vec omega ->
    draws_from_energy
      (fun e => normal_regression_posterior sqrtF cholesky omega prec X z (usubmx e) (dsubmx e))
      (regression_energy omega prec X z).
  Proof.
    move=> HA HO.
    have [c Hc] := energy_square X z HA HO.
    have HL : spd (diag prec + X^T *m diag omega *m X) by apply: spd_diag_plus.
    eexists; eexists; exists c; split; first exact: HL. split; first exact: Hc.
    by apply: gaussian_precision_intro => //; apply: regression_law.
  Qed.

  (** a law determines its mean and covariance *)
  Lemma gaussian_inj n k (f : 'cV[F]_k -> 'cV[F]_n) m S m' S' :
    gaussian f m S -> gaussian f m' S' -> m = m' /\ S = S'.
  Proof.
    move=> [T [Hf HT]] [T' [Hf' HT']].
    have Em : m = m' by have := Hf 0; rewrite (Hf' 0) !mulmx0 !addr0.
    split=> //; rewrite -HT -HT'.
    suff -> : T = T' by [].
    apply/matrixP => i j; have := Hf (delta_mx j 0); rewrite (Hf' (delta_mx j 0)) -Em => /addrI.
    by rewrite -!colE => /matrixP /(_ i 0); rewrite !mxE.
  Qed.

  (** an energy determines the precision *)
  Lemma energy_polar p (energy : 'cV[F]_p -> F) m (Q : 'M[F]_p) c :
    Q^T = Q -> (forall beta, energy beta = quad Q (beta - m) + c) ->
    forall x y, energy (x + y) - energy x - energy y + energy 0 = 2%:R * (x^T *m Q *m y) 0 0.
  Proof.
    move=> HQ HE x y; rewrite !HE !(quad_sub _ _ HQ) (quad_add _ _ HQ) !mulr_natl !mulr2n.
    have -> : ((x + y)^T *m Q *m m) 0 0 = (x^T *m Q *m m) 0 0 + (y^T *m Q *m m) 0 0.
    { have -> : (x + y)^T = x^T + y^T by apply/matrixP => ? ?; rewrite !mxE.
      by rewrite !mulmxDl mxE. }
    have -> : quad Q 0 = 0 by rewrite /quad mulmx0 mxE.
    have -> : ((0 : 'cV[F]_p)^T *m Q *m m) 0 0 = 0 by rewrite trmx0 !mul0mx mxE.
    rewrite !addr0 subr0 add0r.
    exact: (gen_polar F_ring).
  Qed.

  Lemma energy_prec p (energy : 'cV[F]_p -> F) m (Q : 'M[F]_p) c m' (Q' : 'M[F]_p) c' :
    Q^T = Q -> (forall beta, energy beta = quad Q (beta - m) + c) ->
    Q'^T = Q' -> (forall beta, energy beta = quad Q' (beta - m') + c') -> Q = Q'.
  Proof.
    move=> HQ HE HQ' HE'; apply/matrixP => i j.
    have := energy_polar HQ HE (delta_mx i 0) (delta_mx j 0).
    rewrite (energy_polar HQ' HE') => /(mulfI _) E; symmetry.
    have {E} := E; rewrite pnatr_eq0 => /(_ isT).
    by rewrite !trmx_delta -!mulmxA -!colE -!rowE !mxE.
  Qed.

  Lemma draws_inj p k (f : 'cV[F]_k -> 'cV[F]_p) e e' m (Q : 'M[F]_p) c m' (Q' : 'M[F]_p) c' :
    draws_from_energy f e -> draws_from_energy f e' ->
    Q^T = Q -> (forall beta, e beta = quad Q (beta - m) + c) ->
    Q'^T = Q' -> (forall beta, e' beta = quad Q' (beta - m') + c') -> Q = Q'.
  Proof.
    move=> [m1 [Q1 [c1 [H1 [E1 [S1 [A1 [B1 G1]]]]]]]] [m2 [Q2 [c2 [H2 [E2 [S2 [A2 [B2 G2]]]]]]]] HQ HE HQ' HE'.
    have [_ ES] := gaussian_inj G1 G2.
    rewrite (energy_prec HQ HE (proj1 H1) E1) (energy_prec HQ' HE' (proj1 H2) E2).
    by rewrite -[LHS]mul1mx -B2 -ES -mulmxA A1 mulmx1.
  Qed.

  (** the prior drawn from is the one whose precisions are passed, not any other *)
  Lemma regression_draws_iff n p (omega : 'cV[F]_n) (prec prec' : 'cV[F]_p) (X : 'M[F]_(n, p)) z :
    positive_vec prec -> positive_vec prec' -> positive_vec omega ->
    draws_from_energy
      (fun e => normal_regression_posterior sqrtF cholesky omega prec X z (usubmx e) (dsubmx e))
      (regression_energy omega prec' X z) <-> prec = prec'.
  Proof.
    move=> HA HA' HO; split; last by move=> <-; apply: regression_draws.
    move=> H.
    have [c Hc] := energy_square X z HA HO.
    have [c' Hc'] := energy_square X z HA' HO.
    have := draws_inj (regression_draws X z HA HO) H (proj1 (spd_diag_plus X HA HO)) Hc
                      (proj1 (spd_diag_plus X HA' HO)) Hc'.
    move=> /addIr /matrixP E; apply/matrixP => i j; rewrite (ord1 j).
    by have := E i i; rewrite !mxE eqxx !mulr1n.
  Qed.

  Lemma energy_mean p (energy : 'cV[F]_p -> F) m (Q : 'M[F]_p) c m' c' :
    spd Q -> (forall beta, energy beta = quad Q (beta - m) + c) ->
    (forall beta, energy beta = quad Q (beta - m') + c') -> m = m'.
  Proof.
    move=> [HQ Hp] HE HE'; apply/eqP/negPn/negP => /eqP ne.
    have q0 : quad Q 0 = 0 by rewrite /quad mulmx0 mxE.
    have E1 := HE m; have E2 := HE m'.
    rewrite HE' subrr q0 add0r in E1; rewrite HE' subrr q0 add0r in E2.
    have P1 : 0 < quad Q (m - m') by apply: Hp => /eqP; rewrite subr_eq0 => /eqP.
    have P2 : 0 < quad Q (m' - m) by apply: Hp => /eqP; rewrite subr_eq0 => /eqP /esym.
    have : c < c by rewrite -{2}E1 E2 addrA ltr_addr addr_gt0.
    by rewrite ltxx.
  Qed.

  Lemma regression_draws_iff2 n p (omega : 'cV[F]_n) (prec prec' : 'cV[F]_p) (X : 'M[F]_(n, p)) z z' :
    positive_vec prec -> positive_vec prec' -> positive_vec omega ->
    draws_from_energy
      (fun e => normal_regression_posterior sqrtF cholesky omega prec X z (usubmx e) (dsubmx e))
      (regression_energy omega prec' X z')
    <-> prec = prec' /\ X^T *m diag omega *m z = X^T *m diag omega *m z'.
  Proof.
    move=> HA HA' HO.
    have [c Hc] := energy_square X z HA HO.
    have [c' Hc'] := energy_square X z' HA' HO.
    have HL := spd_diag_plus X HA HO; have HL' := spd_diag_plus X HA' HO.
    split.
    - move=> H.
      have EL := draws_inj (regression_draws X z HA HO) H (proj1 HL) Hc (proj1 HL') Hc'.
      have Ep : prec = prec'.
      { move: EL => /addIr /matrixP E; apply/matrixP => i j; rewrite (ord1 j).
        by have := E i i; rewrite !mxE eqxx !mulr1n. }
      split => //.
      have [m2 [Q2 [c2 [H2 [E2 [S2 [A2 [B2 G2]]]]]]]] := H.
      have [Em _] := gaussian_inj (regression_law X z HA HO) G2.
      have EQ := energy_prec (proj1 HL') Hc' (proj1 H2) E2.
      rewrite -EQ in E2.
      have Em' := energy_mean HL' Hc' E2.
      rewrite -Em' -EL in Em.
      have U := spd_unit HL.
      by move: Em => /(can_inj (mulKVmx U)).
    - move=> [Ep Ez]; subst prec'.
      eexists; eexists; exists c'; split; first exact: HL. split; first exact: Hc'.
      rewrite -Ez; apply: gaussian_precision_intro => //; exact: regression_law.
  Qed.
End regression.
