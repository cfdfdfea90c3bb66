(** Proofs about M_gauss. *)
From Verif Require Export M_gauss S_gauss.
Set Implicit Arguments. Unset Strict Implicit. Unset Printing Implicit Defensive.
Local Open Scope ring_scope.

Section quad.
  Variable F : realFieldType.

  Lemma quadD n (P Q : 'M[F]_n) x : quad (P + Q) x = quad P x + quad Q x.
  Proof. by rewrite /quad mulmxDr mulmxDl mxE. Qed.

  Lemma quad_diag n (a : 'cV[F]_n) x : quad (diag a) x = \sum_i a i 0 * x i 0 ^+ 2.
  Proof.
    rewrite /quad /diag mul_mx_diag !mxE; apply: eq_bigr => i _.
    by rewrite !mxE expr2 mulrCA mulrA.
  Qed.

  Lemma quad_conj n p (D : 'M[F]_n) (X : 'M[F]_(n, p)) x : quad (X^T *m D *m X) x = quad D (X *m x).
  Proof. by rewrite /quad trmx_mul !mulmxA. Qed.

  Lemma vec0P n (x : 'cV[F]_n) : x <> 0 -> exists i, x i 0 != 0.
  Proof.
    move=> nz; case: (pickP (fun i => x i 0 != 0)) => [i Hi|H]; first by exists i.
    exfalso; apply: nz; apply/matrixP => i j; rewrite (ord1 j) mxE.
    by have /negbFE/eqP := H i.
  Qed.

  Lemma quad_diag_ge0 n (a : 'cV[F]_n) x : positive_vec a -> 0 <= quad (diag a) x.
  Proof.
    move=> Ha; rewrite quad_diag; apply: sumr_ge0 => i _.
    by rewrite mulr_ge0 ?sqr_ge0 // ltW.
  Qed.

  Lemma quad_diag_gt0 n (a : 'cV[F]_n) x : positive_vec a -> x <> 0 -> 0 < quad (diag a) x.
  Proof.
    move=> Ha /vec0P [i Hi]; rewrite quad_diag (bigD1 i) //=.
    apply: ltr_paddr; last by rewrite mulr_gt0 // exprn_even_gt0.
    by apply: sumr_ge0 => j _; rewrite mulr_ge0 ?sqr_ge0 // ltW.
  Qed.

  Lemma diag_sym n (a : 'cV[F]_n) : (diag a)^T = diag a.
  Proof. by rewrite /diag tr_diag_mx. Qed.

  Lemma spd_diag_plus n p (a : 'cV[F]_p) (w : 'cV[F]_n) (X : 'M[F]_(n, p)) :
    positive_vec a -> positive_vec w -> spd (diag a + X^T *m diag w *m X).
  Proof.
    move=> Ha Hw; split.
    - by rewrite linearD /= diag_sym !trmx_mul diag_sym trmxK mulmxA.
    - move=> x nz; rewrite quadD quad_conj.
      by apply: ltr_paddr; [apply: quad_diag_ge0|apply: quad_diag_gt0].
  Qed.

  Lemma spd_unit n (Q : 'M[F]_n) : spd Q -> Q \in unitmx.
  Proof.
    move=> [Hs Hp]; rewrite unitmxE unitfE; apply/negP => /det0P [v nz Hv].
    have := Hp v^T; rewrite /quad trmxK Hv mul0mx mxE ltxx => H.
    suff : false by []. apply: H => /(congr1 trmx); rewrite trmxK trmx0 => E.
    by rewrite E eqxx in nz.
  Qed.

  Lemma unit_left n (A B : 'M[F]_n) : A *m B = 1%:M -> A \in unitmx.
  Proof. by case/mulmx1_unit. Qed.
End quad.

Section rue.
  Variable F : realFieldType.

  Lemma lower_part_id n (L : 'M[F]_n) :
    (forall i j : 'I_n, (i < j)%N -> L i j = 0) -> lower_part L = L.
  Proof.
    move=> H; apply/matrixP => i j; rewrite mxE; case: leqP => // lt.
    by rewrite H.
  Qed.

  Lemma upper_part_id n (L : 'M[F]_n) :
    (forall i j : 'I_n, (i < j)%N -> L i j = 0) -> upper_part L^T = L^T.
  Proof.
    move=> H; apply/matrixP => i j; rewrite !mxE; case: leqP => // lt.
    by rewrite H.
  Qed.

  Lemma factor_unit n (Q L : 'M[F]_n) : spd Q -> cholesky_factor Q L -> L \in unitmx.
  Proof.
    move=> /spd_unit; rewrite !unitmxE => Hu [_ [_ E]].
    by move: Hu; rewrite -E det_mulmx unitrM => /andP [].
  Qed.

  Lemma rue_law (cholesky : forall n, 'M[F]_n -> 'M[F]_n) n (b : 'cV[F]_n) (Q : 'M[F]_n) :
    spd Q -> cholesky_factor Q (cholesky n Q) ->
    gaussian (multivariate_normal_rue2005 cholesky b Q) (invmx Q *m b) (invmx Q).
  Proof.
    move=> HQ HL; have UL := factor_unit HQ HL; case: (HL) => Htri [_ E].
    have UT : (cholesky n Q)^T \in unitmx by rewrite unitmx_tr.
    have EI : invmx (cholesky n Q)^T *m invmx (cholesky n Q) = invmx Q.
    { have UQ := spd_unit HQ.
      apply: (can_inj (mulKmx UQ)); rewrite mulmxV // -{1}E.
      by rewrite mulmxA -(mulmxA (cholesky n Q)) mulmxV // mulmx1 mulmxV. }
    exists (invmx (cholesky n Q)^T); split.
    - move=> z; rewrite /multivariate_normal_rue2005 /solve_triangular.
      by rewrite (lower_part_id Htri) (upper_part_id Htri) mulmxA EI.
    - by rewrite trmx_inv trmxK.
  Qed.
End rue.

Section chol.
  Variable F : realFieldType.
  Variable sqrtF : F -> F.
  Hypothesis sqrtF_spec : forall x, 0 <= x -> 0 <= sqrtF x /\ sqrtF x ^+ 2 = x.

  (** a Cholesky algorithm, to show that the contract on [cholesky] can be met *)
  Fixpoint chol (n : nat) : 'M[F]_n -> 'M[F]_n :=
    match n with
    | 0 => fun A => A
    | m.+1 => fun A : 'M[F]_(1 + m) =>
        let a := A 0 0 in
        let s := sqrtF a in
        let v := dlsubmx A in
        block_mx s%:M 0 (s^-1 *: v) (chol (drsubmx A - a^-1 *: (v *m v^T))) : 'M[F]_(1 + m)
    end.

  Lemma sqrtF_gt0 x : 0 < x -> 0 < sqrtF x.
  Proof.
    move=> Hx; have [H0 H2] := sqrtF_spec (ltW Hx).
    rewrite lt0r H0 andbT; apply/negP => /eqP E.
    by move: Hx; rewrite -H2 E expr0n ltxx.
  Qed.

  Lemma spd_entry n (A : 'M[F]_n) i : spd A -> 0 < A i i.
  Proof.
    case=> _ H; have := H (delta_mx i 0); rewrite /quad.
    rewrite trmx_delta -rowE -colE !mxE; apply.
    by move=> /matrixP /(_ i 0); rewrite !mxE !eqxx => /eqP; rewrite oner_eq0.
  Qed.

  Lemma sym_block m (A : 'M[F]_(1 + m)) :
    A^T = A -> A = block_mx (A 0 0)%:M (dlsubmx A)^T (dlsubmx A) (drsubmx A).
  Proof.
    move=> Hs; rewrite -[LHS]submxK; congr block_mx; last by rewrite trmx_dlsub Hs.
    apply/matrixP => i j; rewrite !ord1 !mxE eqxx mulr1n.
    by congr (A _ _); apply/val_inj.
  Qed.

  Lemma schur_spd m (A : 'M[F]_(1 + m)) :
    spd A -> spd (drsubmx A - (A 0 0)^-1 *: (dlsubmx A *m (dlsubmx A)^T)).
  Proof.
    move=> HA; have a0 := spd_entry 0 HA; case: HA => Hs Hp.
    have EA := sym_block Hs.
    have Hd : (drsubmx A)^T = drsubmx A by rewrite trmx_drsub Hs.
    set v := dlsubmx A in EA *; set D := drsubmx A in EA Hd *; set a := A 0 0 in EA a0 *.
    split.
    - by rewrite linearB /= linearZ /= trmx_mul trmxK Hd.
    - move=> x nz.
      set c := (v^T *m x) 0 0.
      have Ew : v^T *m x = c%:M by rewrite {1}[v^T *m x]mx11_scalar.
      have Ev : x^T *m v = c%:M by rewrite -[LHS]trmxK trmx_mul trmxK Ew tr_scalar_mx.
      set t : F := - a^-1 * c.
      have := Hp (col_mx t%:M x).
      have -> : quad A (col_mx t%:M x) = quad (D - a^-1 *: (v *m v^T)) x.
      { rewrite /quad EA tr_col_mx mul_row_block mul_row_col tr_scalar_mx.
        rewrite Ev -scalar_mxM mulmxDl -scalar_mxM [_ *m x]mulmxDl -mulmxA Ew.
        rewrite mulmxBr mulmxBl -scalemxAr -scalemxAl mulmxA Ev -(mulmxA _ v^T) Ew -!scalar_mxM.
        rewrite !mxE !eqxx !mulr1n addrA [RHS]addrC; congr (_ + _).
        rewrite -mulrDl.
        have -> : t * a = - c by rewrite /t mulrAC mulNr mulVf ?gt_eqF // mulN1r.
        by rewrite addNr mul0r add0r /t !mulNr mulrA. }
      apply. move=> /(congr1 dsubmx); rewrite col_mxKd linear0. exact: nz.
  Qed.

  Lemma chol_step m (Q : 'M[F]_(1 + m)) (C : 'M[F]_m) :
    spd Q -> cholesky_factor (drsubmx Q - (Q 0 0)^-1 *: (dlsubmx Q *m (dlsubmx Q)^T)) C ->
    cholesky_factor Q (block_mx (sqrtF (Q 0 0))%:M 0 ((sqrtF (Q 0 0))^-1 *: dlsubmx Q) C).
  Proof.
    move=> HQ [Htri [Hd E]].
    have a0 := spd_entry 0 HQ; have s0 := sqrtF_gt0 a0; have [_ s2] := sqrtF_spec (ltW a0).
    split; last split.
    - move=> i j; rewrite -(splitK i) -(splitK j).
      case: (split i) => i' /=; case: (split j) => j' /=.
      + by rewrite !ord1.
      + by rewrite block_mxEur mxE.
      + by rewrite ord1 ltn0.
      + by rewrite block_mxEdr /= !ltnS; apply: Htri.
    - move=> i; rewrite -(splitK i); case: (split i) => i' /=.
      + by rewrite block_mxEul !mxE eqxx mulr1n.
      + by rewrite block_mxEdr.
    - rewrite tr_block_mx trmx0 tr_scalar_mx mulmx_block !mul0mx !mulmx0 !addr0.
      rewrite E [RHS](sym_block (proj1 HQ)); congr block_mx.
      + by rewrite -scalar_mxM -expr2 s2.
      + by rewrite mul_scalar_mx linearZ /= scalerA mulfV ?gt_eqF // scale1r.
      + by rewrite mul_mx_scalar scalerA mulfV ?gt_eqF // scale1r.
      + rewrite linearZ /= -scalemxAl -scalemxAr scalerA -invfM -expr2 s2.
        by rewrite addrC subrK.
  Qed.

  Lemma chol_spec n (Q : 'M[F]_n) : spd Q -> cholesky_factor Q (chol Q).
  Proof.
    elim: n Q => [|m IH] Q HQ.
    - by split; [case|split; [case|apply/matrixP; case]].
    - exact: (@chol_step m Q _ HQ (IH _ (@schur_spd m Q HQ))).
  Qed.
End chol.
