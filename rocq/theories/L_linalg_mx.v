(** Facts about the matrices that the regression kernels compute. *)
From Coq Require Import Reals.
From mathcomp Require Import all_ssreflect all_algebra.
From Verif Require Import LibRfield M_gauss S_gauss L_gauss_reg.
Set Implicit Arguments. Unset Strict Implicit. Unset Printing Implicit Defensive.
Local Open Scope ring_scope.

Lemma pos_vec n (a : 'cV[R]_n) : (forall i, Rlt R0 (a i 0)) -> positive_vec a.
Proof. by move=> H i; apply/RltP; apply: H. Qed.

Lemma set_diagE n (B : 'M[R]_n) (d c : 'cV[R]_n) : (forall i, c i 0 = Rplus (B i i) (d i 0)) ->
  (\matrix_(i, j) if i == j then c i 0 else B i j) = add_to_diag B d.
Proof. by move=> H; apply/matrixP => i j; rewrite !mxE; case: eqP => // ->; rewrite H. Qed.

Lemma cong_spd n p (A : 'cV[R]_p) (omega : 'cV[R]_n) (phi : 'M[R]_(n, p)) : positive_vec A -> positive_vec omega ->
  spd (add_to_diag (phi *m scale_rows (vmap (fun a => 1 / a) A) phi^T) (vmap (fun w => 1 / w) omega)).
Proof.
  move=> HA HO; rewrite add_to_diagE scale_rowsE mulmxA addrC -{1}(trmxK phi).
  by apply: spd_diag_plus; apply: positive_inv.
Qed.
Lemma over_spd n p (omega : 'cV[R]_n) (prec : 'cV[R]_p) (X : 'M[R]_(n, p)) : positive_vec prec -> positive_vec omega ->
  spd (add_to_diag (X^T *m scale_rows omega X) prec).
Proof. by move=> HA HO; rewrite add_to_diagE scale_rowsE mulmxA addrC; apply: spd_diag_plus. Qed.

Lemma solve_eq n (A : 'M[R]_n) b : spd A -> A *m solve A b = b.
Proof. by move=> /spd_unit U; rewrite /solve mulmxA mulmxV // mul1mx. Qed.
Lemma lower_solve n (Q L : 'M[R]_n) b : spd Q -> cholesky_factor Q L ->
  lower_part L \in unitmx /\ lower_part L *m solve_triangular L b true = b.
Proof.
  move=> HQ HL; have U := factor_unit HQ HL; case: HL => Htri _.
  by rewrite /solve_triangular (lower_part_id Htri) mulmxA mulmxV // mul1mx.
Qed.
Lemma upper_solve n (Q L : 'M[R]_n) b : spd Q -> cholesky_factor Q L ->
  upper_part L^T \in unitmx /\ upper_part L^T *m solve_triangular L^T b false = b.
Proof.
  move=> HQ HL; have U := factor_unit HQ HL; case: HL => Htri _.
  have U' : L^T \in unitmx by rewrite unitmx_tr.
  by rewrite /solve_triangular (upper_part_id Htri) mulmxA mulmxV // mul1mx.
Qed.

(** entries, with the operations of Coq's real numbers *)
Lemma add_at n (a b : 'cV[R]_n) i : (a + b) i 0 = Rplus (a i 0) (b i 0).
Proof. by rewrite mxE. Qed.
Lemma sub_at n (a b : 'cV[R]_n) i : (a - b) i 0 = Rminus (a i 0) (b i 0).
Proof. by rewrite !mxE. Qed.
Lemma vmap_at n f (a : 'cV[R]_n) i : vmap f a i 0 = f (a i 0).
Proof. by rewrite mxE. Qed.
Lemma vmul_at n (a b : 'cV[R]_n) i : vmul a b i 0 = Rmult (a i 0) (b i 0).
Proof. by rewrite mxE. Qed.
Lemma div1_at (x : R) : x <> R0 -> 1 / x = Rdiv R1 x.
Proof. by move=> H; rewrite RdivE. Qed.
Lemma col_at n (f : 'I_n -> R) i : (\col_i f i) i 0 = f i.
Proof. by rewrite mxE. Qed.
Lemma inv_at (x : R) : x <> R0 -> x^-1 = Rinv x.
Proof. by move=> H; rewrite RinvE. Qed.
Lemma ltn_lt n p : (n < p)%N = if Rlt_dec (INR n) (INR p) then true else false.
Proof.
  case: Rlt_dec => H.
  - by apply/ssrnat.ltP; apply: INR_lt.
  - by apply/ssrnat.ltP => H'; apply: H; apply: lt_INR.
Qed.
Lemma nb_z_at n (y : 'I_n -> nat) (h : R) (w : 'cV[R]_n) i : w i 0 <> R0 ->
  (\col_i (2%:R^-1 * (INR (y i) - h) / w i 0)) i 0 = Rdiv (Rmult (Rinv 2) (Rminus (INR (y i)) h)) (w i 0).
Proof.
  move=> H; rewrite mxE (inv_at H) (_ : 2%:R^-1 = Rinv 2) //.
  by rewrite inv_at ?/GRing.natmul //=; apply: Rgt_not_eq; apply: Rlt_gt; apply: Rlt_0_2.
Qed.
Lemma rec_at n (a : 'cV[R]_n) i : a i 0 <> R0 -> (\col_j (a j 0)^-1) i 0 = Rinv (a i 0).
Proof. by move=> H; rewrite mxE inv_at. Qed.
Lemma bern_z_at n (y : 'I_n -> bool) (w : 'cV[R]_n) i : w i 0 <> R0 ->
  (\col_i (((y i)%:R - 2%:R^-1) / w i 0)) i 0 = Rdiv (Rminus (if y i then R1 else R0) (Rinv 2)) (w i 0).
Proof.
  move=> H; rewrite mxE (inv_at H) (_ : 2%:R^-1 = Rinv 2); first by case: (y i).
  by rewrite inv_at ?/GRing.natmul //=; apply: Rgt_not_eq; apply: Rlt_gt; apply: Rlt_0_2.
Qed.
Lemma col_ext n (u v : 'cV[R]_n) : (forall i, u i 0 = v i 0) -> u = v.
Proof. by move=> H; apply/matrixP => i j; rewrite !ord1. Qed.
Lemma mat_ext n p (A B : 'M[R]_(n, p)) : (forall i j, A i j = B i j) -> A = B.
Proof. by move=> H; apply/matrixP. Qed.
Lemma mat_at n p (f : 'I_n -> 'I_p -> R) i j : (\matrix_(i, j) f i j) i j = f i j.
Proof. by rewrite mxE. Qed.
Lemma mat_neg_at n p (A : 'M[R]_(n, p)) i j : (- A) i j = Ropp (A i j).
Proof. by rewrite mxE. Qed.
Lemma neg_mul_at n p (A : 'M[R]_(n, p)) (x : 'cV[R]_p) i : ((- A) *m x) i 0 = Ropp ((A *m x) i 0).
Proof. by rewrite mulNmx mxE. Qed.
Lemma col_mul_at n (A : 'M[R]_(n, 1)) (x : 'cV[R]_1) i : (A *m x) i 0 = Rmult (A i 0) (x 0 0).
Proof. by rewrite mxE big_ord1. Qed.
Lemma mul_solve n (A : 'M[R]_n) (x : 'cV[R]_n) : A \in unitmx -> invmx A *m (A *m x) = x.
Proof. by move=> U; rewrite mulmxA mulVmx // mul1mx. Qed.
Lemma spd_mul_solve n (A : 'M[R]_n) (x : 'cV[R]_n) : spd A -> invmx A *m (A *m x) = x.
Proof. by move=> /spd_unit U; rewrite mul_solve. Qed.
Lemma usub_at p n (z : 'cV[R]_(p + n)) i : usubmx z i 0 = z (lshift n i) 0.
Proof. by rewrite mxE. Qed.
Lemma dsub_at p n (z : 'cV[R]_(p + n)) i : dsubmx z i 0 = z (rshift p i) 0.
Proof. by rewrite mxE. Qed.
Lemma one_one_nonzero (y : 'I_1 -> bool) :
  mulmx (trmx (\matrix_(i, j) IZR 1 : 'M[R]_(1, 1))) (\col_i ((y i)%:R - 2%:R^-1)) <> 0.
Proof.
  move=> /matrixP /(_ 0 0); rewrite !mxE big_ord1 !mxE (_ : IZR 1 = 1) // mul1r => /eqP.
  rewrite subr_eq0 eq_sym; case: (y 0) => /eqP E.
  - by move: E => /eqP; rewrite invr_eq1 (eqr_nat _ 2 1).
  - by move: E => /eqP; rewrite invr_eq0 (eqr_nat _ 2 0).
Qed.
