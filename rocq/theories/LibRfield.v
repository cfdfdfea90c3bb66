(** The real numbers as a MathComp ordered field. *)
From Coq Require Import Reals Lra Epsilon FunctionalExtensionality.
From mathcomp Require Import all_ssreflect all_algebra.
Set Implicit Arguments. Unset Strict Implicit. Unset Printing Implicit Defensive.
Import Order.TTheory GRing.Theory Num.Theory.
Local Open Scope R_scope.

Definition eqR (x y : R) : bool := if Req_EM_T x y then true else false.
Lemma eqRP : Equality.axiom eqR.
Proof. by move=> x y; rewrite /eqR; case: Req_EM_T => H; constructor. Qed.
Canonical R_eqMixin := EqMixin eqRP.
Canonical R_eqType := Eval hnf in EqType R R_eqMixin.

Fact inhR : inhabited R. Proof. exact: (inhabits R0). Qed.
Definition pickR (P : pred R) (n : nat) : option R :=
  let x := epsilon inhR P in if P x then Some x else None.
Fact pickR_some P n x : pickR P n = Some x -> P x.
Proof. by rewrite /pickR; case E: (P _) => [] // [<-]. Qed.
Fact pickR_ex (P : pred R) : (exists x : R, P x) -> exists n, pickR P n.
Proof. by move=> H; exists 0%N; rewrite /pickR (epsilon_spec inhR P H). Qed.
Fact pickR_ext (P Q : pred R) : P =1 Q -> pickR P =1 pickR Q.
Proof. by move=> H; have -> : P = Q by apply: functional_extensionality. Qed.
Definition R_choiceMixin : choiceMixin R := Choice.Mixin pickR_some pickR_ex pickR_ext.
Canonical R_choiceType := Eval hnf in ChoiceType R R_choiceMixin.

Fact RplusA : associative Rplus. Proof. by move=> *; rewrite Rplus_assoc. Qed.
Definition R_zmodMixin := ZmodMixin RplusA Rplus_comm Rplus_0_l Rplus_opp_l.
Canonical R_zmodType := Eval hnf in ZmodType R R_zmodMixin.

Fact RmultA : associative Rmult. Proof. by move=> *; rewrite Rmult_assoc. Qed.
Fact R1_neq_0 : R1 != R0. Proof. by apply/eqRP; apply: R1_neq_R0. Qed.
Definition R_ringMixin :=
  RingMixin RmultA Rmult_1_l Rmult_1_r Rmult_plus_distr_r Rmult_plus_distr_l R1_neq_0.
Canonical R_ringType := Eval hnf in RingType R R_ringMixin.
Canonical R_comRingType := Eval hnf in ComRingType R Rmult_comm.

Definition Rinvx r := if r != 0 then / r else r.
Definition unit_R r := r != 0.
Lemma RmultRinvx : {in unit_R, left_inverse 1 Rinvx Rmult}.
Proof. move=> r; rewrite -topredE /unit_R /Rinvx => /= rN0; rewrite rN0; apply: Rinv_l; exact/eqRP. Qed.
Lemma RinvxRmult : {in unit_R, right_inverse 1 Rinvx Rmult}.
Proof. move=> r; rewrite -topredE /unit_R /Rinvx => /= rN0; rewrite rN0; apply: Rinv_r; exact/eqRP. Qed.
Lemma intro_unit_R x y : y * x = 1 /\ x * y = 1 -> unit_R x.
Proof. move=> [H _]; apply/eqRP => E; move: H; rewrite E Rmult_0_r => H; lra. Qed.
Lemma Rinvx_out : {in predC unit_R, Rinvx =1 id}.
Proof. by move=> x; rewrite inE/= /Rinvx -if_neg => ->. Qed.
Definition R_unitRingMixin := UnitRingMixin RmultRinvx RinvxRmult intro_unit_R Rinvx_out.
Canonical R_unitRing := Eval hnf in UnitRingType R R_unitRingMixin.
Canonical R_comUnitRingType := Eval hnf in [comUnitRingType of R].

Lemma R_idomainMixin x y : x * y = 0 -> (x == 0) || (y == 0).
Proof. by case/Rmult_integral => ->; rewrite eqxx ?orbT. Qed.
Canonical R_idomainType := Eval hnf in IdomainType R R_idomainMixin.
Lemma R_fieldMixin : GRing.Field.mixin_of [unitRingType of R].
Proof. by []. Qed.
Canonical R_fieldType := FieldType R R_fieldMixin.

Definition Rleb (x y : R) : bool := if Rle_dec x y then true else false.
Definition Rltb (x y : R) : bool := if Rlt_dec x y then true else false.
Lemma RlebP x y : reflect (x <= y) (Rleb x y).
Proof. by rewrite /Rleb; case: Rle_dec => H; constructor. Qed.
Lemma RltbP x y : reflect (x < y) (Rltb x y).
Proof. by rewrite /Rltb; case: Rlt_dec => H; constructor. Qed.

Section num.
  Local Definition Rnorm : R -> R := Rabs.
  Lemma Rnorm_triang x y : Rleb (Rnorm (x + y)) (Rnorm x + Rnorm y).
  Proof. apply/RlebP; exact: Rabs_triang. Qed.
  Lemma addr_Rgtb0 x y : Rltb 0 x -> Rltb 0 y -> Rltb 0 (x + y).
  Proof. by move/RltbP=> Hx /RltbP Hy; apply/RltbP; apply: Rplus_lt_0_compat. Qed.
  Lemma Rnorm0_eq0 x : Rnorm x = 0 -> x = 0.
  Proof. by rewrite /Rnorm => H; case: (Req_EM_T x 0) => // /Rabs_no_R0. Qed.
  Lemma Rleb_leVge x y : Rleb 0 x -> Rleb 0 y -> (Rleb x y) || (Rleb y x).
  Proof.
    move=> _ _; case: (Rle_or_lt x y) => H; apply/orP; [left|right]; apply/RlebP => //.
    exact: Rlt_le.
  Qed.
  Lemma RnormM : {morph Rnorm : x y / x * y}.
  Proof. exact: Rabs_mult. Qed.
  Lemma Rleb_def x y : (Rleb x y) = (Rnorm (y - x) == y - x).
  Proof.
    apply/(sameP (RlebP x y))/(iffP idP)=> [/eqP H| /Rle_minus H].
    - apply: Rminus_le; rewrite -Ropp_minus_distr.
      apply/Rge_le/Ropp_0_le_ge_contravar; rewrite -H; exact: Rabs_pos.
    - apply/eqP/Rabs_pos_eq; rewrite -Ropp_minus_distr.
      by apply/Ropp_0_ge_le_contravar/Rle_ge.
  Qed.
  Lemma Rltb_def x y : (Rltb x y) = (y != x) && (Rleb x y).
  Proof.
    apply/(sameP (RltbP x y))/(iffP idP) => [/andP [/eqP H /RlebP H2]|H].
    - by case: H2 => // E; case: H.
    - apply/andP; split; [apply/eqP => E; subst; exact: (Rlt_irrefl _ H)|apply/RlebP; exact: Rlt_le].
  Qed.
End num.
Definition R_numMixin := NumMixin Rnorm_triang addr_Rgtb0 Rnorm0_eq0 Rleb_leVge RnormM Rleb_def Rltb_def.
Canonical R_porderType := POrderType ring_display R R_numMixin.
Canonical R_numDomainType := NumDomainType R R_numMixin.
Canonical R_normedZmodType := NormedZmodType R R R_numMixin.
Lemma R_total : totalPOrderMixin R_porderType.
Proof.
  move=> x y; case: (Rle_or_lt x y) => H; apply/orP; [left|right]; apply/RlebP => //.
  exact: Rlt_le.
Qed.
Canonical R_latticeType := LatticeType R R_total.
Canonical R_distrLatticeType := DistrLatticeType R R_total.
Canonical R_orderType := OrderType R R_total.
Canonical R_numFieldType := [numFieldType of R].
Canonical R_realDomainType := [realDomainType of R].
Canonical R_realFieldType := [realFieldType of R].

(** translation between the two notations *)
Lemma RltP (x y : R) : reflect (Rlt x y) (@Order.lt _ R_porderType x y).
Proof. exact: RltbP. Qed.
Lemma RleP (x y : R) : reflect (Rle x y) (@Order.le _ R_porderType x y).
Proof. exact: RlebP. Qed.
Lemma RinvE (x : R) : x <> 0 -> @GRing.inv R_unitRing x = Rinv x.
Proof. by move=> /eqRP H; rewrite /GRing.inv /= /Rinvx H. Qed.
Lemma RdivE (x y : R) : y <> 0 -> @GRing.mul R_ringType x (@GRing.inv R_unitRing y) = Rdiv x y.
Proof. by move=> H; rewrite RinvE. Qed.
Lemma RexpE (x : R) n : @GRing.exp R_ringType x n = pow x n.
Proof.
  elim: n => [|n IH]; first by rewrite expr0.
  by rewrite exprS IH.
Qed.
Lemma sqrtR_spec (x : R) :
  @Order.le _ R_porderType (0 : R) x ->
  @Order.le _ R_porderType (0 : R) (sqrt x) /\ @GRing.exp R_ringType (sqrt x) 2 = x.
Proof.
  move=> /RleP H; split; first by apply/RleP; apply: sqrt_pos.
  by rewrite RexpE /= Rmult_1_r sqrt_sqrt.
Qed.
