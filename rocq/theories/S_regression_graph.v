(** Specification: one step of a Gibbs sampler for regression coefficients that introduces
    Polya-Gamma variables. *)
From Coq Require Import Reals ssreflect ssrfun ssrbool.
From mathcomp Require Import eqtype choice fintype ssralg zmodp matrix.
From Verif Require S_regression.
From Verif Require Export S_linalg.
Set Implicit Arguments. Unset Strict Implicit. Unset Printing Implicit Defensive.
Local Open Scope ring_scope.

(** The program draws Polya-Gamma variables [w_i ~ PG(b_i, c_i)], then standard normal
    variables, and returns an array computed from the latter whose density is proportional
    to [density w]. *)
Definition augmentation_step n p (b c : 'I_n -> R) (density : 'cV[R]_n -> 'cV[R]_p -> R) (P : tprog) : Prop :=
  exists x1 x2 k, P = TDraw RV_polyagamma [x1; x2] [n] k /\
    components [n] x1 (at_ord b) /\ components [n] x2 (at_ord c) /\
    forall w, drawn RV_polyagamma [n] w ->
    exists m1 m2 k' (f : 'cV[R]_m1 -> 'cV[R]_m2 -> 'cV[R]_p),
      k w = TDraw RV_standard_normal [number 0; number 1] [m1] (fun z1 =>
            TDraw RV_standard_normal [number 0; number 1] [m2] (k' z1)) /\
      (forall z1 z2, drawn RV_standard_normal [m1] z1 -> drawn RV_standard_normal [m2] z2 ->
         k' z1 z2 = TRet [varr (f (unvec m1 z1) (unvec m2 z2))]) /\
      S_regression.draws_from_density (fun e : 'cV[R]_(m1 + m2) => f (usubmx e) (dsubmx e)) (density (unvec n w)).
