(** Specification for C68: what the operators of the graph that ffbs_step builds compute, in
    terms of the functions of M_ffbs.v. *)
From Verif Require Export M_ffbs.
From Verif Require Export M_ffbs_graph.
Global Open Scope nat_scope.

(** The arrays of ffbs_step: one number, a vector, an [M x N] log likelihood and its transpose,
    transition matrices, one of them, the [N x M] forward weights and their transpose, a
    size, a state, states *)
Inductive fval :=
  | FNum (x : R)
  | FVec (v : M_ffbs.vec)
  | FLogLik (ll : list (list (option R))) (N : nat)
  | FObs (obs : list (list (option R)))
  | FMats (Gs : list mat)
  | FMat (G : mat)
  | FAlphas (alphas : list M_ffbs.vec)
  | FAlphasT (alphas : list M_ffbs.vec)
  | FSize (n : nat)
  | FState (s : nat)
  | FStates (l : list nat).

(** [v / v.sum()] *)
Definition normed (v : M_ffbs.vec) : M_ffbs.vec := map (fun x => x / lsum v)%R v.
(** [Gamma[:, s]] *)
Definition matrix_column (G : mat) (s : nat) : M_ffbs.vec := map (fun i => mget G i s) (seq 0 (length G)).

(** The forward scan gives the weights of every time, first one first; M_ffbs.forward gives
    them last first.  Division by zero has no value. *)
Definition ffbs_fun (bound : R) (k : nat) (xs : list fval) : option fval :=
  match xs with
  | [FVec v] =>
      if decide (k = F_sum \/ k = F_sum_last) then Some (FNum (lsum v))
      else if decide (k = F_transpose) then Some (FVec v) else None
  | [FLogLik ll N] =>
      if decide (k = F_last_dim) then Some (FSize N)
      else if decide (k = F_transpose) then Some (FObs (M_ffbs.transpose ll N)) else None
  | [FMats Gs; FSize N] => if decide (k = F_broadcast_to) then FMats <$> broadcast Gs N else None
  | [FObs obs; FMats Gs; FVec g] =>
      if decide (k = F_forward_scan) then (fun l => FAlphas (rev l)) <$> forward bound (length g) (combine obs Gs) g []
      else None
  | [FAlphas l] => if decide (k = F_transpose) then Some (FAlphasT l) else None
  | [FAlphasT l] => if decide (k = F_transpose) then Some (FAlphas l) else None
  | [FAlphasT l; FSize N] => if decide (k = F_at_last) then FVec <$> l !! (N - 1) else None
  | [FAlphas l; FSize N] => if decide (k = F_init) then Some (FAlphas (take (N - 1) l)) else None
  | [FMats Gs] => if decide (k = F_tail) then Some (FMats (tl Gs)) else None
  | [FMat G; FState s] => if decide (k = F_column) then Some (FVec (matrix_column G s)) else None
  | [FState s] => if decide (k = F_atleast) then Some (FStates [s]) else None
  | [FStates a; FStates b] => if decide (k = F_join) then Some (FStates (a ++ b)) else None
  | [FStates l] => if decide (k = F_reverse) then Some (FStates (rev l)) else None
  | _ => None
  end.
Definition ffbs_elem (s : nat) (xs : list fval) : option fval :=
  match xs with
  | [FVec v; FNum x] => if decide (s = E_truediv) then if Req_EM_T x 0 then None else Some (FVec (map (fun y => y / x)%R v)) else None
  | [FVec a; FVec b] => if decide (s = E_mul) then Some (FVec (vmul (length a) a b)) else None
  | _ => None
  end.
(** the only DimShuffles are those that give the number that a vector is divided by a
    dimension *)
Definition ffbs_base (bound : R) (o : op) (xs : list fval) : option (list fval) :=
  match o with
  | OElem s => (fun x => [x]) <$> ffbs_elem s xs
  | ODimShuffle _ => match xs with [x] => Some [x] | _ => None end
  | OOther c => if decide (c mod 8 = K_fun) then (fun x => [x]) <$> ffbs_fun bound (c / 8) xs else None
  | _ => None
  end.
