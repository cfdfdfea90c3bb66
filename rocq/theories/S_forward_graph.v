(** Specification for C68: what the operators in the graph of forward_step compute. *)
From Verif Require Export M_ffbs.
From Verif Require Export M_forward_graph.
Global Open Scope nat_scope.

(** log likelihoods (None: minus infinity), their maximum, a number, a vector, a matrix, a truth value *)
Inductive wval :=
  | WLogs (l : list (option R))
  | WMax (m : option R)
  | WNum (x : R)
  | WVec (v : M_ffbs.vec)
  | WMat (G : mat)
  | WBool (b : bool).

Definition forward_fun (k : nat) (xs : list wval) : option wval :=
  match xs with
  | [WLogs l] =>
      if decide (k = F_transpose) then Some (WLogs l)
      else if decide (k = F_max) then Some (WMax (lmax l)) else None
  | [WVec v] => if decide (k = F_sum_last) then Some (WNum (lsum v)) else None
  | [WBool c; WVec a; WVec b] => if decide (k = F_switch) then Some (WVec (if c then a else b)) else None
  | _ => None
  end.
(** minus infinity minus minus infinity and division by zero have no value *)
Definition forward_elem (s : nat) (xs : list wval) : option wval :=
  match xs with
  | [WLogs l; WMax (Some m)] =>
      if decide (s = E_sub) then Some (WLogs (map (fun x => match x with Some a => Some (a - m)%R | None => None end) l)) else None
  | [WLogs l] => if decide (s = E_exp) then Some (WVec (map (fun x => match x with Some a => exp a | None => 0%R end) l)) else None
  | [WVec a; WVec b] => if decide (s = E_mul) then Some (WVec (vmul (length a) a b)) else None
  | [WNum a; WNum b] => if decide (s = E_lt) then Some (WBool (if Rlt_dec a b then true else false)) else None
  | [WVec v; WNum x] => if decide (s = E_truediv) then if Req_EM_T x 0 then None else Some (WVec (map (fun y => y / x)%R v)) else None
  | _ => None
  end.
(** a vector times a square matrix *)
Definition forward_base (o : op) (xs : list wval) : option (list wval) :=
  match o with
  | OElem s => (fun x => [x]) <$> forward_elem s xs
  | ODimShuffle _ => match xs with [x] => Some [x] | _ => None end
  | OOther c =>
      if decide (c mod 8 = K_fun) then (fun x => [x]) <$> forward_fun (c / 8) xs
      else if decide (c = K_dot) then match xs with [WVec a; WMat G] => Some [WVec (vdot (length a) a G)] | _ => None end else None
  | _ => None
  end.

(** A scan over [steps]: [outs] are the outputs, first one first, where [step x prev out] says that the
    inner function gives [out] for the element [x] of the sequences and the output before. *)
Fixpoint scan_outputs {A S : Type} (step : A -> S -> S -> Prop) (steps : list A) (prev : S) (outs : list S) : Prop :=
  match steps, outs with
  | [], [] => True
  | x :: steps', out :: outs' => step x prev out /\ scan_outputs step steps' out outs'
  | _, _ => False
  end.
