(** Specification: joint laws of tensor expressions. *)
From Coquelicot Require Export Coquelicot.
From Verif Require Export M_transforms S_horseshoe.

(** Densities with location [m] and scale [s], as in textbooks *)
Definition cauchy_pdf (m s x : R) : R := / (PI * s * (1 + ((x - m) / s) ^ 2)).
Definition gumbel_pdf (m s x : R) : R := / s * exp (- ((x - m) / s + exp (- ((x - m) / s)))).
Definition laplace_pdf (m s x : R) : R := / (2 * s) * exp (- (Rabs (x - m) / s)).
Definition logistic_pdf (m s x : R) : R :=
  exp (- ((x - m) / s)) / (s * (1 + exp (- ((x - m) / s))) ^ 2).
Definition normal_pdf (m s x : R) : R :=
  / (s * sqrt (2 * PI)) * exp (- ((x - m) ^ 2 / (2 * s ^ 2))).
(** inverse gamma with shape 1, and exponential *)
Definition invgamma1_pdf (c x : R) : R := if Rlt_dec 0 x then c / x ^ 2 * exp (- (c / x)) else 0.
Definition exponential_pdf (rate x : R) : R := if Rlt_dec 0 x then rate * exp (- (rate * x)) else 0.

(** The density of a scalar draw with the given parameters.  [t] takes three parameters;
    its density is not needed.  The argument of [exponential] is a rate or a scale. *)
Definition pdf (cv : convention) (d : rvdist) (params : list R) : option (R -> R) :=
  match d, params with
  | Cauchy, [m; s] => Some (cauchy_pdf m s)
  | Gumbel, [m; s] => Some (gumbel_pdf m s)
  | Laplace, [m; s] => Some (laplace_pdf m s)
  | Logistic, [m; s] => Some (logistic_pdf m s)
  | Normal, [m; s] => Some (normal_pdf m s)
  | Invgamma, [a; c] => if Req_EM_T a 1 then Some (invgamma1_pdf c) else None
  | Exponential, [c] => Some (exponential_pdf (exponential_rate cv c))
  | _, _ => None
  end.

Definition arity (d : rvdist) : nat :=
  match d with StudentT => 3 | Exponential => 1 | _ => 2 end.

(** Broadcasting of shapes, and the element of a tensor of shape [s] that is used at
    index [idx] of a result it is broadcast to *)
Fixpoint bcast (s t : shape) : option shape :=
  match s, t with
  | [], _ => Some t
  | _, [] => Some s
  | a :: s', b :: t' =>
      match bcast s' t' with
      | None => None
      | Some r => if a =? b then Some (a :: r) else if a =? 1 then Some (b :: r)
                  else if b =? 1 then Some (a :: r) else None
      end%nat
  end.
Fixpoint bidx (s : shape) (idx : list nat) : list nat :=
  match s, idx with
  | a :: s', i :: idx' => (if (a =? 1)%nat then 0%nat else i) :: bidx s' idx'
  | _, _ => []
  end.
Fixpoint indices (s : shape) : list (list nat) :=
  match s with [] => [[]] | a :: s' => flat_map (fun i => map (cons i) (indices s')) (seq 0 a) end.
Definition at_idx (t : tensor) (idx : list nat) : R := tdata t (bidx (tshape t) idx).

(** A random tensor: finitely many independent scalar noise variables, indexed by
    [indices nshape], with densities; the element at [idx] is the function [fn idx] of
    the noise variable [pos idx]. *)
Record rtensor := mkR {
  rshape : shape; nshape : shape; npdf : list nat -> option (R -> R);
  pos : list nat -> list nat; fn : list nat -> R -> R }.

Fixpoint bcasts (l : list tensor) : option shape :=
  match l with
  | [] => Some []
  | t :: l' => match bcasts l' with Some r => bcast (tshape t) r | None => None end
  end.

(** The shape of a draw: [size] if given (the parameters must broadcast to it), else the
    common shape of the parameters *)
Definition draw_shape (size : shape) (params : list tensor) : option shape :=
  match bcasts params with
  | None => None
  | Some q => match size with
              | [] => Some q
              | _ => match bcast q size with
                     | Some r => if list_eq_dec Nat.eq_dec r size then Some size else None
                     | None => None
                     end
              end
  end.

Fixpoint consts (l : list expr) : option (list tensor) :=
  match l with
  | [] => Some []
  | EConst t :: l' => match consts l' with Some r => Some (t :: r) | None => None end
  | _ => None
  end.

(** elementwise operation with a constant on the left *)
Definition elemwise (op : R -> R -> R) (c : tensor) (X : rtensor) : option rtensor :=
  match bcast (tshape c) (rshape X) with
  | None => None
  | Some sh => Some (mkR sh (nshape X) (npdf X) (fun idx => pos X (bidx (rshape X) idx))
                       (fun idx z => op (at_idx c idx) (fn X (bidx (rshape X) idx) z)))
  end.

(** The random tensor an expression denotes, given the values of its parameters *)
Fixpoint eval (cv : convention) (e : expr) : option rtensor :=
  match e with
  | ERV d _ size _ params =>
      match consts params with
      | None => None
      | Some ts => match (if (length ts =? arity d)%nat then draw_shape size ts else None) with
                   | None => None
                   | Some sh => Some (mkR sh sh (fun idx => pdf cv d (map (fun t => at_idx t idx) ts))
                                        (fun idx => idx) (fun _ z => z))
                   end
      end
  | EAdd (EConst c) e' => match eval cv e' with Some X => elemwise Rplus c X | None => None end
  | EMul (EConst c) e' => match eval cv e' with Some X => elemwise Rmult c X | None => None end
  | EDiv (EConst c) e' => match eval cv e' with Some X => elemwise Rdiv c X | None => None end
  | _ => None
  end.

(** [p] is the probability of the set [S] (an interval, the empty set or everything)
    under the density [f] *)
Definition measure (f : R -> R) (S : R -> Prop) (p : R) : Prop :=
  (exists lo hi, lo <= hi /\ (forall z, S z <-> lo <= z <= hi) /\ is_RInt f lo hi p)
  \/ ((forall z, ~ S z) /\ p = 0) \/ ((forall z, S z) /\ p = 1).

(** product over a list *)
Fixpoint lprod {A} (f : A -> R) (l : list A) : R :=
  match l with [] => 1 | x :: l' => f x * lprod f l' end.

(** [p] is the probability that every element of [X] lies in its interval [lo idx, hi idx] *)
Definition box_prob (X : rtensor) (lo hi : list nat -> R) (p : R) : Prop :=
  exists w : list nat -> R, p = lprod w (indices (nshape X)) /\
  forall k, In k (indices (nshape X)) -> exists f, npdf X k = Some f /\
    measure f (fun z => forall idx, In idx (indices (rshape X)) -> pos X idx = k ->
                        lo idx <= fn X idx z <= hi idx) (w k).

(** Same shape and same joint law on tensors with elements in [Supp] *)
Definition same_law (Supp : R -> Prop) (X Y : rtensor) : Prop :=
  rshape X = rshape Y /\
  forall lo hi, (forall idx, Supp (lo idx) /\ Supp (hi idx) /\ lo idx <= hi idx) ->
  exists p, box_prob X lo hi p /\ box_prob Y lo hi p.

Definition same_law_expr (cv : convention) (Supp : R -> Prop) (e e' : expr) : Prop :=
  exists X Y, eval cv e = Some X /\ eval cv e' = Some Y /\ same_law Supp X Y.
