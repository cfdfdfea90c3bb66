(** Specification: what a graph of random draws computes, and the programs of
    array operations and draws it is compared with. *)
From Verif Require Export S_conjugates S_gibbs.
Global Open Scope nat_scope.

(** ** Programs of draws of arrays *)
Inductive tprog :=
  | TRet (outs : list (tensor R))
  | TDraw (d : nat) (params : list (tensor R)) (s : list nat) (k : tensor R -> tprog).

(** distributions of positive numbers *)
Definition positive_dist (d : nat) : Prop := d = RV_exponential \/ d = RV_gamma \/ d = RV_polyagamma.
(** what a draw from [d] of shape [s] can be *)
Definition drawn (d : nat) (s : list nat) (v : tensor R) : Prop :=
  tensor_ok v /\ t_shape v = s /\ (positive_dist d -> Forall (fun x => 0 < x)%R (t_data v)).

Definition assign (rho : vid -> option (tensor R)) (x : vid) (v : tensor R) : vid -> option (tensor R) :=
  fun u => if decide (u = x) then Some v else rho u.

(** The size argument of a draw as an array *)
Definition size_vector (sz : list nat) : tensor R := Tensor [length sz] (INR <$> sz).

Section realises.
  Context (scalar : nat -> list R -> option R) (other : op -> list (tensor R) -> option (list (tensor R)))
    (cval : nat -> tensor R).
  Notation ev h rho := (evals (tensor_base scalar other) cval h rho).

  (** The variables [outs] of [h], given the values [rho], are computed as the program says:
      the draws of the program are draws of the graph, each with a generator of its own
      ([used]: those of earlier draws) that is a shared variable and is replaced by its next
      state by default; their parameters and sizes have the values that the program says,
      whatever was drawn before; and so have the results. *)
  Fixpoint realises (h : heap) (used : list vid) (rho : vid -> option (tensor R)) (outs : list vid) (p : tprog) : Prop :=
    match p with
    | TRet ts => Forall2 (ev h rho) outs ts
    | TDraw d xs s k =>
        exists n r r' x size dtype ps sz nm ty,
          hn h n = Some (Node (ORV d) (r :: size :: dtype :: ps) [r'; x]) /\ owner h x = Some (n, 1) /\
          hv h r = Some (Var nm ty (KShared (Some r')) None) /\ r ∉ used /\ rho x = None /\
          ev h rho size (size_vector sz) /\ Forall2 (ev h rho) ps xs /\ draw_shape sz (t_shape <$> xs) s /\
          forall v, drawn d s v -> realises h (r :: used) (assign rho x v) outs (k v)
    end.
End realises.

(** ** What is assumed of the types that Aesara declares: ranks are right *)
Definition declared (B : builder) (h : heap) (v : vid) : nat := a_ndim B (ty_def h v).
Record ranks_ok (B : builder) (other : op -> list (tensor R) -> option (list (tensor R))) : Prop := RanksOk {
  rk_shuffle : forall order ty, a_ndim B (b_shuffle B order ty) = length order;
  rk_dot : forall s t x y z, rank x = a_ndim B s -> rank y = a_ndim B t ->
    other (OOther K_dot) [x; y] = Some [z] -> a_ndim B (b_dot B s t) = rank z;
  rk_fun : forall h k vs xs z, declared B h <$> vs = rank <$> xs ->
    other (fun_op k) xs = Some [z] -> a_ndim B (b_draw B h (fun_op k) vs) = rank z;
  (** a draw without a size has the rank of its parameters, with a size [(n,)] rank 1 *)
  rk_draw : forall h d size dtype ps, constant_of h size (b_nosize B).1 ->
    a_ndim B (b_draw B h (ORV d) (size :: dtype :: ps)) = foldr Nat.max 0 (declared B h <$> ps);
  rk_draw_size : forall h d size n dtype ps, applied h size (fun_op F_vector1) [n] ->
    a_ndim B (b_draw B h (ORV d) (size :: dtype :: ps)) = 1;
}.
Record constants_ok (B : builder) (cval : nat -> tensor R) : Prop := ConstantsOk {
  cn_int : forall z, cval (b_int B z).1 = Tensor [] [IZR z];
  cn_float : forall z, cval (b_float B z).1 = Tensor [] [IZR z];
  cn_half : cval (b_half B).1 = Tensor [] [(/ 2)%R];
  cn_nosize : cval (b_nosize B).1 = size_vector [];
  cn_half_rank : a_ndim B (b_half B).2 = 0;
  cn_nosize_rank : a_ndim B (b_nosize B).2 = 1;
}.

(** ** Arithmetic and array functions have their usual meaning *)
Record arithmetic_ok (scalar : nat -> list R -> option R) : Prop := ArithmeticOk {
  ar_add : forall a b, scalar E_add [a; b] = Some (a + b)%R;
  ar_sub : forall a b, scalar E_sub [a; b] = Some (a - b)%R;
  ar_mul : forall a b, scalar E_mul [a; b] = Some (a * b)%R;
  ar_div : forall a b, b <> 0%R -> scalar E_truediv [a; b] = Some (a / b)%R;
  ar_reciprocal : forall a, a <> 0%R -> scalar E_reciprocal [a] = Some (/ a)%R;
  ar_square : forall a, scalar E_pow [a; 2%R] = Some (a * a)%R;
  ar_sqrt : forall a, (0 <= a)%R -> scalar E_sqrt [a] = Some (R_sqrt.sqrt a);
  ar_gt : forall a b, scalar E_gt [a; b] = Some (if Rlt_dec b a then 1 else 0)%R;
}.
Definition number (a : R) : tensor R := Tensor [] [a].
Record sums_ok (other : op -> list (tensor R) -> option (list (tensor R))) : Prop := SumsOk {
  fn_sum : forall x, other (fun_op F_sum) [x] = Some [number (foldr Rplus 0%R (t_data x))];
  fn_rows : forall x d s, t_shape x = d :: s -> other (fun_op F_rows) [x] = Some [number (INR d)];
  fn_vector1 : forall a, other (fun_op F_vector1) [number a] = Some [Tensor [1] [a]];
}.

(** the array of shape [s] with the components [f], in row-major order *)
Definition mkt (s : list nat) (f : nat -> R) : tensor R := Tensor s (f <$> seq 0 (size_of s)).
(** the components of an array, in row-major order *)
Definition entries (x : tensor R) (j : nat) : R := default 0%R (t_data x !! j).
(** [x], broadcast to shape [s], has the components [f] *)
Definition components (s : list nat) (x : tensor R) (f : nat -> R) : Prop :=
  fits s x /\ forall idx, in_range s idx -> bget x idx = Some (f (ravel s idx)).

(** the inputs [ins] have the values [vals], and nothing else is given: what an OpFromGraph
    computes its inner graph from *)
Fixpoint given (ins : list vid) (vals : list (tensor R)) (v : vid) : option (tensor R) :=
  match ins, vals with
  | i :: ins', x :: vals' => if decide (v = i) then Some x else given ins' vals' v
  | _, _ => None
  end.

(** With the values [rho] for the variables of the graph, the OpFromGraph with inputs [ins] and
    inner outputs [inner] runs the program [p] *)
Definition kernel_runs (scalar : nat -> list R -> option R) (other : op -> list (tensor R) -> option (list (tensor R)))
    (cval : nat -> tensor R) (h : heap) (rho : vid -> option (tensor R)) (ins inner : list vid) (p : tprog) : Prop :=
  exists vals, Forall2 (evals (tensor_base scalar other) cval h rho) ins vals /\
    realises scalar other cval h [] (given ins vals) inner p.
(** constants are not given values *)
Definition no_constants (h : heap) (rho : vid -> option (tensor R)) : Prop := forall v, is_constant h v = true -> rho v = None.
