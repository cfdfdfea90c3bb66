(** Specification vocabulary for pattern matching. *)
From Verif Require Export S_graph S_tensor M_match.

(** ** Instances of patterns *)

(** the logic variables of a pattern, from left to right *)
Fixpoint pat_lvs (p : pat) : list nat :=
  match p with
  | PLv i => [i]
  | PAny => []
  | PEt _ ps => flat_map pat_lvs ps
  end.

(** The operator of a node stands for the operator [o] of a pattern: it is [o], or a
    SubsumingElemwise made from the Elemwise [o] *)
Definition stands_for (o' o : op) : Prop :=
  match o' with OSubsume s _ => o = OElem s | _ => o = o' end.

(** [v] is the pattern with every logic variable [i] instantiated by [sigma i] *)
Inductive instance (h : heap) (sigma : nat -> option vid) : pat -> vid -> Prop :=
  | in_lv i v : sigma i = Some v -> instance h sigma (PLv i) v
  | in_any v : instance h sigma PAny v
  | in_et o ps v n k nd :
      owner h v = Some (n, k) -> hn h n = Some nd -> stands_for (n_op nd) o ->
      instances h sigma ps (n_ins nd) -> instance h sigma (PEt o ps) v
with instances (h : heap) (sigma : nat -> option vid) : list pat -> list vid -> Prop :=
  | ins_nil : instances h sigma [] []
  | ins_cons p ps v vs : instance h sigma p v -> instances h sigma ps vs ->
      instances h sigma (p :: ps) (v :: vs).

(** variable [u] is matched by a part of [p] that has an operator *)
Inductive matched_at (h : heap) : pat -> vid -> vid -> Prop :=
  | ma_here o ps v : matched_at h (PEt o ps) v v
  | ma_arg o ps v n k nd i p w u :
      owner h v = Some (n, k) -> hn h n = Some nd -> ps !! i = Some p -> n_ins nd !! i = Some w ->
      matched_at h p w u -> matched_at h (PEt o ps) v u.

(** ** The value of an instantiated pattern.  Elemwise operators broadcast: arguments
    of lower rank get new leading dimensions. *)
Section value.
  Context {A : Type}.
  Definition rank (x : tensor A) : nat := length (t_shape x).
  Definition pad (n : nat) (x : tensor A) : option (tensor A) :=
    if decide (rank x = n) then Some x
    else dimshuffle (replicate (n - rank x) None ++ (Some <$> seq 0 (rank x))) x.
  Definition numpy_elemwise (f : list A -> option A) (xs : list (tensor A)) : option (tensor A) :=
    ys ← mapM (pad (foldr Nat.max 0 (rank <$> xs))) xs; elemwise f ys.

  Context (scalar : nat -> list A -> option A) (other : op -> list (tensor A) -> option (list (tensor A))).
  Context (cval : nat -> tensor A) (h : heap) (rho : vid -> option (tensor A)) (sigma : nat -> option vid).

  Inductive pat_value : pat -> tensor A -> Prop :=
    | pv_lv i v x : sigma i = Some v -> evals (tensor_base scalar other) cval h rho v x -> pat_value (PLv i) x
    | pv_any x : pat_value PAny x
    | pv_elem s ps xs x : pat_values ps xs -> numpy_elemwise (scalar s) xs = Some x ->
        pat_value (PEt (OElem s) ps) x
    | pv_app o ps xs ys k x : (forall s, o <> OElem s) -> pat_values ps xs ->
        tensor_base scalar other o xs = Some ys -> ys !! k = Some x -> pat_value (PEt o ps) x
  with pat_values : list pat -> list (tensor A) -> Prop :=
    | pvs_nil : pat_values [] []
    | pvs_cons p ps x xs : pat_value p x -> pat_values ps xs -> pat_values (p :: ps) (x :: xs).
End value.

(** A SubsumingElemwise whose inner graph applies the Elemwise to all inputs of the node,
    in order, only adding the leading dimensions that broadcasting would add *)
Definition faithful (T : typing) (h : heap) (ins : list vid) (args : list sarg) : Prop :=
  length args = length ins /\
  (forall i a, args !! i = Some a ->
     exists k ord v ty, a = SIn k ord /\ ins !! i = Some v /\ ins !! k = Some v /\ ty_of h v = Some ty /\
       (ord = None \/ exists j, 0 < j /\ ord = Some (replicate j None ++ (Some <$> seq 0 (a_ndim T ty))))) /\
  (exists i k, args !! i = Some (SIn k None)).

(** ** What the matching functions should recognise *)

(** [v] is the product of [a] and [b] *)
Definition is_product (T : typing) (h : heap) (v a b : vid) : Prop :=
  exists n k nd, owner h v = Some (n, k) /\ hn h n = Some nd /\ n_ins nd = [a; b] /\
    (n_op nd = OElem E_mul \/ exists args, n_op nd = OSubsume E_mul args /\ faithful T h [a; b] args).

(** [v] is a draw from distribution [d] with the given parameters *)
Definition rv_node (h : heap) (v : vid) (d : nat) (params : list vid) : Prop :=
  exists n k nd r sz dt, owner h v = Some (n, k) /\ hn h n = Some nd /\ n_op nd = ORV d /\
    n_ins nd = r :: sz :: dt :: params.

Definition half_cauchy (h : heap) (v : vid) : Prop :=
  exists n k nd, owner h v = Some (n, k) /\ hn h n = Some nd /\ n_op nd = ORV RV_halfcauchy.

(** rank 0, or every dimension statically known to be 1 *)
Definition one_element (T : typing) (h : heap) (v : vid) : Prop :=
  exists ty, ty_of h v = Some ty /\ (a_ndim T ty = 0 \/ Forall (fun d => d = Some 1) (a_shape T ty)).

(** a normal whose scale is the product of two half-Cauchy variables: [tau] is the first
    of the two that has one element, [lam] is the other one *)
Definition horseshoe_prior (T : typing) (h : heap) (v lam tau : vid) : Prop :=
  exists mu scale a b, rv_node h v RV_normal [mu; scale] /\ is_product T h scale a b /\
    half_cauchy h a /\ half_cauchy h b /\
    ((one_element T h a /\ tau = a /\ lam = b) \/
     (~ one_element T h a /\ one_element T h b /\ tau = b /\ lam = a)).

(** [v] is [op] applied to [ins] *)
Definition applied (h : heap) (v : vid) (o : op) (ins : list vid) : Prop :=
  exists n k nd, owner h v = Some (n, k) /\ hn h n = Some nd /\ stands_for (n_op nd) o /\ n_ins nd = ins.

Definition constant_of (h : heap) (v : vid) (c : nat) : Prop :=
  exists nm ty, hv h v = Some (Var nm ty (KConst c) None).

(** [v] is sigmoid(c * dot(X, beta)) *)
Definition sigmoid_dot (h : heap) (v c X beta : vid) : Prop :=
  exists m d, applied h v (OElem E_sigmoid) [m] /\ applied h m (OElem E_mul) [c; d] /\
    applied h d (OOther K_dot) [X; beta].

(** all elements of an array *)
Fixpoint elements_of (x : ndarray) : list Z :=
  match x with NScalar z => [z] | NList l => flat_map elements_of l end.
Definition all_minus_one (x : ndarray) : Prop := Forall (eq (-1)%Z) (elements_of x).
