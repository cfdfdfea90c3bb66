(** Model of the calls with which the sampler finders of /repo/aemcmc/conjugates.py and
    /repo/aemcmc/gibbs.py build graphs: constants, Elemwise operators, random draws and
    sampling kernels.  (The objects come from Aesara, which is not part of /repo.) *)
From Verif Require Export M_match M_tracker M_walk.

(** What Aesara computes when a node is made *)
Record builder := Builder {
  b_typ :> typing;
  b_elem : nat -> list vtype -> vtype;              (* output type of an Elemwise *)
  b_shuffle : list (option nat) -> vtype -> vtype;  (* of a DimShuffle *)
  b_dot : vtype -> vtype -> vtype;                  (* of a Dot *)
  b_rng : vtype;                                    (* the type of random generators *)
  b_draw : heap -> op -> list vid -> vtype;         (* type of a draw *)
  b_int : Z -> nat * vtype;                         (* [as_tensor(1)]: value and type *)
  b_float : Z -> nat * vtype;                       (* [as_tensor(1.0)] *)
  b_half : nat * vtype;                             (* [as_tensor(0.5)] *)
  b_nosize : nat * vtype;                           (* the constant that stands for [size=None] *)
  b_dtype : nat * vtype;                            (* the constant for the dtype of a draw *)
}.

(* [v.type], read when a node is made: conjugates.py:54-55, 126-128, 205-206; gibbs.py:293-294 *)
Definition ty_def (h : heap) (v : vid) : vtype := default (VType false 0) (ty_of h v).

(** a new constant: the numbers in conjugates.py:55 and gibbs.py:293-294.
    (Simplification: a new object each time; Aesara may share equal constants.) *)
Definition mk_const (h : heap) (c : nat * vtype) : heap * vid :=
  alloc_var h (Var None c.2 (KConst c.1) None).

(** one node with one output *)
(* Apply(op, inputs, [type()]), for every call of an operator with one output: conjugates.py:54-55; gibbs.py:293-294, 627 *)
Definition apply1 (h : heap) (o : op) (ins : list vid) (ty : vtype) : heap * vid :=
  let n := fresh (dom (h_nodes h)) in
  let '(h1, v) := alloc_var h (Var None ty KPlain (Some (n, 0))) in
  (Heap (h_vars h1) (<[n := Node o ins [v]]> (h_nodes h1)), v).

(** Elemwise.make_node: arguments of lower rank get new leading dimensions *)
(* Aesara code, behind conjugates.py:54-55, 126-128, 205-206; gibbs.py:293-294, 627 *)
Definition pad_var (B : builder) (n : nat) (h : heap) (v : vid) : heap * vid :=
  let k := a_ndim B (ty_def h v) in
  if decide (k = n) then (h, v)
  else
    let order := replicate (n - k) None ++ (Some <$> seq 0 k) in
    apply1 h (ODimShuffle order) [v] (b_shuffle B order (ty_def h v)).
(* as [pad_var], for all arguments *)
Fixpoint pad_vars (B : builder) (n : nat) (h : heap) (vs : list vid) : heap * list vid :=
  match vs with
  | [] => (h, [])
  | v :: vs' =>
      let '(h1, w) := pad_var B n h v in
      let '(h2, ws) := pad_vars B n h1 vs' in
      (h2, w :: ws)
  end.
(** [at.add(x, y)], [x ** 2], [1.0 / x], [at.sigmoid(x)], [-x] *)
(* conjugates.py:54-55, 126-128, 205-206; gibbs.py:293-294, 627 *)
Definition mk_elem (B : builder) (h : heap) (s : nat) (vs : list vid) : heap * vid :=
  let n := foldr Nat.max 0 ((fun v => a_ndim B (ty_def h v)) <$> vs) in
  let '(h1, ws) := pad_vars B n h vs in
  apply1 h1 (OElem s) ws (b_elem B s (ty_def h <$> vs)).

(** [rng.default_update = u] *)
(* in RandomStream.gen, behind conjugates.py:56, 130, 207; read in gibbs.py:632 *)
Definition set_default (h : heap) (r u : vid) : heap :=
  match hv h r with
  | Some x => Heap (<[r := Var (v_name x) (v_ty x) (KShared (Some u)) (v_owner x)]> (h_vars h)) (h_nodes h)
  | None => h
  end.

(** a node with two outputs; for a draw, the random generator and the draw *)
(* RandomVariable.make_node, behind conjugates.py:56, 130, 207 *)
Definition apply_rng (h : heap) (o : op) (ins : list vid) (rty ty : vtype) : heap * vid * vid :=
  let n := fresh (dom (h_nodes h)) in
  let '(h1, r) := alloc_var h (Var None rty KPlain (Some (n, 0))) in
  let '(h2, x) := alloc_var h1 (Var None ty KPlain (Some (n, 1))) in
  (Heap (h_vars h2) (<[n := Node o ins [r; x]]> (h_nodes h2)), r, x).

(** RandomStream.gen: a new shared generator, a draw that uses it, and the generator's
    default update.  Gives the generator, its next state and the draw. *)
(* conjugates.py:56, 130, 207; gibbs.py:244-252, 541, 724; dists.py:55, 138 *)
Definition gen (B : builder) (h : heap) (o : op) (ins : list vid) : heap * (vid * vid * vid) :=
  let '(h1, r) := alloc_var h (Var None (b_rng B) (KShared None) None) in
  let '(h2, r', x) := apply_rng h1 o (r :: ins) (b_rng B) (b_draw B h o ins) in
  (set_default h2 r r', (r, r', x)).

(** [srng.gen(at.random.beta, a, b, size=size, dtype=dtype)] (conjugates.py:130-136, 207-213).
    (Simplification: [dtype] is used as it is; Aesara copies the constant.) *)
Definition gen_beta (B : builder) (h : heap) (size dtype a b : vid) : heap * vid :=
  let '(h1, (_, _, x)) := gen B h (ORV RV_beta) [size; dtype; a; b] in (h1, x).

(** [srng.gen(at.random.gamma, shape, rate, size=size, dtype=dtype)] (conjugates.py:56-62):
    GammaRV.__call__ replaces the rate by [1.0 / rate]; the node stores the scale *)
Definition gen_gamma (B : builder) (h : heap) (size dtype shape rate : vid) : heap * vid :=
  let '(h1, one) := mk_const h (b_float B 1) in
  let '(h2, scale) := mk_elem B h1 E_truediv [one; rate] in
  let '(h3, (_, _, x)) := gen B h2 (ORV RV_gamma) [size; dtype; shape; scale] in (h3, x).

(** ** Sampling kernels (types.py:10-20, OpFromGraph) *)
Definition K_horseshoe := 1.
Definition K_nbreg := 2.
Definition K_dispersion := 3.
Definition K_bern := 4.
Definition K_inner := 5.
Definition K_scan := 6.
Definition K_fun := 7.

(** a function that is neither an Elemwise nor a draw: the type of its output is left to
    Aesara *)
Definition fun_op (k : nat) : op := OOther (8 * k + K_fun).
Definition mk_fun (B : builder) (h : heap) (k : nat) (ins : list vid) : heap * vid :=
  apply1 h (fun_op k) ins (b_draw B h (fun_op k) ins).

(** [gibbs = Kernel(inputs, inner)] called on its inputs: OpFromGraph takes no shared
    variables as inputs; the shared variables of the inner graph are appended to the inputs;
    the outputs have the types of the inner ones.  Every kernel is an operator of its own
    (types.py: no [__props__]): here because the inner graph is always a new one. *)
Definition mk_kernel (h : heap) (kind : nat) (ins inner : list vid)
    (names : list (option string)) : result (heap * list vid) :=
  if existsb (is_shared h) ins then Raise TypeError
  else
    Ok (alloc_node h (OGraph kind ins inner) (ins ++ shared_inputs h ins inner)
          (zip_with (fun nm v => (nm, ty_def h v)) names inner)).

(** f"{v.name or default}_posterior" *)
(* gibbs.py:305-306, 615, 640, 763 *)
Definition posterior_name (h : heap) (v : vid) (dflt : string) : option string :=
  Some (default dflt (truthy_name h v) ++ "_posterior")%string.
