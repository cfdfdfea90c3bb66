(** Tensors, DimShuffle and Elemwise: the meaning that Aesara gives to the operators
    that local_elemwise_dimshuffle_subsume (/repo/aemcmc/rewriting.py:268-367)
    rearranges.  (Aesara is not part of /repo.) *)
From Verif Require Export M_graph.

(** a shape and the elements in row-major order *)
Record tensor (A : Type) := Tensor { t_shape : list nat; t_data : list A }.
Global Arguments Tensor {A}. Global Arguments t_shape {A}. Global Arguments t_data {A}.

(** all indices of a shape, in row-major order *)
Fixpoint indices (s : list nat) : list (list nat) :=
  match s with
  | [] => [[]]
  | d :: s' => flat_map (fun i => map (cons i) (indices s')) (seq 0 d)
  end.

Definition size_of (s : list nat) : nat := foldr Nat.mul 1 s.

(** position of an index in that order *)
Fixpoint ravel (s idx : list nat) : nat :=
  match s, idx with
  | _ :: s', i :: idx' => i * size_of s' + ravel s' idx'
  | _, _ => 0
  end.

Definition in_range (s idx : list nat) : Prop := Forall2 (fun d i => i < d) s idx.

Section ops.
  Context {A : Type}.

  Definition t_at (x : tensor A) (idx : list nat) : option A := t_data x !! ravel (t_shape x) idx.

  (** the tensor with given shape and elements *)
  Definition build (s : list nat) (f : list nat -> option A) : option (tensor A) :=
    xs ← mapM f (indices s); Some (Tensor s xs).

  (** output position at which input dimension [d] appears *)
  Definition out_pos (order : list (option nat)) (d : nat) : option nat :=
    fst <$> list_find (fun o => o = Some d) order.

  (** [x.dimshuffle(order)]: output dimension [p] is input dimension [order[p]], or a new
      one of length 1 (["x"]); an input dimension that does not appear is dropped and
      must have length 1 *)
  Definition dimshuffle_ok (order : list (option nat)) (s : list nat) : bool :=
    bool_decide (NoDup (filter (fun o => o <> None) order)) &&
    forallb (fun o => match o with Some d => bool_decide (d < length s) | None => true end) order &&
    forallb (fun d => match out_pos order d with Some _ => true | None => bool_decide (s !! d = Some 1) end)
      (seq 0 (length s)).
  Definition shuffled_shape (order : list (option nat)) (s : list nat) : list nat :=
    (fun o => match o with Some d => default 1 (s !! d) | None => 1 end) <$> order.
  Definition source_index (order : list (option nat)) (n : nat) (idx : list nat) : list nat :=
    (fun d => match out_pos order d with Some p => default 0 (idx !! p) | None => 0 end) <$> seq 0 n.
  Definition dimshuffle (order : list (option nat)) (x : tensor A) : option (tensor A) :=
    if dimshuffle_ok order (t_shape x) then
      build (shuffled_shape order (t_shape x)) (fun idx => t_at x (source_index order (length (t_shape x)) idx))
    else None.

  (** Elemwise on arguments of equal rank, with broadcasting of dimensions of length 1 *)
  Definition broadcast_dim (ds : list nat) : option nat :=
    match filter (fun e => e <> 1) ds with
    | [] => Some 1
    | d :: ds' => if decide (Forall (fun e => e = d) ds') then Some d else None
    end.
  Definition broadcast_shape (n : nat) (ss : list (list nat)) : option (list nat) :=
    if decide (Forall (fun s => length s = n) ss) then
      mapM (fun p => broadcast_dim ((fun s => default 1 (s !! p)) <$> ss)) (seq 0 n)
    else None.
  Definition clip (s idx : list nat) : list nat :=
    zip_with (fun d i => if decide (d = 1) then 0 else i) s idx.
  Definition elemwise (f : list A -> option A) (xs : list (tensor A)) : option (tensor A) :=
    match xs with
    | [] => None
    | x :: _ =>
        s ← broadcast_shape (length (t_shape x)) (t_shape <$> xs);
        build s (fun idx => vals ← mapM (fun y => t_at y (clip (t_shape y) idx)) xs; f vals)
    end.

  (** the operators on tensors; [scalar s] is the scalar function of Elemwise [s], other
      operators are arbitrary *)
  Definition tensor_base (scalar : nat -> list A -> option A)
      (other : op -> list (tensor A) -> option (list (tensor A))) (o : op) (xs : list (tensor A))
      : option (list (tensor A)) :=
    match o, xs with
    | ODimShuffle order, [x] => y ← dimshuffle order x; Some [y]
    | OElem s, _ => y ← elemwise (scalar s) xs; Some [y]
    | _, _ => other o xs
    end.
End ops.
