(** Model of the Aesara graph objects that aemcmc manipulates: variables and
    apply nodes living in a mutable heap, the backward reachability relation
    that defines a [FunctionGraph], in-place replacement, and the value that a
    graph denotes.

    These objects come from Aesara (aesara.graph.basic, aesara.graph.fg), which
    is not part of /repo; they are modelled because every function in
    /repo/aemcmc/basic.py, rewriting.py and utils.py is a sequence of calls on
    them.  Each definition cites the call sites in /repo. *)
From Verif Require Export LibPy.
From stdpp Require Export gmap strings.

Notation vid := nat (only parsing).   (* identity of a Variable object *)
Notation nid := nat (only parsing).   (* identity of an Apply object *)

(** How argument [i] of the inner [Elemwise] of a [SubsumingElemwise] is built
    from the outer inputs (rewriting.py:298-367): an outer input or a constant kept
    in the inner graph, used directly or under a [DimShuffle]. *)
Inductive sarg :=
  | SIn (k : nat) (order : option (list (option nat)))
  | SConst (c : nat) (order : option (list (option nat))).

(* the DimShuffle of an inner argument: rewriting.py:338-350 *)
Definition sarg_order (a : sarg) : option (list (option nat)) :=
  match a with SIn _ o => o | SConst _ o => o end.

(** The operators.  [ORV d] is the [RandomVariable] op of distribution [d]: its
    outputs are [next_rng; draw] (the code always takes [outputs[1]]).  [OGraph kind ins outs]
    is an OpFromGraph (the kernels of types.py:10-20) with the inner graph from [ins] to
    [outs]; all remaining ops are [OOther]. *)
Inductive op :=
  | ORV (d : nat)
  | OElem (s : nat)
  | ODimShuffle (order : list (option nat))
  | OSubsume (s : nat) (args : list sarg)
  | OOther (k : nat)
  | OGraph (kind : nat) (ins outs : list vid).

Global Instance sarg_eq_dec : EqDecision sarg.
Proof. solve_decision. Defined.
Global Instance op_eq_dec : EqDecision op.
Proof. solve_decision. Defined.

(** Only two facts about Aesara types are used by the code: whether it is a
    [RandomType] (utils.py:110) and whether two types are compatible
    (FunctionGraph.replace, used in basic.py:86); compatible = equal tag. *)
Record vtype := VType { ty_random : bool; ty_tag : nat }.
Global Instance vtype_eq_dec : EqDecision vtype.
Proof. solve_decision. Defined.

(** [Constant], [SharedVariable] with its [default_update], or plain variable *)
(* told apart in utils.py:73-80, nuts.py:158-165, rewriting.py:362 *)
Inductive kind :=
  | KConst (c : nat)
  | KShared (default_update : option vid)
  | KPlain.

(* aesara.graph.basic.Variable: .name (utils.py:64, gibbs.py:305), .type (rewriting.py:301), .owner (rewriting.py:305, gibbs.py:606) *)
Record var := Var {
  v_name : option string;
  v_ty : vtype;
  v_kind : kind;
  v_owner : option (nid * nat);      (* owner node and output index *)
}.

(* aesara.graph.basic.Apply: .op, .inputs, .outputs (rewriting.py:73-77, gibbs.py:286, 606) *)
Record node := Node { n_op : op; n_ins : list vid; n_outs : list vid }.

(* all Variable and Apply objects that exist: rewriting.py:83-90 and basic.py:78-86 change them in place *)
Record heap := Heap { h_vars : gmap nat var; h_nodes : gmap nat node }.

(* looking up a Variable object *)
Definition hv (h : heap) (v : vid) : option var := h_vars h !! v.
(* looking up an Apply object *)
Definition hn (h : heap) (n : nid) : option node := h_nodes h !! n.

(* [v.owner] and [v.index]: rewriting.py:305, utils.py:109 *)
Definition owner (h : heap) (v : vid) : option (nid * nat) :=
  x ← hv h v; v_owner x.

(* [v.name]: utils.py:64, gibbs.py:305 *)
Definition name_of (h : heap) (v : vid) : option string :=
  x ← hv h v; v_name x.

(* [v.type]: rewriting.py:301, utils.py:110 *)
Definition ty_of (h : heap) (v : vid) : option vtype := v_ty <$> hv h v.

(** the op of a variable's owner: [v.owner.op] *)
(* rewriting.py:305, gibbs.py:153-170, types.py:43 *)
Definition owner_op (h : heap) (v : vid) : option op :=
  '(n, _) ← owner h v; n_op <$> hn h n.

(** [v.owner.inputs] ([[]] when there is no owner) *)
(* rewriting.py:311, gibbs.py:606 *)
Definition parents (h : heap) (v : vid) : list vid :=
  match owner h v with
  | Some (n, _) => match hn h n with Some nd => n_ins nd | None => [] end
  | None => []
  end.

(** ** Reachability: [ancestors] (utils.py:109), [io_toposort]
    (rewriting.py:75) and the variables of a [FunctionGraph] are all the
    backward closure of a list of outputs. *)

(* one step of the closure *)
Definition reach_step (h : heap) (X : gset nat) : gset nat :=
  X ∪ list_to_set (elements X ≫= parents h).

(* bounds the number of steps *)
Definition all_inputs (h : heap) : gset nat :=
  list_to_set ((map_to_list (h_nodes h)).*2 ≫= n_ins).

(* the closure *)
Definition reach_set (h : heap) (roots : list vid) : gset nat :=
  Nat.iter (S (size (list_to_set roots ∪ all_inputs h : gset nat)))
    (reach_step h) (list_to_set roots).

(** the apply nodes of a [FunctionGraph] with the given outputs *)
(* FunctionGraph.apply_nodes: rewriting.py:83, basic.py:78 *)
Definition fg_nodes (h : heap) (roots : list vid) : gset nat :=
  list_to_set (omap (fun v => fst <$> owner h v) (elements (reach_set h roots))).

(** ** In-place replacement (FunctionGraph.replace, basic.py:86): every input of
    every node of the function graph, and every output of the function graph,
    that is [old] becomes [new].  The nodes themselves are mutated, so every
    other graph sharing those nodes sees the change. *)

(* one input, basic.py:86 *)
Definition subst1 (old new x : vid) : vid := if decide (x = old) then new else x.

(* Apply.inputs[i] = new, basic.py:86 *)
Definition set_ins (nd : node) (f : vid -> vid) : node :=
  Node (n_op nd) (f <$> n_ins nd) (n_outs nd).

(* basic.py:86 *)
Definition map_nodes (ns : gset nat) (f : vid -> vid) (h : heap) : heap :=
  Heap (h_vars h)
    (map_imap (fun n nd => Some (if decide (n ∈ ns) then set_ins nd f else nd)) (h_nodes h)).

Definition replace (h : heap) (roots : list vid) (old new : vid) : heap * list vid :=
  (map_nodes (fg_nodes h roots) (subst1 old new) h, subst1 old new <$> roots).

(** FunctionGraph.replace first filters [new] through the type of [old] (values of
    another type are rejected), then does nothing when [old] is not in the graph.
    (Simplification: Aesara may instead insert a conversion for some pairs of
    types; the model treats these as rejected.) *)
Definition replace_checked (h : heap) (roots : list vid) (old new : vid)
    : result (heap * list vid) :=
  if decide (ty_of h old = ty_of h new) then
    if decide (old ∈ reach_set h roots) then Ok (replace h roots old new) else Ok (h, roots)
  else Raise TypeError.

(** FunctionGraph.replace_all: the pairs are processed one after the other, each
    on the graph produced by the previous ones (basic.py:86). *)
Fixpoint replace_all (h : heap) (roots : list vid) (pairs : list (vid * vid))
    : result (heap * list vid) :=
  match pairs with
  | [] => Ok (h, roots)
  | (old, new) :: pairs' =>
      rbind (replace_checked h roots old new) (fun '(h', roots') => replace_all h' roots' pairs')
  end.

(** ** Allocation *)

(* a new Variable object, as in rewriting.py:83-90, 341-365 *)
Definition alloc_var (h : heap) (x : var) : heap * vid :=
  let v := fresh (dom (h_vars h)) in
  (Heap (<[v := x]> (h_vars h)) (h_nodes h), v).

(** [op] applied to [ins]: one new node with one new output variable per type given *)
(* the outputs of a new Apply object *)
Fixpoint alloc_outs (h : heap) (n : nid) (i : nat) (tys : list (option string * vtype))
    : heap * list vid :=
  match tys with
  | [] => (h, [])
  | (nm, ty) :: tys' =>
      let '(h1, v) := alloc_var h (Var nm ty KPlain (Some (n, i))) in
      let '(h2, vs) := alloc_outs h1 n (S i) tys' in
      (h2, v :: vs)
  end.

(* op.make_node, as in rewriting.py:83-90, 360, 365 *)
Definition alloc_node (h : heap) (o : op) (ins : list vid) (tys : list (option string * vtype))
    : heap * list vid :=
  let n := fresh (dom (h_nodes h)) in
  let '(h1, outs) := alloc_outs h n 0 tys in
  (Heap (h_vars h1) (<[n := Node o ins outs]> (h_nodes h1)), outs).

(** [v.clone()]: a fresh variable with the same type and name and no owner
    (basic.py:48) *)
Definition clone_var (h : heap) (v : vid) : heap * vid :=
  match hv h v with
  | Some x => alloc_var h (Var (v_name x) (v_ty x) KPlain None)
  | None => alloc_var h (Var None (VType false 0) KPlain None)
  end.

(** ** What a graph denotes.  Values of leaves come from an environment; an
    environment entry also overrides the owner of a variable ("given"). *)
Section eval.
  Context {D : Type}.
  (** meaning of the primitive operators, and of constants *)
  Context (base : op -> list D -> option (list D)) (cval : nat -> D).

  (* the inner graph of rewriting.py:341-350, 360-363 *)
  Definition sarg_val (xs : list D) (a : sarg) : option D :=
    x ← match a with SIn k _ => xs !! k | SConst c _ => Some (cval c) end;
    match sarg_order a with
    | None => Some x
    | Some ord => ys ← base (ODimShuffle ord) [x]; ys !! 0
    end.

  (** a [SubsumingElemwise] denotes its inner graph (OpFromGraph) *)
  (* rewriting.py:179-240 *)
  Definition sem (o : op) (xs : list D) : option (list D) :=
    match o with
    | OSubsume s args => ys ← mapM (sarg_val xs) args; base (OElem s) ys
    | _ => base o xs
    end.

  (* what aesara.function computes for the graphs that /repo builds *)
  Inductive evals (h : heap) (rho : vid -> option D) : vid -> D -> Prop :=
    | ev_given v x : rho v = Some x -> evals h rho v x
    | ev_const v w c :
        rho v = None -> hv h v = Some w -> v_owner w = None -> v_kind w = KConst c ->
        evals h rho v (cval c)
    | ev_app v n i nd xs ys x :
        rho v = None -> owner h v = Some (n, i) -> hn h n = Some nd ->
        evals_list h rho (n_ins nd) xs ->
        sem (n_op nd) xs = Some ys -> ys !! i = Some x ->
        evals h rho v x
  with evals_list (h : heap) (rho : vid -> option D) : list vid -> list D -> Prop :=
    | evl_nil : evals_list h rho [] []
    | evl_cons v vs x xs :
        evals h rho v x -> evals_list h rho vs xs -> evals_list h rho (v :: vs) (x :: xs).
End eval.

(** ** Inlining of [SubsumingElemwise] nodes: inline_SubsumingElemwise
    (rewriting.py:378-392) builds a copy of the inner graph on the node's current
    inputs. *)

Definition inline_base (h : heap) (ins : list vid) (ty : vtype) (a : sarg) : option (heap * vid) :=
  match a with
  | SIn k _ => v ← ins !! k; Some (h, v)
  | SConst c _ => Some (alloc_var h (Var None ty (KConst c) None))
  end.

Definition inline_shuffle (h : heap) (v : vid) (ty : vtype) (order : option (list (option nat)))
    : option (heap * vid) :=
  match order with
  | None => Some (h, v)
  | Some ord =>
      let '(h1, vs) := alloc_node h (ODimShuffle ord) [v] [(None, ty)] in
      w ← vs !! 0; Some (h1, w)
  end.

Fixpoint inline_args (h : heap) (ins : list vid) (ty : vtype) (args : list sarg)
    : option (heap * list vid) :=
  match args with
  | [] => Some (h, [])
  | a :: args' =>
      '(h1, v) ← inline_base h ins ty a;
      '(h2, w) ← inline_shuffle h1 v ty (sarg_order a);
      '(h3, ws) ← inline_args h2 ins ty args';
      Some (h3, w :: ws)
  end.

Definition inline_node (h : heap) (n : nid) : option (heap * vid * vid) :=
  nd ← hn h n;
  match n_op nd with
  | OSubsume s args =>
      o ← n_outs nd !! 0;
      ty ← ty_of h o;
      '(h1, vs) ← inline_args h (n_ins nd) ty args;
      let '(h2, ws) := alloc_node h1 (OElem s) vs [(name_of h o, ty)] in
      w ← ws !! 0;
      Some (h2, o, w)
  | _ => None
  end.

(** [in2out(inline_SubsumingElemwise)] (rewriting.py:395): apply the rewrite to
    the listed nodes, replacing each old output in the function graph *)
Fixpoint inline_all (h : heap) (roots : list vid) (ns : list nid) : heap * list vid :=
  match ns with
  | [] => (h, roots)
  | n :: ns' =>
      match inline_node h n with
      | Some (h1, old, new) =>
          let '(h2, roots2) := replace h1 roots old new in
          inline_all h2 roots2 ns'
      | None => inline_all h roots ns'
      end
  end.

Definition expand_subsumptions (order : heap -> list vid -> list nid)
    (h : heap) (roots : list vid) : heap * list vid :=
  inline_all h roots (order h roots).
