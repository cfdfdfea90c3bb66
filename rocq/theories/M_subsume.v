(** Model of local_elemwise_dimshuffle_subsume and SubsumingElemwise
    (/repo/aemcmc/rewriting.py:179-240, 268-367). *)
From Verif Require Export M_utils.

(** What Aesara knows about types: the rank, and the type of a [DimShuffle]'s output *)
Record tyops := TyOps {
  t_ndim : vtype -> nat;
  t_shuffle : vtype -> list (option nat) -> vtype;
}.

(** [l[:d]] and [l[d:]] for [d = out_ndim - in_ndim] (rewriting.py:310-318); for a
    negative [d] Python counts from the end *)
Definition py_split {A} (out_ndim in_ndim : nat) (l : list A) : list A * list A :=
  let k := if decide (in_ndim <= out_ndim) then out_ndim - in_ndim else length l - (in_ndim - out_ndim) in
  (take k l, drop k l).

(** [tuple(range(n))] as a DimShuffle order *)
(* rewriting.py:338, 343 *)
Definition dims (n : nat) : list (option nat) := Some <$> seq 0 n.

(** One pair of [new_inputs]/[subsumed_inputs]: the new input; the shuffle under which
    the inner graph uses it; the variable standing in [subsumed_inputs], when it is
    not a new one. *)
(* rewriting.py:298-299, 329-330, 346-354 *)
Record item := Item { it_new : vid; it_order : option (list (option nat)); it_arg : option vid }.

(** rewriting.py:304-354: one argument.  The boolean is [found_subsumable_ds].
    (The new DimShuffle put in [subsumed_inputs] is only used inside the inner graph,
    so it is not allocated.) *)
Definition subsume_arg (T : tyops) (out_ndim : nat) (h : heap) (i : vid) : heap * item * bool :=
  let keep := (h, Item i None (Some i), false) in
  match owner h i with
  | None => keep
  | Some (m, _) =>
      match hn h m with
      | Some (Node (ODimShuffle ds_order) [x] _) =>
          match ty_of h x with
          | None => keep
          | Some ty =>
              let '(el_order, new_ds_order) := py_split out_ndim (t_ndim T ty) ds_order in
              if decide (el_order = [] \/ el_order <> replicate (length el_order) None) then keep   (* :322-331 *)
              else if decide (new_ds_order = [] \/ new_ds_order = dims (length new_ds_order)) then
                (h, Item x (Some ds_order) (Some i), true)                                          (* :348-350 *)
              else                                                                                  (* :338-347 *)
                let '(h1, ys) := alloc_node h (ODimShuffle new_ds_order) [x] [(None, t_shuffle T ty new_ds_order)] in
                match ys with
                | y :: _ => (h1, Item y (Some (el_order ++ dims (length new_ds_order))) None, true)
                | [] => keep
                end
          end
      | _ => keep
      end
  end.

Fixpoint subsume_args (T : tyops) (out_ndim : nat) (h : heap) (ins : list vid) : heap * list item * bool :=
  match ins with
  | [] => (h, [], false)
  | i :: ins' =>
      let '(h1, it, b) := subsume_arg T out_ndim h i in
      let '(h2, its, bs) := subsume_args T out_ndim h1 ins' in
      (h2, it :: its, b || bs)
  end.

(** [dict(zip(inputs, dummy_inputs))] in OpFromGraph: the last occurrence counts *)
(* rewriting.py:363 *)
Fixpoint last_index (v : vid) (l : list vid) : option nat :=
  match l with
  | [] => None
  | x :: l' =>
      match last_index v l' with
      | Some k => Some (S k)
      | None => if decide (x = v) then Some 0 else None
      end
  end.

(* used for remove_constants, rewriting.py:362 *)
Definition const_of (h : heap) (v : vid) : option nat :=
  match hv h v with Some (Var _ _ (KConst c) _) => Some c | _ => None end.

(** The inner graph is cut at the inputs (OpFromGraph); what is neither an input nor a
    constant is a [MissingInputError] *)
(* rewriting.py:363 *)
Definition inner_leaf (h : heap) (used : list vid) (v : vid) (order : option (list (option nat))) : option sarg :=
  match last_index v used with
  | Some k => Some (SIn k order)
  | None => c ← const_of h v; Some (SConst c order)
  end.
(* rewriting.py:360-363 *)
Definition inner_arg (h : heap) (used : list vid) (it : item) : option sarg :=
  match a ← it_arg it; last_index a used with
  | Some k => Some (SIn k None)
  | None => inner_leaf h used (it_new it) (it_order it)
  end.

(* OpFromGraph rejects shared inputs, rewriting.py:363 *)
Definition is_shared_var (h : heap) (v : vid) : bool :=
  match hv h v with Some (Var _ _ (KShared _) _) => true | _ => false end.

(** local_elemwise_dimshuffle_subsume (rewriting.py:268-367) on node [n]: [None] when
    nothing is replaced, otherwise the new heap, the old output and its replacement.
    OpFromGraph refuses shared variables as inputs. *)
Definition subsume_node (T : tyops) (h : heap) (n : nid) : result (option (heap * vid * vid)) :=
  match hn h n with
  | Some (Node (OElem s) ins outs) =>                                    (* :295, :301 *)
      match outs with
      | [] => Ok None
      | out :: more =>
          match ty_of h out with
          | None => Ok None
          | Some ty =>
              let '(h1, items, found) := subsume_args T (t_ndim T ty) h ins in      (* :298-354 *)
              if found then                                              (* :356-357 *)
                let used := remove_constants h1 (PVar <$> (it_new <$> items)) in    (* :362 *)
                if existsb (is_shared_var h1) used then Raise TypeError  (* :363, OpFromGraph *)
                else
                  match mapM (inner_arg h1 used) items with
                  | None => Raise MissingInputError                      (* :363, OpFromGraph *)
                  | Some args =>
                      match more with
                      | _ :: _ => Raise AttributeError                   (* :365-367, a list has no owner *)
                      | [] =>
                          let '(h2, ws) := alloc_node h1 (OSubsume s args) used [(None, ty)] in
                          match ws with
                          | w :: _ => Ok (Some (h2, out, w))
                          | [] => Ok None
                          end
                      end
                  end
              else Ok None
          end
      end
  | _ => Ok None
  end.

(** SubsumingElemwise.make_node (rewriting.py:194-212): the inputs of the node it
    makes.  [n_inner] is [len(self.inner_inputs)], [shared] is [self.shared_inputs];
    OpFromGraph.make_node takes [n_inner] inputs or [n_inner - len(shared)], adding the
    shared ones in the latter case. *)
Definition opfromgraph_inputs (n_inner : nat) (shared inputs : list vid) : result (list vid) :=
  if decide (length inputs = n_inner - length shared) then Ok (inputs ++ shared)
  else if decide (length inputs = n_inner) then Ok inputs
  else Raise ValueError.

Definition subsuming_make_node (h : heap) (n_inner : nat) (shared : list vid) (inputs : list pyinput)
    : result (list vid) :=
  let used_inputs := remove_constants h inputs in                        (* :197 *)
  let num_expected_inps := n_inner - length shared in                    (* :202 *)
  let used_inputs' :=
    if decide (length used_inputs = num_expected_inps) then used_inputs ++ shared else used_inputs in
  rbind (opfromgraph_inputs n_inner shared used_inputs') (fun node_inputs =>   (* :207 *)
  Ok (take (length node_inputs - length shared) node_inputs)).           (* :211 *)
