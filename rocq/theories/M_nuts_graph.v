(** Model of the graph-building half of /repo/aemcmc/nuts.py: construct_sampler
    (nuts.py:148-174).  The numerical half is in M_nuts.v. *)
From Verif Require Export M_graph.

Definition is_shared (h : heap) (v : vid) : bool :=
  match hv h v with Some (Var _ _ (KShared _) _) => true | _ => false end.
Definition is_const (h : heap) (v : vid) : bool :=
  match hv h v with Some (Var _ _ (KConst _) _) => true | _ => false end.

(** What [step] (nuts.py:44-145) hands over: for each variable of
    [to_sample_rvs], in that order, the variable holding its new value; the
    updates; the two parameters.  Its inside (aehmc, aeppl) is not a graph
    transformation of aemcmc and is left to the oracle [step]. *)
Record nuts_step := NutsStep {
  ns_results : list vid;
  ns_updates : dict nat nat;
  ns_params : vid * vid;
}.

Record nuts_sampler := NutsSampler {
  nk_results : dict nat nat;
  nk_updates : dict nat nat;
  nk_kernel : nat;                 (* the NUTSKernel op *)
  nk_params : vid * vid;
}.

(* the outputs of the NUTS kernel, OpFromGraph: nuts.py:163-166 *)
Definition var_sig (h : heap) (v : vid) : option string * vtype :=
  match hv h v with Some x => (None, v_ty x) | None => (None, VType false 0) end.

(** [{updates_input[i]: out for i, out in enumerate(updates_output)}]
    (nuts.py:168-172) *)
Fixpoint pair_updates (ins outs : list vid) : result (list (vid * vid)) :=
  match outs, ins with
  | [], _ => Ok []
  | _ :: _, [] => Raise IndexError
  | o :: outs', i :: ins' => rbind (pair_updates ins' outs') (fun l => Ok ((i, o) :: l))
  end.

(** nuts.construct_sampler (nuts.py:148-174).  [ginputs] is the list
    [graph_inputs(outputs)]; the [OpFromGraph] appends the shared variables among
    them, in that order, to the explicit inputs (nuts.py:158-163, 168). *)
Definition nuts_construct (h : heap) (to_sample : dict nat nat) (s : nuts_step)
    (ginputs : list vid) (kernel : nat) : result (heap * nuts_sampler) :=
  let outputs := ns_results s ++ dvalues (ns_updates s) in
  let inputs := filter (fun v => is_const h v = false /\ is_shared h v = false) ginputs in
  let shared := filter (fun v => is_shared h v = true) ginputs in
  let '(h1, posterior) := alloc_node h (OOther kernel) (inputs ++ shared) (var_sig h <$> outputs) in
  let results := zip (dkeys to_sample) posterior in
  rbind (pair_updates shared (drop (length results) posterior)) (fun upd =>
  Ok (h1, NutsSampler results (dof upd) kernel (ns_params s))).
