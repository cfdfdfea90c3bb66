(** Model of /repo/aemcmc/basic.py (construct_sampler) and of construct_ir_fgraph
    in /repo/aemcmc/rewriting.py. *)
From Verif Require Export M_graph M_nuts_graph M_types.

(** An entry of [SamplerTracker.rvs_to_samplers] (rewriting.py:112-115): the name
    of the finder, the step and its updates ([None] and [{}] are both []). *)
Record found := Found { f_desc : nat; f_step : vid; f_updates : dict nat nat }.

(** ** construct_ir_fgraph (rewriting.py:54-101) *)

(** rewriting.py:73-77; [topo] is [io_toposort([], keys)] *)
Definition rv_outputs (h : heap) (topo : list nid) : list vid :=
  omap (fun n => nd ← hn h n;
          match n_op nd with ORV _ => n_outs nd !! 1 | _ => None end) topo.

Definition memo_get (memo : dict nat nat) (v : vid) : vid :=
  match dget memo v with Some w => w | None => v end.

(** [memo.setdefault] for the outputs of a cloned node *)
(* FunctionGraph(clone=True, memo=memo): rewriting.py:83-90 *)
Fixpoint memo_add (memo : dict nat nat) (olds news : list vid) : dict nat nat :=
  match olds, news with
  | o :: olds', w :: news' =>
      memo_add (if dmem o memo then memo else dset memo o w) olds' news'
  | _, _ => memo
  end.

(* what the cloned outputs keep, their names and types: rewriting.py:83-90 *)
Definition full_sig (h : heap) (v : vid) : option string * vtype :=
  match hv h v with Some x => (v_name x, v_ty x) | None => (None, VType false 0) end.

(** clone_get_equiv with [copy_inputs=False, copy_orphans=False]
    (rewriting.py:83-90): nodes are cloned in topological order on the memoised
    inputs; variables without owner are kept. *)
Fixpoint clone_nodes (h : heap) (memo : dict nat nat) (topo : list nid) : heap * dict nat nat :=
  match topo with
  | [] => (h, memo)
  | n :: topo' =>
      match hn h n with
      | None => clone_nodes h memo topo'
      | Some nd =>
          let '(h1, outs) :=
            alloc_node h (n_op nd) (memo_get memo <$> n_ins nd) (full_sig h <$> n_outs nd) in
          clone_nodes h1 (memo_add memo (n_outs nd) outs) topo'
      end
  end.

Record ir := IR {
  ir_heap : heap;
  ir_outputs : list vid;                (* fgraph.outputs *)
  ir_obs : dict nat nat;                (* obs_rvs_to_values with cloned keys *)
  ir_memo : dict nat nat;
  ir_new_to_old : dict nat nat;
}.

(** [topo] enumerates the nodes of the model, [topo_rv] those of the function
    graph of its random variables, both in topological order; [canon] is the
    rewriter [sampler_ir_db.query("+basic")]. *)
Definition construct_ir_fgraph (canon : heap -> list vid -> heap * list vid)
    (h : heap) (obs : dict nat nat) (topo topo_rv : list nid) : ir :=
  let memo0 := dof (map (fun v => (v, v)) (dvalues obs)) in              (* :71 *)
  let rvs := rv_outputs h topo in                                        (* :73-77 *)
  let '(h1, memo) := clone_nodes h memo0 topo_rv in                      (* :83-90 *)
  let outs1 := memo_get memo <$> rvs in
  let obs' := dof (map (fun '(k, v) => (memo_get memo k, v)) obs) in     (* :93 *)
  let '(h2, outs2) := canon h1 outs1 in                                  (* :95 *)
  IR h2 outs2 obs' memo (dof (zip outs2 rvs)).                           (* :97-99 *)

(** ** The loop of construct_sampler (basic.py:59-102) *)

Record state := St {
  st_heap : heap;
  st_found : dict nat (list found);
  st_pss : dict nat nat;                (* posterior_sample_steps *)
  st_updates : dict nat nat;            (* posterior_updates *)
  st_left : list vid;                   (* rvs_without_samplers, a set *)
}.

(** [s.add(x)] *)
(* basic.py:66 *)
Definition set_add (l : list vid) (x : vid) : list vid :=
  if decide (x ∈ l) then l else l ++ [x].

(** one iteration for an unobserved variable with at least one sampler
    (basic.py:69-102) *)
Definition process_step (order : heap -> list vid -> list nid)
    (st : state) (rv : vid) (fs : list found) (f : found) : result state :=
  let ukeys := dkeys (f_updates f) in
  let uvals := dvalues (f_updates f) in
  rbind (replace_all (st_heap st) (f_step f :: ukeys ++ uvals) (st_pss st)) (fun '(h1, roots1) =>
  let '(h2, roots2) := expand_subsumptions order h1 roots1 in
  match roots2 with
  | [] => Raise IndexError
  | step :: rest =>
      let upd := dof (zip (take (length ukeys) rest) (drop (length ukeys) rest)) in
      Ok (St h2 (dset (st_found st) rv fs) (dset (st_pss st) rv step)
            (dupdate (st_updates st) upd) (st_left st))
  end).

Definition process_rv (order : heap -> list vid -> list nid) (obs : dict nat nat)
    (st : state) (rv : vid) : result state :=
  if dmem rv obs then Ok st                                              (* :60-61 *)
  else
    match dget (st_found st) rv with                                     (* :63-67 *)
    | None => Ok (St (st_heap st) (st_found st) (st_pss st) (st_updates st) (set_add (st_left st) rv))
    | Some fs =>
        match last fs with                                               (* :70, pop *)
        | None => Ok (St (st_heap st) (st_found st) (st_pss st) (st_updates st) (set_add (st_left st) rv))
        | Some f => process_step order st rv (removelast fs) f
        end
    end.

Fixpoint process_all (order : heap -> list vid -> list nid) (obs : dict nat nat)
    (st : state) (rvs : list vid) : result state :=
  match rvs with
  | [] => Ok st
  | rv :: rvs' => rbind (process_rv order obs st rv) (fun st' => process_all order obs st' rvs')
  end.

(** [{rv: rv.clone() for rv in random_vars}] (basic.py:48) *)
Fixpoint clone_all (h : heap) (rvs : list vid) : heap * list (vid * vid) :=
  match rvs with
  | [] => (h, [])
  | rv :: rvs' =>
      let '(h1, w) := clone_var h rv in
      let '(h2, l) := clone_all h1 rvs' in
      (h2, (rv, w) :: l)
  end.

(** ** construct_sampler (basic.py:18-130) *)

Record sampler := Sampler {
  s_heap : heap;
  s_steps : dict nat nat;
  s_updates : dict nat nat;
  s_parameters : dict nat (vid * vid);
  s_init : dict nat nat;
}.

(** [{new_to_old_rvs[k]: v for k, v in items}] *)
(* basic.py:122-126, 128-130 *)
Fixpoint rename_keys (n2o : dict nat nat) (items : list (vid * vid)) : result (list (vid * vid)) :=
  match items with
  | [] => Ok []
  | (k, v) :: items' =>
      match dget n2o k with
      | None => Raise KeyError
      | Some k' => rbind (rename_keys n2o items') (fun l => Ok ((k', v) :: l))
      end
  end.

(* the calls of Aesara and AeHMC in construct_ir_fgraph and construct_sampler: rewriting.py:95; basic.py:42, 88, 114-116 *)
Record oracles := Oracles {
  o_canon : heap -> list vid -> heap * list vid;        (* sampler_ir_db *)
  o_finders : heap -> list vid -> heap * dict nat (list found);   (* sampler_finder_db *)
  o_order : heap -> list vid -> list nid;               (* order of in2out *)
  o_iter : list vid -> list vid;                        (* iteration over a set *)
  o_nuts : heap -> dict nat nat -> dict nat nat -> heap * nuts_step;  (* nuts.step *)
  o_ginputs : heap -> list vid -> list vid;             (* graph_inputs *)
  o_kernel : nat;                                       (* the NUTSKernel object *)
}.

(** basic.py:36-57: everything before the loop *)
Definition sampler_init (o : oracles) (h : heap) (obs0 : dict nat nat) (topo topo_rv : list nid)
    : ir * list vid * list (vid * vid) * state :=
  let i := construct_ir_fgraph (o_canon o) h obs0 topo topo_rv in
  let '(h1, fnd) := o_finders o (ir_heap i) (ir_outputs i) in            (* :40-42 *)
  let '(h2, outs) := expand_subsumptions (o_order o) h1 (ir_outputs i) in   (* last of sampler_rewrites_db *)
  let random_vars := filter (fun rv => rv ∉ dkeys (ir_obs i)) outs in       (* :44 *)
  let '(h3, inits) := clone_all h2 random_vars in                        (* :48 *)
  let pss := dupdate (dof inits) (ir_obs i) in                           (* :49-51 *)
  (i, outs, dof inits, St h3 fnd pss [] []).

(** basic.py:104-113: the arguments of the call to nuts.construct_sampler *)
Definition nuts_call (o : oracles) (st : state) : dict nat nat * dict nat nat :=
  let left := o_iter o (st_left st) in
  let to_sample := dof (omap (fun rv => v ← dget (st_pss st) rv; Some (rv, v)) left) in
  (to_sample, filter (fun p => p.1 ∉ dkeys to_sample) (st_pss st)).

(** basic.py:104-120 *)
Definition nuts_stage (o : oracles) (st : state)
    : result (heap * dict nat nat * dict nat nat * dict nat (vid * vid)) :=
  match st_left st with
  | [] => Ok (st_heap st, st_pss st, st_updates st, [])
  | _ =>
      let '(to_sample, realized) := nuts_call o st in
      let '(h1, s) := o_nuts o (st_heap st) to_sample realized in
      rbind (nuts_construct h1 to_sample s
               (o_ginputs o h1 (ns_results s ++ dvalues (ns_updates s))) (o_kernel o)) (fun '(h2, k) =>
      Ok (h2, dupdate (st_pss st) (nk_results k), dupdate (st_updates st) (nk_updates k),
          dset [] (nk_kernel k) (nk_params k)))
  end.

Definition construct_sampler (o : oracles) (h : heap) (obs0 : dict nat nat) (topo topo_rv : list nid)
    : result sampler :=
  let '(i, outs, inits, st0) := sampler_init o h obs0 topo topo_rv in
  rbind (process_all (o_order o) (ir_obs i) st0 outs) (fun st =>         (* :59-102 *)
  rbind (nuts_stage o st) (fun '(h4, pss, upd, params) =>
  rbind (rename_keys (ir_new_to_old i) (filter (fun p => p.1 ∉ dkeys (ir_obs i)) pss)) (fun steps =>  (* :122-126 *)
  rbind (rename_keys (ir_new_to_old i) inits) (fun init_vals =>          (* :128-130 *)
  Ok (Sampler h4 (dof steps) upd params (dof init_vals)))))).
