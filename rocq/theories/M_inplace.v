(** Model of construct_ir_fgraph with [clone=False] (/repo/aemcmc/rewriting.py:54-100). *)
From Verif Require Export M_pass.

(** rewriting.py:54-100 with [clone=False]: the FunctionGraph is built on the caller's own
    variables and [memo] stays as it was created (Aesara only fills it when it clones).
    [canon] is the rewriter [sampler_ir_db.query("+basic")]. *)
Definition construct_ir_fgraph_inplace (canon : heap -> list vid -> heap * list vid)
    (h : heap) (obs : dict nat nat) (topo : list nid) : ir :=
  let memo := dof (map (fun v => (v, v)) (dvalues obs)) in               (* :71 *)
  let rvs := rv_outputs h topo in                                        (* :73-77 *)
  let obs' := dof (map (fun '(k, v) => (memo_get memo k, v)) obs) in     (* :93 *)
  let '(h2, outs2) := canon h rvs in                                     (* :83-95 *)
  IR h2 outs2 obs' memo (dof (zip outs2 rvs)).                           (* :97-99 *)
