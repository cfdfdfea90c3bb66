(** Model of the rewriting of the measurable IR, sampler_ir_db.query("+basic")
    (/repo/aemcmc/rewriting.py:33-39, 95, 268-375). *)
From Verif Require Export M_subsume M_basic.

(** in2out(local_elemwise_dimshuffle_subsume) (rewriting.py:370-375) calls the rewriter on
    a node of the function graph [(h, outs)] and replaces the node's output by what it
    returns; an exception is reported and the node stays as it is. *)
Definition subsume_visit (T : tyops) (g : heap * list vid) (n : nid) : heap * list vid :=
  match subsume_node T g.1 n with
  | Ok (Some (h1, old, new)) => replace h1 g.2 old new
  | Ok None => g
  | Raise _ => g
  end.

(** the nodes are visited one after the other *)
(* rewriting.py:370-375 *)
Fixpoint subsume_pass (T : tyops) (g : heap * list vid) (ns : list nid) : heap * list vid :=
  match ns with
  | [] => g
  | n :: ns' => subsume_pass T (subsume_visit T g n) ns'
  end.

(** sampler_ir_db in order of position: "elemwise_dimshuffle_subsume" (-10), then
    "sampler_canonicalize", Aesara's canonicalisation [after].  [visits] lists the nodes
    visited; any list is allowed. *)
Definition ir_canon (T : tyops) (visits : heap -> list vid -> list nid)
    (after : heap -> list vid -> heap * list vid) (h : heap) (outs : list vid) : heap * list vid :=
  let '(h1, outs1) := subsume_pass T (h, outs) (visits h outs) in
  after h1 outs1.
