(** Model of the graph traversal behind [graph_inputs] (/repo/aemcmc/nuts.py:158-162) and
    behind the list of shared inputs of an OpFromGraph (nuts.py:163, gibbs.py:614, 639).
    (The functions are Aesara's: aesara.graph.basic.walk, ancestors, graph_inputs.) *)
From Verif Require Export M_nuts_graph.

(** [expand]: the inputs of the owner of [v], unless [v] is a blocker *)
(* nuts.py:160 *)
Definition expand (h : heap) (blockers : list vid) (v : vid) : list vid :=
  if decide (v ∈ blockers) then [] else parents h v.

(** [walk(graphs, expand, bfs=False)]: a depth-first traversal.  The list is the stack with
    its top first: the outputs are popped from the last to the first one, the inputs of a
    node from the first to the last one ([reversed(r.owner.inputs)]). *)
(* nuts.py:160 *)
Fixpoint walk (fuel : nat) (h : heap) (blockers stack seen : list vid) : list vid :=
  match fuel, stack with
  | S fuel', v :: stack' =>
      if decide (v ∈ seen) then walk fuel' h blockers stack' seen
      else v :: walk fuel' h blockers (expand h blockers v ++ stack') (v :: seen)
  | _, _ => []
  end.

(** every variable is expanded at most once, so that this many steps are enough *)
(* no code: a bound for the recursion *)
Definition walk_fuel (h : heap) (outs : list vid) : nat :=
  length outs + foldr Nat.add 0 ((fun v => length (parents h v)) <$> elements (dom (h_vars h))).

(** [graph_inputs(outputs, blockers)]: the variables without owner that are met *)
(* nuts.py:160 *)
Definition graph_inputs (h : heap) (outs blockers : list vid) : list vid :=
  filter (fun v => owner h v = None) (walk (walk_fuel h outs) h blockers (rev outs) []).

(** the shared inputs of [OpFromGraph(inputs, outputs)], in the order in which they are
    appended to the inputs *)
(* nuts.py:163, 168; gibbs.py:614, 639, 644-645 *)
Definition shared_inputs (h : heap) (inputs outs : list vid) : list vid :=
  filter (fun v => is_shared h v = true) (graph_inputs h outs inputs).
