(** Specification vocabulary for graphs: what it means for a variable to be an
    input of another, to be reachable from (i.e. an ancestor of) some outputs,
    and for a graph to be acyclic. *)
From Verif Require Export M_graph.

(** [u] is a direct input of the node computing [v] *)
Definition input_of (h : heap) (v u : vid) : Prop := u ∈ parents h v.

(** [v] is one of [roots] or an ancestor of one of them *)
Definition reachable (h : heap) (roots : list vid) (v : vid) : Prop :=
  exists r, r ∈ roots /\ rtc (input_of h) r v.

(** node [n] computes some variable reachable from [roots] *)
Definition node_reachable (h : heap) (roots : list vid) (n : nid) : Prop :=
  exists v i, reachable h roots v /\ owner h v = Some (n, i).

Definition acyclic (h : heap) : Prop := forall v, ~ tc (input_of h) v v.

(** [ns] lists the nodes computing [roots], each once *)
Definition enumerates_nodes (h : heap) (roots : list vid) (ns : list nid) : Prop :=
  NoDup ns /\ forall n, n ∈ ns <-> node_reachable h roots n.

(** [vs] lists the ancestors of [roots] (including [roots]) *)
Definition enumerates_ancestors (h : heap) (roots vs : list vid) : Prop :=
  forall v, v ∈ vs <-> reachable h roots v.

(** Heap objects are consistent: every owner and every input exists *)
Record wf_heap (h : heap) : Prop := WfHeap {
  wf_owner : forall v n i, owner h v = Some (n, i) ->
     exists nd, hn h n = Some nd /\ n_outs nd !! i = Some v;
  wf_ins : forall n nd u, hn h n = Some nd -> u ∈ n_ins nd -> is_Some (hv h u);
  wf_outs : forall n nd i u, hn h n = Some nd -> n_outs nd !! i = Some u ->
     owner h u = Some (n, i);
}.
