(** Which nodes read a random generator. *)
From Verif Require Export S_gibbs.

(** node [n] has [r] among its inputs *)
Definition reads (h : heap) (n : nid) (r : vid) : Prop :=
  exists nd, hn h n = Some nd /\ r ∈ n_ins nd.

(** [u] is the default update of the shared variable [r] *)
Definition default_of (h : heap) (r u : vid) : Prop :=
  exists nm ty ow, hv h r = Some (Var nm ty (KShared (Some u)) ow).
(** what aesara.function stores in [r] after a call of a function with the step [step] and
    the updates [ups]: the given update, or else the default update of [r] *)
Definition next_value (h : heap) (ups : dict nat nat) (r u : vid) : Prop :=
  dget ups r = Some u \/ (dget ups r = None /\ default_of h r u).
(** it is the state that a node of the step leaves after it has used [r] *)
Definition advanced_by_step (h : heap) (step : vid) (ups : dict nat nat) (r : vid) : Prop :=
  exists u n i, next_value h ups r u /\ owner h u = Some (n, i) /\ reads h n r /\ node_reachable h [step] n.
(** it is the state that a draw of the step leaves: the draw is an application of a random
    variable to the generator [r], and its outputs are the next state and the value *)
Definition advanced_by_draw (h : heap) (step : vid) (ups : dict nat nat) (r : vid) : Prop :=
  exists u x n d ins, next_value h ups r u /\ hn h n = Some (Node (ORV d) (r :: ins) [u; x]) /\ u <> x /\ node_reachable h [step] n.
