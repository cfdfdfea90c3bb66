(** Specification vocabulary for construct_sampler. *)
From Verif Require Export S_graph M_basic.

(** Nothing that existed is changed: every variable and every node of [h] is in
    [h'] with the same content. *)
Definition extends (h h' : heap) : Prop :=
  (forall v x, hv h v = Some x -> hv h' v = Some x) /\
  (forall n nd, hn h n = Some nd -> hn h' n = Some nd).

(** How SubsumingElemwise nodes are built (rewriting.py:298-367): one output, and
    the inner graph refers to existing inputs. *)
Definition subsume_ok (h : heap) : Prop :=
  forall n nd s args, hn h n = Some nd -> n_op nd = OSubsume s args ->
    (exists o, n_outs nd = [o]) /\ (forall k ord, SIn k ord ∈ args -> k < length (n_ins nd)).

Definition is_subsume (h : heap) (n : nid) : Prop :=
  exists nd s args, hn h n = Some nd /\ n_op nd = OSubsume s args.

(** A heap of Aesara objects: consistent, acyclic, well-built SubsumingElemwise nodes *)
Definition good_heap (h : heap) : Prop := wf_heap h /\ acyclic h /\ subsume_ok h.

(** [ns] lists the nodes computing [roots] once each, every node after the nodes
    computing its inputs (Aesara's io_toposort). *)
Definition topo_order (h : heap) (roots : list vid) (ns : list nid) : Prop :=
  enumerates_nodes h roots ns /\
  forall l1 n l2 nd u m i, ns = l1 ++ n :: l2 -> hn h n = Some nd -> u ∈ n_ins nd ->
    owner h u = Some (m, i) -> m ∈ l1.

(** [rv] is a random variable of the model: the draw computed by a RandomVariable
    node from which some observed variable is computed *)
Definition model_rv (h : heap) (obs : dict nat nat) (rv : vid) : Prop :=
  exists n nd d, node_reachable h (dkeys obs) n /\ hn h n = Some nd /\ n_op nd = ORV d /\
    n_outs nd !! 1 = Some rv.

(** the variables a discovered sampler consists of *)
Definition roots_of (f : found) : list vid :=
  f_step f :: dkeys (f_updates f) ++ dvalues (f_updates f).

(** the sampler used for [rv]: the one discovered last (basic.py:70) *)
Definition chosen (fnd : dict nat (list found)) (rv : vid) : option found :=
  fs ← dget fnd rv; last fs.

(** the sampler discovered last for the caller's variable [rv]; discovery works on
    the clone of the model (basic.py:36-46) *)
Definition sampler_for (o : oracles) (h : heap) (obs : dict nat nat) (topo topo_rv : list nid)
    (rv : vid) : option found :=
  let '(i, _, _, _) := sampler_init o h obs topo topo_rv in
  chosen (o_finders o (ir_heap i) (ir_outputs i)).2 (memo_get (ir_memo i) rv).

(** ** What is assumed of the code outside aemcmc that construct_sampler calls *)

(** What Aesara guarantees of the graphs it builds: a DimShuffle has one input and one
    output; constants are leaves. *)
Definition shuffles_ok (h : heap) : Prop :=
  (forall n nd o, hn h n = Some nd -> n_op nd = ODimShuffle o ->
     (exists x, n_ins nd = [x]) /\ (exists v, n_outs nd = [v])) /\
  (forall v x c, hv h v = Some x -> v_kind x = KConst c -> v_owner x = None).

(** [r] is the value of a random variable *)
Definition is_draw (h : heap) (r : vid) : Prop :=
  exists n nd d, owner h r = Some (n, 1) /\ hn h n = Some nd /\ n_op nd = ORV d.

(** the canonicalisation of the measurable IR rewrites the function graph it is given,
    whose outputs are random variables: it keeps its outputs, only ever changes the inputs
    of existing nodes, touches no node outside the graph, and brings in nothing but new
    objects (proved of the part of it that is aemcmc's own in L_pass.v) *)
Definition canon_ok (canon : heap -> list vid -> heap * list vid) : Prop :=
  forall h outs, good_heap h -> shuffles_ok h -> (forall r, r ∈ outs -> is_draw h r) ->
    (canon h outs).2 = outs /\ good_heap (canon h outs).1 /\
    (forall n nd, hn h n = Some nd ->
        exists nd', hn (canon h outs).1 n = Some nd' /\ n_op nd' = n_op nd) /\
    (forall v x, hv h v = Some x -> hv (canon h outs).1 v = Some x) /\
    (forall n nd, hn h n = Some nd -> ~ node_reachable h outs n ->
        hn (canon h outs).1 n = Some nd) /\
    (forall u, reachable (canon h outs).1 outs u -> reachable h outs u \/ hv h u = None).

(** in2out visits every node of the function graph *)
Definition order_ok (order : heap -> list vid -> list nid) : Prop :=
  forall h roots n, n ∈ order h roots <-> node_reachable h roots n.

(** iterating over a set visits each member once, in any order *)
Definition iter_ok (iter : list vid -> list vid) : Prop := forall l, iter l ≡ₚ l.

Record contracts (o : oracles) : Prop := Contracts {
  ct_canon : canon_ok (o_canon o);
  (* the sampler finders only create new nodes; the samplers they return are built
     from new nodes, the variables of the function graph, and leaves; updates are
     keyed by shared variables *)
  ct_finders : forall h outs, good_heap h -> (forall r, r ∈ outs -> is_Some (hv h r)) ->
    extends h (o_finders o h outs).1 /\ good_heap (o_finders o h outs).1 /\
    forall rv fs f, dget (o_finders o h outs).2 rv = Some fs -> f ∈ fs ->
      (forall r, r ∈ roots_of f -> is_Some (hv (o_finders o h outs).1 r)) /\
      NoDup (dkeys (f_updates f)) /\
      (forall k, k ∈ dkeys (f_updates f) -> owner (o_finders o h outs).1 k = None) /\
      (forall u, reachable (o_finders o h outs).1 (roots_of f) u ->
          reachable h outs u \/ hv h u = None \/ owner h u = None);
  ct_order : order_ok (o_order o);
  ct_iter : iter_ok (o_iter o);
  (* nuts.step only creates new nodes and gives one result per variable *)
  ct_nuts : forall h ts re, good_heap h ->
    (forall v, v ∈ dvalues ts ++ dvalues re -> is_Some (hv h v)) ->
    extends h (o_nuts o h ts re).1 /\ good_heap (o_nuts o h ts re).1 /\
    length (ns_results (o_nuts o h ts re).2) = length ts /\
    (forall v, v ∈ ns_results (o_nuts o h ts re).2 ++ dvalues (ns_updates (o_nuts o h ts re).2) ->
        is_Some (hv (o_nuts o h ts re).1 v));
  ct_ginputs : forall h roots v, good_heap h -> (forall r, r ∈ roots -> is_Some (hv h r)) ->
    v ∈ o_ginputs o h roots -> is_Some (hv h v);
}.

(** ** What is assumed of the caller's model *)
Record model_ok (h : heap) (obs : dict nat nat) : Prop := ModelOk {
  mo_good : good_heap h;
  mo_shuffles : shuffles_ok h;
  (* no SubsumingElemwise in a user's model *)
  mo_plain : forall n, node_reachable h (dkeys obs ++ dvalues obs) n -> ~ is_subsume h n;
  mo_nodup : NoDup (dkeys obs);
  mo_keys : forall k, k ∈ dkeys obs -> model_rv h obs k;  (* the keys are random variables *)
  mo_vals : forall v, v ∈ dvalues obs -> is_Some (hv h v);
  (* observed values are data: they do not depend on the model's random variables,
     and when they are also used inside the model they are leaves *)
  mo_data : forall v rv, v ∈ dvalues obs -> model_rv h obs rv -> ~ reachable h [v] rv;
  mo_leaf : forall v, v ∈ dvalues obs -> reachable h (dkeys obs) v -> owner h v = None;
}.

(** ** The systematic scan, as an independent big-step semantics *)

(** environment [sigma] on top of [rho] *)
Definition over {D} (sigma rho : vid -> option D) (u : vid) : option D :=
  match sigma u with Some x => Some x | None => rho u end.

Section scan.
  Context {D : Type} (base : op -> list D -> option (list D)) (cval : nat -> D).
  Context (h : heap) (rho : vid -> option D).
  Context (obs : dict nat nat) (fnd : dict nat (list found)).

  Definition upd {A} (s : vid -> option A) (v : vid) (x : A) : vid -> option A :=
    fun u => if decide (u = v) then Some x else s u.

  (** [scan l first sigma ups sigma' ups']: visiting the variables [l] in order,
      each one with a sampler gets the value of its sampler at the current values
      [sigma]; variables computed by one and the same kernel application are updated
      jointly, from the values [first n] that were current when kernel [n] was first
      used.  [ups] collects the values of the updates. *)
  Inductive scan : list vid -> (nid -> option (vid -> option D)) ->
      (vid -> option D) -> (vid -> option D) -> (vid -> option D) -> (vid -> option D) -> Prop :=
    | scan_nil first sigma ups : scan [] first sigma ups sigma ups
    | scan_skip rv l first sigma ups sigma' ups' :
        rv ∈ dkeys obs \/ chosen fnd rv = None ->
        scan l first sigma ups sigma' ups' -> scan (rv :: l) first sigma ups sigma' ups'
    | scan_step rv l first sigma ups sigma' ups' f n i x ys tau :
        rv ∉ dkeys obs -> chosen fnd rv = Some f ->
        owner h (f_step f) = Some (n, i) ->
        tau = default sigma (first n) ->
        evals base cval h (over tau rho) (f_step f) x ->
        Forall2 (evals base cval h (over tau rho)) (dvalues (f_updates f)) ys ->
        scan l (upd first n tau) (upd sigma rv x)
          (foldl (fun s p => upd s p.1 p.2) ups (zip (dkeys (f_updates f)) ys)) sigma' ups' ->
        scan (rv :: l) first sigma ups sigma' ups'.
End scan.

(** ** When the samplers of two variables do not interfere through shared nodes *)
Section separated.
  Context (h : heap) (V : list vid).

  (** reachable without going through a model variable *)
  Inductive cut_reachable (roots : list vid) : vid -> Prop :=
    | cut_root r : r ∈ roots -> cut_reachable roots r
    | cut_step v u : cut_reachable roots v -> v ∉ V -> input_of h v u -> cut_reachable roots u.

  (** node [n] has a model variable (or an expression to be inlined) as an input *)
  Definition reads_model (n : nid) : Prop :=
    exists nd u, hn h n = Some nd /\ u ∈ n_ins nd /\
      (u ∈ V \/ exists m i, owner h u = Some (m, i) /\ is_subsume h m).

  (** [g]'s own nodes are not part of [f]'s graph, except when both are outputs of
      one kernel application *)
  Definition separated (f g : found) : Prop :=
    forall n i, owner h (f_step f) = Some (n, i) ->
      ((exists j, owner h (f_step g) = Some (n, j)) ->
         ~ is_subsume h n /\
         forall r, r ∈ f_step f :: f_step g :: dvalues (f_updates g) ->
           r ∉ V /\ exists j, owner h r = Some (n, j)) /\
      ((forall j, owner h (f_step g) <> Some (n, j)) ->
         forall v m j, cut_reachable (roots_of g) v -> v ∉ V -> owner h v = Some (m, j) ->
           reads_model m -> ~ node_reachable h (roots_of f) m).
End separated.
