(** Specification for C64: building samplers one after the other.

    Aesara graphs are shared, mutable objects: construct_sampler (/repo/aemcmc/basic.py)
    runs in a heap that already holds the caller's model and everything built before. *)
From Verif Require Export L_total.

(** [builds h0 h ss h']: starting in heap [h], samplers [ss] are built one after the other,
    each for some model that was there in [h0] (the same one or another, with the same or
    other observations, finders, step sizes ...), and [h'] is the heap afterwards.
    [shuffles_ok (s_heap s)] is what Aesara guarantees of the graphs it builds. *)
Inductive builds (h0 : heap) : heap -> list sampler -> heap -> Prop :=
  | builds_nil h : builds h0 h [] h
  | builds_cons h o obs topo topo_rv s ss h' :
      contracts o -> model_ok h0 obs -> topo_order h0 (dkeys obs) topo ->
      topo_order h0 (rv_outputs h0 topo) topo_rv ->
      construct_sampler o h obs topo topo_rv = Ok s -> shuffles_ok (s_heap s) ->
      builds h0 (s_heap s) ss h' -> builds h0 h (s :: ss) h'.

(** the variables a sampler gives to its user *)
Definition given_out (s : sampler) (v : vid) : Prop :=
  (exists rv, dget (s_steps s) rv = Some v) \/ (exists k, dget (s_updates s) k = Some v) \/
  (exists rv, dget (s_init s) rv = Some v).
