(** Model of SamplerTracker and of the decorator sampler_finder
    (/repo/aemcmc/rewriting.py:104-176). *)
From Verif Require Export M_basic.

(** rewriting.py:107-115.  [rvs_seen] is a set of (name of the finder, variable). *)
Record tracker := Tracker {
  tk_samplers : dict nat (list found);
  tk_seen : list (nat * vid);
}.

(** rewriting.py:107: a new tracker *)
Definition new_tracker : tracker := Tracker [] [].

(** What the decorated function does when it is called: return a (possibly empty, or
    [None]) list of (variable, posterior, updates), or raise *)
(* rewriting.py:161 *)
Definition outcome : Type := result (list (vid * vid * dict nat nat)).

(** rewriting.py:166-169: [setdefault(rv, []).append(...)] for each entry *)
Definition add_sampler (fname : nat) (d : dict nat (list found)) (e : vid * vid * dict nat nat)
    : dict nat (list found) :=
  let '(rv, step, updates) := e in
  dset d rv (default [] (dget d rv) ++ [Found fname step updates]).

(** One call of a registered finder on the node computing [rv_var]
    (rewriting.py:147-172).  [mappings] is [fgraph.sampler_mappings], if there; the
    boolean says whether the node's own outputs were returned ([None] otherwise). *)
Definition sampler_finder_call (fname : nat) (rv_var : vid) (out : outcome) (mappings : option tracker)
    : result (option tracker * bool) :=
  match mappings with
  | None => Ok (None, false)                                             (* :156-157 *)
  | Some t =>
      if decide ((fname, rv_var) ∈ tk_seen t) then Ok (Some t, false)    (* :156-157 *)
      else
        rbind out (fun rvs_and_posteriors =>                             (* :161 *)
        match rvs_and_posteriors with
        | [] => Ok (Some t, false)                                       (* :163-164 *)
        | es => Ok (Some (Tracker (foldl (add_sampler fname) (tk_samplers t) es)
                            (tk_seen t ++ [(fname, rv_var)])), true)     (* :166-172 *)
        end)
  end.

(** A schedule: which finder the rewriter calls on which node, and what the decorated
    function would do at that moment. *)
(* rewriting.py:127-176 *)
Record call := Call { c_name : nat; c_rv : vid; c_out : outcome }.

(** Any sequence of calls.  An exception leaves the tracker as it was (Aesara's
    rewriters report it and go on).  The list says, for every call, whether it returned
    the node's outputs. *)
Fixpoint run_calls (t : tracker) (cs : list call) : tracker * list bool :=
  match cs with
  | [] => (t, [])
  | c :: cs' =>
      let '(t1, b) :=
        match sampler_finder_call (c_name c) (c_rv c) (c_out c) (Some t) with
        | Ok (Some t1, b) => (t1, b)
        | _ => (t, false)
        end in
      let '(t2, bs) := run_calls t1 cs' in
      (t2, b :: bs)
  end.

(** on_attach (rewriting.py:117-123): [None] when the attribute is absent *)
Definition on_attach (mappings : option tracker) (t : tracker) : result (option tracker) :=
  match mappings with Some _ => Raise AlreadyThere | None => Ok (Some t) end.
