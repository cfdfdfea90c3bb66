(** construct_sampler (/repo/aemcmc/basic.py:18-130) with the registered finders
    (M_gibbs.v: gibbs.py, conjugates.py, rewriting.py:127-176), nuts.step (M_nuts_step.v:
    nuts.py:44-145) and Aesara's graph_inputs (M_walk.v).  What is left open is the code
    outside aemcmc: the canonicalisation [canon], the calls [sched] that the rewriter makes,
    the order [order] of in2out, the iteration [iter] over a set, joint_logprob [lp], the
    default transforms [tr], the number [nr] of generators of the NUTS trajectory, and the
    identity [kernel] of the NUTSKernel object. *)
From Verif Require Export M_basic M_gibbs M_nuts_step.

Definition whole (canon : heap -> list vid -> heap * list vid)
    (sched : heap -> list vid -> list (entry * nid)) (order : heap -> list vid -> list nid)
    (iter : list vid -> list vid) (B : builder) (tr : transforms)
    (lp : heap -> dict nat nat -> dict nat nat -> heap * list vid) (nr kernel : nat) : oracles :=
  Oracles canon (discover B sched) order iter (step B tr lp nr) (fun h roots => graph_inputs h roots []) kernel.
