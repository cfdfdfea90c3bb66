(** Model of /repo/aemcmc/types.py. *)
From Verif Require Export M_graph.

(** [d[k].append(x)] on a [defaultdict(list)] *)
(* types.py:41, 44 *)
Definition dappend {K A} `{EqDecision K} (d : dict K (list A)) (k : K) (x : A) : dict K (list A) :=
  match dget d k with
  | Some l => dset d k (l ++ [x])
  | None => dset d k [x]
  end.

(** The key under which a step is grouped is the [Op] object
    [updated_rv.owner.op].  Two [SamplingStep]s are equal only when they are the
    same object (OpFromGraph), two [RandomVariable] ops of the same
    distribution are equal values.  [opkey] is that equality class. *)
(* types.py:42-44 *)
Fixpoint stages_loop (opkey : vid -> option nat) (items : list (vid * vid))
    (stages : dict nat (list vid)) : result (dict nat (list vid)) :=
  match items with
  | [] => Ok stages
  | (rv, updated_rv) :: items' =>
      match opkey updated_rv with
      | None => Raise AttributeError           (* owner is None *)
      | Some kernel => stages_loop opkey items' (dappend stages kernel rv)
      end
  end.

(** Sampler.__post_init__ (types.py:37-45) *)
Definition sampler_stages (opkey : vid -> option nat) (sample_steps : dict nat nat)
    : result (dict nat (list vid)) :=
  stages_loop opkey sample_steps [].
