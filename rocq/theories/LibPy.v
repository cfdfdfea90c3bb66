(** Python values used everywhere in the model: exceptions as values, and
    [dict]s, which in CPython (and since Python 3.7 in the language) remember
    insertion order.  No code of /repo is modelled here. *)
From stdpp Require Export prelude list.

(** ** Exceptions *)

Inductive exn :=
  | ValueError | TypeError | AttributeError | KeyError | AssertionError
  | AlreadyThere | MissingInputError | IndexError.

Global Instance exn_eq_dec : EqDecision exn.
Proof. solve_decision. Defined.

Inductive result (A : Type) :=
  | Ok (a : A)
  | Raise (e : exn).
Arguments Ok {A} a.
Arguments Raise {A} e.

Definition rbind {A B} (x : result A) (f : A -> result B) : result B :=
  match x with Ok a => f a | Raise e => Raise e end.

(** ** Insertion-ordered dictionaries *)

Section dict.
  Context {K V : Type} `{EqDecision K}.

  Definition dict : Type := list (K * V).

  (** [d.get(k)] *)
  Fixpoint dget (d : dict) (k : K) : option V :=
    match d with
    | [] => None
    | (k', v) :: d' => if decide (k = k') then Some v else dget d' k
    end.

  (** [d[k] = v]: an existing key keeps its position *)
  Fixpoint dset (d : dict) (k : K) (v : V) : dict :=
    match d with
    | [] => [(k, v)]
    | (k', v') :: d' =>
        if decide (k = k') then (k', v) :: d' else (k', v') :: dset d' k v
    end.

  (** [d.update(e)], with [e] given by its items *)
  Fixpoint dupdate (d : dict) (e : list (K * V)) : dict :=
    match e with
    | [] => d
    | (k, v) :: e' => dupdate (dset d k v) e'
    end.

  (** [dict(items)] and [{k: v for k, v in items}] *)
  Definition dof (items : list (K * V)) : dict := dupdate [] items.

  Definition dkeys (d : dict) : list K := map fst d.
  Definition dvalues (d : dict) : list V := map snd d.

  Definition dmem (k : K) (d : dict) : bool := bool_decide (k ∈ dkeys d).
End dict.
Arguments dict : clear implicits.
