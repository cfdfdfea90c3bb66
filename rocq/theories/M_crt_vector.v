(** Model of sample_CRT with a vector of concentrations, and of the shapes in
    nbinom_dispersion_posterior (/repo/aemcmc/gibbs.py:367-478).

    Simplifications: those of M_crt.v; the concentrations are a vector (M_crt.v has the scalar);
    an error that Aesara raises while the graph is evaluated is the outcome [None]. *)
From Verif Require Export M_crt.

(** [h / (n_i - 1 + h)] (gibbs.py:389): two vectors are combined element by element if they
    have the same length or one of them has length one, as in numpy; otherwise an error.  (Where
    Aesara refuses to stretch a dimension it did not know to be one when the graph was built, the
    case [[n]] is an error as well.) *)
Definition crt_probs (hs : list R) (ns : list nat) : option (list R) :=
  let f h n := h / (INR n - 1 + h) in
  if Nat.eqb (length hs) (length ns) then Some (map (fun p => f (fst p) (snd p)) (combine hs ns))
  else match hs, ns with
       | [h], _ => Some (map (f h) ns)
       | _, [n] => Some (map (fun h => f h n) hs)
       | _, _ => None
       end.

(** [srng.bernoulli(...).sum()] (gibbs.py:389) *)
Fixpoint bern_list (ps : list R) : fdist nat :=
  match ps with
  | [] => dret 0%nat
  | p :: ps' => dbind (dbern p) (fun b => dbind (bern_list ps') (fun s => dret (b + s)%nat))
  end.

(** single_sample_CRT (gibbs.py:387-389): [at.switch] evaluates both branches *)
Definition single_sample_CRT_v (y_i : Z) (hs : list R) : fdist nat :=
  match crt_probs hs (arange2 y_i) with
  | None => dfail
  | Some ps => dbind (bern_list ps) (fun s => dret (if (y_i <? 1)%Z then 0 else 1 + s)%nat)
  end.

(** the [scan] over [y.ravel()], with [h] a non-sequence: every entry gets the whole of [h]
    (gibbs.py:391-396) *)
Fixpoint scan_CRT_v (ys : list Z) (hs : list R) : fdist (list nat) :=
  match ys with
  | [] => dret []
  | y :: ys' =>
      dbind (single_sample_CRT_v y hs) (fun l =>
      dbind (scan_CRT_v ys' hs) (fun ls => dret (l :: ls)))
  end.

(** ** Shapes *)
(** one dimension of two broadcast arrays (the operations of gibbs.py:472-476) *)
Definition bc_dim (a b : nat) : option nat :=
  if Nat.eqb a b then Some a else if Nat.eqb a 1 then Some b else if Nat.eqb b 1 then Some a else None.

(* shapes, last dimension first (gibbs.py:472-476) *)
Fixpoint bc_rev (s t : list nat) : option (list nat) :=
  match s, t with
  | [], _ => Some t
  | _, [] => Some s
  | a :: s', b :: t' =>
      match bc_dim a b, bc_rev s' t' with Some d, Some r => Some (d :: r) | _, _ => None end
  end.

(** the shape of an elementwise operation or of a random variable with [size=None]
    (gibbs.py:472-476) *)
Definition bc_shape (s t : list nat) : option (list nat) := option_map (@rev nat) (bc_rev (rev s) (rev t)).

(** [x.sum(axis=-1)] (gibbs.py:473, 475): an error for a scalar *)
Definition sum_last_shape (s : list nat) : option (list nat) :=
  match rev s with [] => None | _ :: r => Some (rev r) end.

(* composing shapes that may be errors (gibbs.py:472-476) *)
Definition obind {A B} (x : option A) (f : A -> option B) : option B :=
  match x with Some a => f a | None => None end.

(** the shape of [h_posterior] (gibbs.py:472-476) *)
Definition dispersion_shape (sh_a sh_b sh_p sh_y : list nat) : option (list nat) :=
  obind (sum_last_shape sh_y) (fun l_sum =>
  obind (sum_last_shape sh_p) (fun p_sum =>
  obind (bc_shape sh_a l_sum) (fun shape =>
  obind (bc_shape sh_b p_sum) (fun rate => bc_shape shape rate)))).
