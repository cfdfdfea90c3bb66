(** Model of the numerical half of /repo/aemcmc/nuts.py: the change of variables
    (transform_forward, transform_backward, nuts.py:186-203), and the flattening of the
    parameters around the kernel (nuts.py:108-118, 123, 135).  The transforms are AePPL's
    (aeppl.transforms), RaveledParamsMap is AeHMC's (aehmc.utils). *)
From Verif Require Export S_match.
From Coq Require Export Reals.

(** An element of an array: a number, or [None] for anything else (NaN or infinite). *)
Notation num := (option R).
(* numpy behind the calls in nuts.py:189, 200 *)
Definition nlift (f : R -> R) (x : num) : num := f <$> x.
(* same *)
Definition nlift2 (f : R -> R -> R) (x y : num) : num := a ← x; b ← y; Some (f a b).
(* log in aeppl.transforms, behind nuts.py:189 *)
Definition nlog (x : num) : num := a ← x; if Rlt_dec 0 a then Some (ln a) else None.
(* division in aeppl.transforms, behind nuts.py:189, 200 *)
Definition ndiv (x y : num) : num := a ← x; b ← y; if Req_EM_T b 0 then None else Some (a / b)%R.
(* exp, behind nuts.py:200 *)
Definition nexp : num -> num := nlift exp.
(* addition, behind nuts.py:189, 200 *)
Definition nadd : num -> num -> num := nlift2 Rplus.
(* subtraction, behind nuts.py:189, 200 *)
Definition nsub : num -> num -> num := nlift2 Rminus.
(* multiplication, behind nuts.py:200 *)
Definition nmul : num -> num -> num := nlift2 Rmult.
(* sum, behind nuts.py:189, 200 *)
Definition nsum (l : list num) : num := foldr nadd (Some 0%R) l.
(* max, behind nuts.py:200 *)
Definition nmax (l : list num) : num :=
  match l with [] => None | x :: l' => foldr (nlift2 Rmax) x l' end.
(** [at.sigmoid(x)] *)
(* behind nuts.py:200 *)
Definition nsigmoid (x : num) : num := nlift (fun a => / (1 + exp (- a)))%R x.
(** [at.arctan2(at.sin(x), at.cos(x))]: the angle [x] brought into (-pi, pi] *)
(* CircularTransform.backward, behind nuts.py:200 *)
Definition wrap (x : R) : R := (x - 2 * PI * IZR (- Int_part (- ((x - PI) / (2 * PI)))))%R.

(** The transforms.  [KInterval], [KLower] and [KUpper] are IntervalTransform with both
    bounds, a lower and an upper one. *)
(* nuts.py:177-183 *)
Inductive tkind := KLog | KLogOdds | KInterval | KLower | KUpper | KSimplex | KCircular.

(** RVTransform.forward and RVTransform.backward on one element, for the elementwise
    transforms; the arguments are the value and the bounds *)
(* called in nuts.py:189 *)
Definition fwd_elem (k : tkind) (xs : list num) : option num :=
  match k, xs with
  | KLog, [x] => Some (nlog x)
  | KLogOdds, [x] => Some (nlog (ndiv x (nsub (Some 1%R) x)))
  | KInterval, [x; a; b] => Some (nsub (nlog (nsub x a)) (nlog (nsub b x)))
  | KLower, [x; a] => Some (nlog (nsub x a))
  | KUpper, [x; b] => Some (nlog (nsub b x))
  | KCircular, [x] => Some x
  | _, _ => None
  end.
(* called in nuts.py:200 *)
Definition bwd_elem (k : tkind) (xs : list num) : option num :=
  match k, xs with
  | KLog, [y] => Some (nexp y)
  | KLogOdds, [y] => Some (nsigmoid y)
  | KInterval, [y; a; b] => Some (nadd (nmul (nsigmoid y) b) (nmul (nsub (Some 1%R) (nsigmoid y)) a))
  | KLower, [y; a] => Some (nadd (nexp y) a)
  | KUpper, [y; b] => Some (nsub b (nexp y))
  | KCircular, [y] => Some (nlift wrap y)
  | _, _ => None
  end.

(** SimplexTransform, on one vector.  forward:
    [log_value = log(value); shift = sum(log_value, -1) / N; log_value[..., :-1] - shift];
    backward: [value = concatenate([value, -sum(value, -1)]); e = exp(value - max(value, -1));
    e / sum(e, -1)] *)
(* called in nuts.py:189 *)
Definition fwd_row (x : list num) : list num :=
  let l := nlog <$> x in
  let shift := ndiv (nsum l) (Some (INR (length x))) in
  take (length x - 1) ((fun v => nsub v shift) <$> l).
(* called in nuts.py:200 *)
Definition bwd_row (y : list num) : list num :=
  let z := y ++ [nlift Ropp (nsum y)] in
  let e := (fun v => nexp (nsub v (nmax z))) <$> z in
  (fun v => ndiv v (nsum e)) <$> e.

(** ... on the last axis of an array.  (Simplification: scalars, and arrays without an
    element in the last axis, are errors.) *)
(* nuts.py:189, 200 *)
Definition on_rows (f : list num -> list num) (resize : nat -> nat) (x : tensor num) : option (tensor num) :=
  match reverse (t_shape x) with
  | n :: rs =>
      let s := reverse rs in
      Some (Tensor (s ++ [resize n]) (mjoin (f <$> reshape (replicate (size_of s) n) (t_data x))))
  | [] => None
  end.
(* nuts.py:189 *)
Definition fwd_simplex (x : tensor num) : option (tensor num) :=
  match last (t_shape x) with Some (S _) => on_rows fwd_row (fun n => n - 1) x | _ => None end.
(* nuts.py:200 *)
Definition bwd_simplex (y : tensor num) : option (tensor num) := on_rows bwd_row S y.

(** [transform.forward(vv, *args)] and [transform.backward(vv, *args)] (nuts.py:189, 200) *)
Definition forward (k : tkind) (xs : list (tensor num)) : option (tensor num) :=
  match k, xs with
  | KSimplex, [x] => fwd_simplex x
  | KSimplex, _ => None
  | _, _ => numpy_elemwise (fwd_elem k) xs
  end.
Definition backward (k : tkind) (ys : list (tensor num)) : option (tensor num) :=
  match k, ys with
  | KSimplex, [y] => bwd_simplex y
  | KSimplex, _ => None
  | _, _ => numpy_elemwise (bwd_elem k) ys
  end.

(** RaveledParamsMap.ravel_params (nuts.py:123): the concatenation of the flattened values *)
Definition ravel_params (xs : list (tensor num)) : tensor num :=
  let d := mjoin (t_data <$> xs) in Tensor [length d] d.

(** RaveledParamsMap.unravel_params (nuts.py:114, 135), component [i]: a slice of the flat
    vector [q] with the shape of reference [i]; the offsets are the sizes of the earlier
    references.  A slice of another length cannot be reshaped. *)
Definition unravel_param (i : nat) (q : tensor num) (refs : list (tensor num)) : option (tensor num) :=
  x ← refs !! i;
  let size := size_of (t_shape x) in
  let off := foldr Nat.add 0 ((fun r => size_of (t_shape r)) <$> take i refs) in
  let d := take size (drop off (t_data q)) in
  if decide (length d = size) then Some (Tensor (t_shape x) d) else None.
