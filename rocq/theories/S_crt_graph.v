(** Specification for C69: what the operators of the graph that sample_CRT builds compute, and a
    vector of independent Bernoulli draws. *)
From Verif Require Export M_crt.
From Verif Require Export M_crt_graph.
Global Open Scope nat_scope.

(** an integer, a number, integers from arange, numbers, the bits drawn, a count, a truth value, the
    array y and its elements, counts, and the array of counts *)
Inductive crtval :=
  | CInt (z : Z)
  | CReal (x : R)
  | CRange (ns : list nat)
  | CReals (xs : list R)
  | CBits (bs : list nat)
  | CCount (n : nat)
  | CBool (b : bool)
  | CArr (y : M_crt.arr Z)
  | CList (ys : list Z)
  | CCounts (l : list nat)
  | CTables (t : M_crt.arr nat).

Definition crt_fun (k : nat) (xs : list crtval) : option crtval :=
  match xs with
  | [CArr y] => if decide (k = F_ravel) then Some (CList (M_crt.a_data y)) else None
  | [CInt a; CInt b] => if decide (k = F_range) then Some (CRange (seq (Z.to_nat a) (Z.to_nat (b - a)))) else None
  | [CBits bs] => if decide (k = F_sum) then Some (CCount (list_sum bs)) else None
  | [CBool c; CInt z; CCount n] => if decide (k = F_switch) then Some (CCount (if c then Z.to_nat z else n)) else None
  | [CCounts l; CArr y] => if decide (k = F_reshape) then Some (CTables (M_crt.Arr (M_crt.a_shape y) l)) else None
  | _ => None
  end.
Definition crt_elem (s : nat) (xs : list crtval) : option crtval :=
  match xs with
  | [CInt a; CInt b] =>
      if decide (s = E_add) then Some (CInt (a + b))
      else if decide (s = E_lt) then Some (CBool (a <? b)%Z) else None
  | [CRange ns; CInt z] => if decide (s = E_sub) then Some (CReals (map (fun n => INR n - IZR z)%R ns)) else None
  | [CReals xs; CReal h] => if decide (s = E_add) then Some (CReals (map (fun x => x + h)%R xs)) else None
  | [CReal h; CReals xs] => if decide (s = E_truediv) then Some (CReals (map (fun x => h / x)%R xs)) else None
  | [CInt z; CCount n] => if decide (s = E_add) then Some (CCount (Z.to_nat z + n)) else None
  | _ => None
  end.
Definition crt_base (o : op) (xs : list crtval) : option (list crtval) :=
  match o with
  | OElem s => (fun x => [x]) <$> crt_elem s xs
  | ODimShuffle _ => match xs with [x] => Some [x] | _ => None end
  | OOther c => if decide (c mod 8 = K_fun) then (fun x => [x]) <$> crt_fun (c / 8) xs else None
  | _ => None
  end.

(** independent Bernoulli draws *)
Fixpoint dberns (ps : list R) : fdist (list nat) :=
  match ps with
  | [] => dret []
  | p :: ps' => dbind (dbern p) (fun b => dbind (dberns ps') (fun bs => dret (b :: bs)))
  end.
