(** Specification: the Chinese restaurant table distribution. *)
From Verif Require Export M_crt S_density.

(** unsigned Stirling numbers of the first kind *)
Fixpoint stirling (n k : nat) : nat :=
  match n, k with
  | O, O => 1
  | O, S _ => 0
  | S n', O => 0
  | S n', S k' => stirling n' k' + n' * stirling n' k
  end.

(** probability of [l] tables for [y] customers and concentration [h];
    [rising_fact h y] is h (h+1) ... (h+y-1) *)
Definition crt_pmf (y : nat) (h : R) (l : nat) : R := INR (stirling y l) * h ^ l / rising_fact h y.

Definition is_nat (l : nat) (o : option nat) : bool :=
  match o with Some l' => Nat.eqb l l' | None => false end.

(** is the outcome the array [a]? *)
Definition is_arr (a : arr nat) (o : option (arr nat)) : bool :=
  match o with
  | Some b => if list_eq_dec Nat.eq_dec (a_shape a) (a_shape b)
              then if list_eq_dec Nat.eq_dec (a_data a) (a_data b) then true else false
              else false
  | None => false
  end.

Definition is_fail {A} (o : option A) : bool := match o with None => true | Some _ => false end.

Definition lprod (l : list R) : R := fold_right Rmult 1 l.
