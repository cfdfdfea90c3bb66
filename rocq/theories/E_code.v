(** An environment that meets the assumptions on ranks, constants and arithmetic of S_code. *)
From Coq Require Import Lra.
From Verif Require Import S_code E_basic.
Global Open Scope nat_scope.

Definition ge_ty (k : nat) : vtype := VType false k.
Definition ge_draw (h : heap) (o : op) (vs : list vid) : vtype :=
  match o with
  | ORV _ =>
      match vs with
      | size :: _ :: ps => match owner h size with
                           | Some _ => ge_ty 1
                           | None => ge_ty (foldr Nat.max 0 ((fun v => ty_tag (ty_def h v)) <$> ps))
                           end
      | _ => ge_ty 0
      end
  | _ => if decide (o = fun_op F_vector1) then ge_ty 1 else ge_ty 0
  end.
Definition ge_B : builder := Builder (Typing ty_tag (fun ty => replicate (ty_tag ty) None) (fun _ => NScalar 0))
  (fun _ tys => ge_ty (foldr Nat.max 0 (ty_tag <$> tys))) (fun o _ => ge_ty (length o)) (fun _ _ => ge_ty 1) (VType true 20)
  ge_draw
  (fun z => (3 + encode_nat z, ge_ty 0)) (fun z => (3 + encode_nat z, ge_ty 0)) (0, ge_ty 0) (1, ge_ty 1) (2, ge_ty 0).
Definition ge_cval (c : nat) : tensor R :=
  match c with
  | 0 => Tensor [] [(/ 2)%R]
  | 1 => size_vector []
  | 2 => Tensor [] [0%R]
  | S (S (S n)) => Tensor [] [IZR (default 0%Z (decode_nat n))]
  end.
Definition ge_scalar (s : nat) (xs : list R) : option R :=
  match s, xs with
  | 3, [a] => Some (/ (1 + exp (- a)))%R | 6, [a] => Some (- a)%R | 7, [a] => Some (ln a)
  | 0, [a; b] => Some (a + b)%R | 1, [a; b] => Some (a * b)%R | 2, [a; b] => Some (a - b)%R | 4, [a; b] => Some (a / b)%R
  | 5, [a; b] => if Req_EM_T b 2 then Some (a * a)%R else None
  | 8, [a] => Some (/ a)%R | 9, [a] => Some (R_sqrt.sqrt a)
  | 10, [a; b] => Some (if Rlt_dec b a then 1 else 0)%R
  | _, _ => None
  end.
Definition ge_other (o : op) (xs : list (tensor R)) : option (list (tensor R)) :=
  match xs with
  | [x] =>
      if decide (o = fun_op F_sum) then Some [number (foldr Rplus 0%R (t_data x))]
      else if decide (o = fun_op F_rows) then match t_shape x with d :: _ => Some [number (INR d)] | [] => None end
      else if decide (o = fun_op F_vector1) then match x with Tensor [] [a] => Some [Tensor [1] [a]] | _ => None end
      else None
  | _ => None
  end.
Lemma ge_builder : builder_ok ge_B.
Proof. constructor; done. Qed.
Lemma ge_ranks : ranks_ok ge_B ge_other.
Proof.
  constructor.
  - done.
  - done.
  - intros h k vs xs z _ Hz. unfold ge_other in Hz. destruct xs as [|x [|]]; try discriminate Hz.
    change (b_draw ge_B h (fun_op k) vs) with (if decide (fun_op k = fun_op F_vector1) then ge_ty 1 else ge_ty 0).
    destruct (decide (fun_op k = fun_op F_sum)) as [->|_]; [by injection Hz as <-|].
    destruct (decide (fun_op k = fun_op F_rows)) as [->|_]; [destruct (t_shape x); [discriminate Hz|by injection Hz as <-]|].
    destruct (decide (fun_op k = fun_op F_vector1)) as [_|_]; [|discriminate Hz].
    destruct x as [[|] [|? [|]]]; try discriminate Hz. by injection Hz as <-.
  - intros h d size dtype ps (nm & ty & Hc). cbn. unfold owner. rewrite Hc. cbn. done.
  - intros h d size n dtype ps (m & k & nd & Ho & _). cbn. rewrite Ho. done.
Qed.
Lemma ge_constants : constants_ok ge_B ge_cval.
Proof. constructor; try done; intros z; cbn; by rewrite decode_encode_nat. Qed.
Lemma ge_arithmetic : arithmetic_ok ge_scalar.
Proof. constructor; try done. intros a. cbn. by destruct (Req_EM_T 2 2). Qed.
Lemma ge_sums : sums_ok ge_other.
Proof. constructor; try done. intros x d s Hs. cbn. by rewrite Hs. Qed.
