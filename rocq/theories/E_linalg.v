(** An environment that meets the assumptions on ranks, constants, arithmetic and linear
    algebra of S_code and S_linalg. *)
From Coq Require Import Reals Lra ssrfun ssrbool.
From mathcomp Require Import eqtype choice fintype ssralg zmodp matrix.
From Verif Require M_gauss S_gauss L_gauss L_linalg_mx P_regression.
From Verif Require Import L_linalg L_array L_code_value L_horseshoe_graph L_regression_step E_code.
Import L_linalg_mx.
Global Open Scope nat_scope.

Definition unmat n p (x : tensor R) : 'M[R]_(n, p) := (\matrix_(i, j) entries x (i * p + j)%nat)%Rg.
Definition nat_of (a : R) : nat := Z.to_nat (Int_part a).
Definition the_chol : forall n, 'M[R]_n -> 'M[R]_n := @L_gauss.chol R_realFieldType R_sqrt.sqrt.

Definition la_fun1 (k : nat) (x : tensor R) : option (tensor R) :=
  if decide (k = F_sum) then Some (number (foldr Rplus 0%R (t_data x)))
  else if decide (k = F_rows) then match t_shape x with d :: _ => Some (number (INR d)) | [] => None end
  else if decide (k = F_vector1) then match x with Tensor [] [a] => Some (Tensor [1] [a]) | _ => None end
  else if decide (k = F_cols) then match t_shape x with [_; p] => Some (number (INR p)) | _ => None end
  else if decide (k = F_arange) then match x with Tensor [] [a] => Some (mkt [nat_of a] INR) | _ => None end
  else if decide (k = F_diag) then match t_shape x with [n; _] => Some (varr (\col_i unmat n n x i i)%Rg) | _ => None end
  else if decide (k = F_cholesky) then match t_shape x with [n; _] => Some (marr (the_chol n (unmat n n x))) | _ => None end
  else if decide (k = F_ravel) then Some (Tensor [size_of (t_shape x)] (t_data x))
  else None.
Definition la_fun2 (k : nat) (x y : tensor R) : option (tensor R) :=
  if decide (k = F_solve_lower) then match t_shape x with [n; _] => Some (varr (invmx (M_gauss.lower_part (unmat n n x)) *m unvec n y)%Rg) | _ => None end
  else if decide (k = F_solve_upper) then match t_shape x with [n; _] => Some (varr (invmx (M_gauss.upper_part (unmat n n x)) *m unvec n y)%Rg) | _ => None end
  else if decide (k = F_solve) then match t_shape x with [n; _] => Some (varr (invmx (unmat n n x) *m unvec n y)%Rg) | _ => None end
  else if decide (k = F_take) then match t_shape x, y with [_], Tensor [] [a] => Some (mkt [nat_of a] (entries x)) | _, _ => None end
  else if decide (k = F_drop) then match t_shape x, y with [m], Tensor [] [a] => Some (mkt [m - nat_of a] (fun j => entries x (nat_of a + j))) | _, _ => None end
  else if decide (k = F_reshape) then Some (Tensor (t_shape y) (t_data x))
  else None.
Definition la_fun3 (k : nat) (x y z : tensor R) : option (tensor R) :=
  if decide (k = F_set_diag) then match t_shape x with [n; _] => Some (marr (\matrix_(i, j) if i == j then unvec n z i 0 else unmat n n x i j)%Rg) | _ => None end
  else if decide (k = F_ifelse) then
    if decide (t_shape y = t_shape z) then match x with Tensor [] [a] => Some (if Rlt_dec 0 a then y else z) | _ => None end else None
  else None.
Definition le_other (o : op) (xs : list (tensor R)) : option (list (tensor R)) :=
  if decide (o = OOther K_dot) then
    match xs with
    | [x; y] => match t_shape x, t_shape y with
                | [n; m], [_; p] => Some [marr (unmat n m x *m unmat m p y)%Rg]
                | [n; m], [_] => Some [varr (unmat n m x *m unvec m y)%Rg]
                | _, _ => None
                end
    | _ => None
    end
  else match o with
       | OOther j =>
           let k := j / 8 in
           if decide (o = fun_op k) then
             match xs with
             | [x] => (fun z => [z]) <$> la_fun1 k x
             | [x; y] => (fun z => [z]) <$> la_fun2 k x y
             | [x; y; w] => (fun z => [z]) <$> la_fun3 k x y w
             | _ => None
             end
           else None
       | _ => None
       end.
Lemma fun_op_div k : (8 * k + K_fun) / 8 = k.
Proof. rewrite Nat.mul_comm, Nat.div_add_l by done. unfold K_fun. cbn. lia. Qed.
Lemma fun_op_dot k : fun_op k <> OOther K_dot.
Proof. unfold fun_op, K_fun, K_dot. intros [=]. lia. Qed.
Lemma le_fun k xs : le_other (fun_op k) xs =
  match xs with
  | [x] => (fun z => [z]) <$> la_fun1 k x | [x; y] => (fun z => [z]) <$> la_fun2 k x y
  | [x; y; w] => (fun z => [z]) <$> la_fun3 k x y w | _ => None
  end.
Proof.
  unfold le_other. destruct (decide (fun_op k = OOther K_dot)) as [H|_]; [by apply fun_op_dot in H|]. cbn [fun_op].
  unfold fun_op. rewrite fun_op_div. rewrite decide_True by done. done.
Qed.
Lemma le_dot xs : le_other (OOther K_dot) xs =
  match xs with
  | [x; y] => match t_shape x, t_shape y with
              | [n; m], [_; p] => Some [marr (unmat n m x *m unmat m p y)%Rg]
              | [n; m], [_] => Some [varr (unmat n m x *m unvec m y)%Rg]
              | _, _ => None
              end
  | _ => None
  end.
Proof. unfold le_other. by rewrite decide_True. Qed.

Lemma varr_entries n (v : 'cV[R]_n) (i : 'I_n) : entries (varr v) i = v i 0%Rg.
Proof. unfold varr. rewrite entries_mkt; [|rewrite size1; apply ord_lt]. apply at_ord_val. Qed.
Lemma marr_entries n p (A : 'M[R]_(n, p)) (i : 'I_n) (j : 'I_p) : entries (marr A) (i * p + j) = A i j.
Proof.
  change (marr A) with (mkt [n; p] (mf A)). rewrite entries_mkt; [apply mf_at|]. rewrite size2.
  pose proof (ord_lt n i). pose proof (ord_lt p j). nia.
Qed.
Lemma unmat_marr n p (A : 'M[R]_(n, p)) : unmat n p (marr A) = A.
Proof.
  apply mat_ext. intros i j. unfold unmat. rewrite mat_at. apply marr_entries.
Qed.
Lemma nat_of_INR n : nat_of (INR n) = n.
Proof. unfold nat_of. rewrite Int_part_INR. apply Nat2Z.id. Qed.

Local Opaque nat_of unmat unvec the_chol invmx mulmx.
Lemma le_linalg : linalg_ok the_chol le_other.
Proof.
  constructor.
  - intros n m p A C. rewrite le_dot. cbn [marr t_shape mkt]. by rewrite !unmat_marr.
  - intros n m A x. rewrite le_dot. cbn [marr varr t_shape mkt]. by rewrite unmat_marr, unvec_varr.
  - intros n p A. rewrite le_fun. reflexivity.
  - intros n. rewrite le_fun. change (la_fun1 F_arange (number (INR n))) with (Some (mkt [nat_of (INR n)] INR)). by rewrite nat_of_INR.
  - intros n A. rewrite le_fun. change (la_fun1 F_diag (marr A)) with (Some (varr (\col_i unmat n n (marr A) i i)%Rg)). by rewrite unmat_marr.
  - intros n A d. rewrite le_fun.
    change (la_fun3 F_set_diag (marr A) (mkt [n] INR) (varr d)) with (Some (marr (\matrix_(i, j) if i == j then unvec n (varr d) i 0 else unmat n n (marr A) i j)%Rg)). by rewrite unmat_marr, unvec_varr.
  - intros n Q HQ. split; [apply P_regression.chol_ok, HQ|]. rewrite le_fun. change (la_fun1 F_cholesky (marr Q)) with (Some (marr (the_chol n (unmat n n (marr Q))))). by rewrite unmat_marr.
  - intros n A x U. rewrite le_fun.
    match goal with |- context [la_fun2 _ _ (varr ?v)] => change (la_fun2 F_solve_lower (marr A) (varr v)) with (Some (varr (invmx (M_gauss.lower_part (unmat n n (marr A))) *m unvec n (varr v))%Rg)) end.
    rewrite unmat_marr, unvec_varr. by rewrite mul_solve.
  - intros n A x U. rewrite le_fun.
    match goal with |- context [la_fun2 _ _ (varr ?v)] => change (la_fun2 F_solve_upper (marr A) (varr v)) with (Some (varr (invmx (M_gauss.upper_part (unmat n n (marr A))) *m unvec n (varr v))%Rg)) end.
    rewrite unmat_marr, unvec_varr. by rewrite mul_solve.
  - intros n A x S. rewrite le_fun.
    match goal with |- context [la_fun2 _ _ (varr ?v)] => change (la_fun2 F_solve (marr A) (varr v)) with (Some (varr (invmx (unmat n n (marr A)) *m unvec n (varr v))%Rg)) end.
    rewrite unmat_marr, unvec_varr. by rewrite spd_mul_solve.
  - intros p n z. rewrite le_fun. change (la_fun2 F_take (varr z) (number (INR p))) with (Some (mkt [nat_of (INR p)] (entries (varr z)))).
    rewrite nat_of_INR. cbn [fmap option_fmap option_map]. do 2 f_equal. apply varr_mkt. intros i. rewrite usub_at. exact (varr_entries _ z (lshift n i)).
  - intros p n z. rewrite le_fun.
    change (la_fun2 F_drop (varr z) (number (INR p))) with (Some (mkt [p + n - nat_of (INR p)] (fun j => entries (varr z) (nat_of (INR p) + j)))).
    rewrite nat_of_INR. cbn [fmap option_fmap option_map]. replace (p + n - p) with n by lia. do 2 f_equal. apply varr_mkt. intros i. rewrite dsub_at. exact (varr_entries _ z (rshift p i)).
  - intros c x y Hs. rewrite le_fun. unfold la_fun3. rewrite decide_False by done. rewrite decide_True by done. rewrite decide_True by done. destruct c.
    + unfold number. cbv beta iota. destruct (Rlt_dec 0 _) as [?|Hn]; [done|]. exfalso. apply Hn, Rlt_0_1.
    + unfold number. cbv beta iota. destruct (Rlt_dec 0 _) as [Hn|?]; [|done]. exfalso. by apply Rlt_irrefl in Hn.
Qed.

Definition le_rank (h : heap) (k : nat) (vs : list vid) : nat :=
  if decide (k ∈ [F_sum; F_rows; F_cols]) then 0
  else if decide (k ∈ [F_vector1; F_arange; F_diag; F_solve_lower; F_solve_upper; F_solve; F_take; F_drop; F_ravel]) then 1
  else if decide (k ∈ [F_cholesky; F_set_diag]) then 2
  else match vs with _ :: v :: _ => ty_tag (ty_def h v) | _ => 0 end.
Definition le_draw (h : heap) (o : op) (vs : list vid) : vtype :=
  match o with OOther j => ge_ty (if decide (j mod 8 = K_scan) then 1 else le_rank h (j / 8) vs) | _ => ge_draw h o vs end.
Definition le_B : builder := Builder (Typing ty_tag (fun ty => replicate (ty_tag ty) None)
    (fun c => match c with 2 => NList [NScalar (-1)] | _ => NScalar 0 end))
  (fun _ tys => ge_ty (foldr Nat.max 0 (ty_tag <$> tys))) (fun o _ => ge_ty (length o))
  (fun s t => ge_ty (ty_tag s + ty_tag t - 2)) (VType true 20) le_draw
  (fun z => (3 + encode_nat z, ge_ty 0)) (fun z => (3 + encode_nat z, ge_ty 0)) (0, ge_ty 0) (1, ge_ty 1) (2, ge_ty 0).
Lemma le_builder : builder_ok le_B.
Proof. constructor; done. Qed.
Lemma le_constants : constants_ok le_B ge_cval.
Proof. constructor; try done; intros z; cbn; by rewrite decode_encode_nat. Qed.
Lemma le_sums : sums_ok le_other.
Proof.
  constructor.
  - intros x. by rewrite le_fun.
  - intros x d s Hs. rewrite le_fun.
    change (la_fun1 F_rows x) with (match t_shape x with d :: _ => Some (number (INR d)) | [] => None end). by rewrite Hs.
  - intros a. by rewrite le_fun.
Qed.
Lemma le_ranks : ranks_ok le_B le_other.
Proof.
  constructor.
  - done.
  - intros s t x y z Hs Ht Hz. rewrite le_dot in Hz. unfold rank in Hs, Ht. cbn in Hs, Ht. change (a_ndim le_B (b_dot le_B s t)) with (ty_tag s + ty_tag t - 2).
    destruct (t_shape x) as [|n [|m [|]]]; try done. destruct (t_shape y) as [|m' [|p [|]]]; try done; injection Hz as <-; cbn in Hs, Ht |- *; lia.
  - intros h k vs xs z Hv Hz. rewrite le_fun in Hz.
    assert (Hb : a_ndim le_B (b_draw le_B h (fun_op k) vs) = le_rank h k vs).
    { unfold fun_op. cbn [b_draw le_B le_draw]. rewrite fun_op_div. rewrite decide_False; [done|]. rewrite Nat.add_comm, Nat.mul_comm, Nat.mod_add by done. done. }
    rewrite Hb. clear Hb. destruct xs as [|x [|y [|w [|]]]]; try done.
    + unfold la_fun1 in Hz.
      destruct (decide (k = F_sum)) as [->|_]; [by injection Hz as <-|].
      destruct (decide (k = F_rows)) as [->|_]; [destruct (t_shape x); [done|by injection Hz as <-]|].
      destruct (decide (k = F_vector1)) as [->|_]; [destruct x as [[|] [|? [|]]]; try done; by injection Hz as <-|].
      destruct (decide (k = F_cols)) as [->|_]; [destruct (t_shape x) as [|? [|? [|]]]; try done; by injection Hz as <-|].
      destruct (decide (k = F_arange)) as [->|_]; [destruct x as [[|] [|? [|]]]; try done; by injection Hz as <-|].
      destruct (decide (k = F_diag)) as [->|_]; [destruct (t_shape x) as [|? [|? [|]]]; try done; by injection Hz as <-|].
      destruct (decide (k = F_cholesky)) as [->|_]; [destruct (t_shape x) as [|? [|? [|]]]; try done; by injection Hz as <-|].
      destruct (decide (k = F_ravel)) as [->|_]; [by injection Hz as <-|]. done.
    + unfold la_fun2 in Hz.
      destruct (decide (k = F_solve_lower)) as [->|_]; [destruct (t_shape x) as [|? [|? [|]]]; try done; by injection Hz as <-|].
      destruct (decide (k = F_solve_upper)) as [->|_]; [destruct (t_shape x) as [|? [|? [|]]]; try done; by injection Hz as <-|].
      destruct (decide (k = F_solve)) as [->|_]; [destruct (t_shape x) as [|? [|? [|]]]; try done; by injection Hz as <-|].
      destruct (decide (k = F_take)) as [->|_]; [destruct (t_shape x) as [|? [|]]; try done; destruct y as [[|] [|? [|]]]; try done; by injection Hz as <-|].
      destruct (decide (k = F_drop)) as [->|_]; [destruct (t_shape x) as [|? [|]]; try done; destruct y as [[|] [|? [|]]]; try done; by injection Hz as <-|].
      destruct (decide (k = F_reshape)) as [->|_]; [|done]. injection Hz as <-. destruct vs as [|v0 [|v1 [|]]]; try done. injection Hv as _ Hy.
      change (le_rank h F_reshape [v0; v1]) with (ty_tag (ty_def h v1)). change (declared le_B h v1) with (ty_tag (ty_def h v1)) in Hy. exact Hy.
    + unfold la_fun3 in Hz.
      destruct (decide (k = F_set_diag)) as [->|_]; [destruct (t_shape x) as [|? [|? [|]]]; try done; by injection Hz as <-|].
      destruct (decide (k = F_ifelse)) as [->|_]; [|done]. destruct (decide (t_shape y = t_shape w)) as [Hyw|_]; [|done].
      destruct x as [[|] [|a [|]]]; try done. destruct vs as [|v0 [|v1 [|v2 [|]]]]; try done. injection Hv as _ Hy Hw.
      change (le_rank h F_ifelse [v0; v1; v2]) with (ty_tag (ty_def h v1)). change (declared le_B h v1) with (ty_tag (ty_def h v1)) in Hy.
      cbn in Hz. rewrite Hy. destruct (Rlt_dec 0 a); injection Hz as <-; [done|]. unfold rank. by rewrite Hyw.
  - intros h d size dtype ps (nm & ty & Hc). cbn. unfold owner. rewrite Hc. cbn. done.
  - intros h d size n dtype ps (m & k & nd & Ho & _). cbn. rewrite Ho. done.
Qed.
