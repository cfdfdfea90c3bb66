(** The inner graphs of the Gibbs kernels of /repo/aemcmc/gibbs.py, as the sequences of calls
    with which the Python functions build them. *)
From Verif Require Export M_build.

(** Functions that are neither Elemwise nor draws *)
(* codes for the functions called in gibbs.py:44-50, 125-131, 241-257, 367-400, 403-478 and dists.py:52-58, 136-153 *)
Definition F_ravel := 0.
Definition F_reshape := 1.
Definition F_sum := 2.
Definition F_rows := 3.          (* x.shape[0] *)
Definition F_cols := 4.          (* x.shape[1] *)
Definition F_arange := 5.
Definition F_diag := 6.          (* at.diag *)
Definition F_set_diag := 7.      (* set_subtensor(Q[indices, indices], d): Q, indices, d *)
Definition F_cholesky := 8.
Definition F_solve_lower := 9.   (* solve_triangular(L, b, lower=True) *)
Definition F_solve_upper := 10.  (* solve_triangular(L, b, lower=False) *)
Definition F_solve := 11.        (* solve(A, b, assume_a="pos") *)
Definition F_take := 12.         (* z[:k] *)
Definition F_drop := 13.         (* z[k:] *)
Definition F_ifelse := 14.
Definition F_vector1 := 15.      (* a scalar as a vector of length 1: a size *)

(** Expressions; [EV i] is the [i]-th variable in scope *)
(* the expressions in gibbs.py:44-50, 125-131, 241-257, 541-548, 724-731 and dists.py:52-58, 136-153 *)
Inductive expr :=
  | EV (i : nat)
  | EInt (z : Z)
  | EFloat (z : Z)
  | EHalf
  | E1 (s : nat) (a : expr)                       (* Elemwise *)
  | E2 (s : nat) (a b : expr)
  | EShuffle (order : list (option nat)) (a : expr)  (* x.T, x[:, None] *)
  | EDot (a b : expr)                             (* a @ b *)
  | F1 (k : nat) (a : expr)
  | F2 (k : nat) (a b : expr)
  | F3 (k : nat) (a b c : expr).

(** Statements: each brings one variable into scope *)
(* the assignments in the same lines *)
Inductive cmd :=
  | CLet (e : expr)                               (* x = e *)
  | CDraw (d : nat) (size : option expr) (params : list expr).   (* x = srng.d(..., size=...) *)

(** the nodes that the evaluation of an expression makes; arguments from left to right.
    ([EV i] refers to a variable in scope in all programs below: [scoped].) *)
(* evaluation of these expressions, which makes graph nodes: gibbs.py:44-50, 125-131, 241-257, 541-548, 724-731; dists.py:52-58, 136-153 *)
Fixpoint mk_expr (B : builder) (env : list vid) (h : heap) (e : expr) : heap * vid :=
  match e with
  | EV i => (h, default 0 (env !! i))
  | EInt z => mk_const h (b_int B z)
  | EFloat z => mk_const h (b_float B z)
  | EHalf => mk_const h (b_half B)
  | E1 s a => let '(h1, x) := mk_expr B env h a in mk_elem B h1 s [x]
  | E2 s a b =>
      let '(h1, x) := mk_expr B env h a in
      let '(h2, y) := mk_expr B env h1 b in
      mk_elem B h2 s [x; y]
  | EShuffle order a =>
      let '(h1, x) := mk_expr B env h a in
      apply1 h1 (ODimShuffle order) [x] (b_shuffle B order (ty_def h1 x))
  | EDot a b =>
      let '(h1, x) := mk_expr B env h a in
      let '(h2, y) := mk_expr B env h1 b in
      apply1 h2 (OOther K_dot) [x; y] (b_dot B (ty_def h2 x) (ty_def h2 y))
  | F1 k a => let '(h1, x) := mk_expr B env h a in mk_fun B h1 k [x]
  | F2 k a b =>
      let '(h1, x) := mk_expr B env h a in
      let '(h2, y) := mk_expr B env h1 b in
      mk_fun B h2 k [x; y]
  | F3 k a b c =>
      let '(h1, x) := mk_expr B env h a in
      let '(h2, y) := mk_expr B env h1 b in
      let '(h3, z) := mk_expr B env h2 c in
      mk_fun B h3 k [x; y; z]
  end.
(* the arguments of a draw, as gibbs.py:248-252 *)
Fixpoint mk_exprs (B : builder) (env : list vid) (h : heap) (es : list expr) : heap * list vid :=
  match es with
  | [] => (h, [])
  | e :: es' =>
      let '(h1, x) := mk_expr B env h e in
      let '(h2, xs) := mk_exprs B env h1 es' in
      (h2, x :: xs)
  end.

(** a function body: the variables in scope at its end *)
(* the bodies gibbs.py:241-257, 541-548, 724-731 *)
Fixpoint mk_code (B : builder) (h : heap) (env : list vid) (cs : list cmd) : heap * list vid :=
  match cs with
  | [] => (h, env)
  | CLet e :: cs' =>
      let '(h1, x) := mk_expr B env h e in
      mk_code B h1 (env ++ [x]) cs'
  | CDraw d size params :: cs' =>
      let '(h1, ps) := mk_exprs B env h params in
      let '(h2, sz) := match size with
                       | Some e => mk_expr B env h1 e
                       | None => mk_const h1 (b_nosize B)
                       end in
      let '(h3, dt) := mk_const h2 (b_dtype B) in
      let '(h4, (_, _, x)) := gen B h3 (ORV d) (sz :: dt :: ps) in
      mk_code B h4 (env ++ [x]) cs'
  end.
(** ... and the variables it returns *)
(* with their return statements gibbs.py:257, 548, 731 *)
Definition mk_body (B : builder) (h : heap) (env : list vid) (cs : list cmd) (outs : list nat) : heap * list vid :=
  let '(h1, env1) := mk_code B h env cs in (h1, (fun i => default 0 (env1 !! i)) <$> outs).

(** all variables used are in scope *)
(* no code: a check of the programs below (Python would raise NameError) *)
Fixpoint scoped (n : nat) (e : expr) : bool :=
  match e with
  | EV i => bool_decide (i < n)
  | EInt _ | EFloat _ | EHalf => true
  | E1 _ a | EShuffle _ a | F1 _ a => scoped n a
  | E2 _ a b | EDot a b | F2 _ a b => scoped n a && scoped n b
  | F3 _ a b c => scoped n a && scoped n b && scoped n c
  end.
(* no code: a check of the programs below *)
Fixpoint scoped_code (n : nat) (cs : list cmd) (outs : list nat) : bool :=
  match cs with
  | [] => forallb (fun i => bool_decide (i < n)) outs
  | CLet e :: cs' => scoped n e && scoped_code (S n) cs' outs
  | CDraw _ size params :: cs' =>
      forallb (scoped n) params && match size with Some e => scoped n e | None => true end && scoped_code (S n) cs' outs
  end.

(** [srng.gamma(shape, rate)]: GammaRV.__call__ stores the scale [1.0 / rate] *)
(* gibbs.py:249-252 *)
Definition draw_gamma (shape rate : expr) : cmd := CDraw RV_gamma None [shape; E2 E_truediv (EFloat 1) rate].
(** [rng.standard_normal(size=n)] with a scalar [n]: StandardNormalRV draws with mean 0.0 and
    standard deviation 1.0 *)
(* dists.py:55, 138 *)
Definition draw_standard_normal (n : expr) : cmd := CDraw RV_standard_normal (Some (F1 F_vector1 n)) [EFloat 0; EFloat 1].
(** [x.T] and [x[:, None]] *)
(* dists.py:54, 57, 142; gibbs.py:44, 50 *)
Definition transpose (a : expr) : expr := EShuffle [Some 1; Some 0] a.
(* dists.py:142; gibbs.py:44 *)
Definition as_column (a : expr) : expr := EShuffle [Some 0; None] a.

(** horseshoe_posterior (gibbs.py:241-257) as normal_horseshoe_finder calls it (gibbs.py:295-297):
    variables 0, 1, 2 are beta, lambda2 and tau2 *)
Definition horseshoe_code : list cmd :=
  [ CLet (EFloat 1);                                                      (*  3 sigma2: as_tensor(1.0), :296 *)
    CLet (E1 E_reciprocal (EV 1));                                        (*  4 lmbda2_inv *)
    CLet (E1 E_reciprocal (EV 2));                                        (*  5 tau2_inv *)
    CDraw RV_exponential None [E2 E_add (EInt 1) (EV 4)];                 (*  6 upsilon_inv *)
    CDraw RV_exponential None [E2 E_add (EInt 1) (EV 5)];                 (*  7 zeta_inv *)
    CLet (E2 E_pow (EV 0) (EInt 2));                                      (*  8 beta2 *)
    CDraw RV_exponential None                                             (*  9 lambda2_inv_new *)
      [E2 E_add (EV 6) (E2 E_truediv (E2 E_mul (E2 E_mul EHalf (EV 8)) (EV 5)) (EV 3))];
    draw_gamma                                                            (* 10 tau2_inv_new *)
      (E2 E_mul EHalf (E2 E_add (F1 F_rows (EV 0)) (EInt 1)))
      (E2 E_add (EV 7) (E2 E_truediv (E2 E_mul EHalf (F1 F_sum (E2 E_mul (EV 8) (EV 9)))) (EV 3)));
    CLet (E1 E_reciprocal (E1 E_sqrt (EV 9)));                            (* 11 lambda2_update *)
    CLet (E1 E_reciprocal (E1 E_sqrt (EV 10))) ].                         (* 12 tau2_update *)
(* gibbs.py:257 *)
Definition horseshoe_outs : list nat := [11; 12].

(** multivariate_normal_cong2017 (dists.py:136-153); [n] is the number of variables in scope,
    the result is variable [n + 10] *)
Definition cong2017_code (n : nat) (A omega phi t : expr) : list cmd :=
  [ CLet (E2 E_truediv (EInt 1) A);                                       (* n     A_inv *)
    CLet (F1 F_rows A);                                                   (* n + 1 a_rows *)
    draw_standard_normal (E2 E_add (EV (n + 1)) (F1 F_rows omega));       (* n + 2 z *)
    CLet (E2 E_mul (E1 E_sqrt (EV n)) (F2 F_take (EV (n + 2)) (EV (n + 1))));                          (* n + 3 y1 *)
    CLet (E2 E_mul (E2 E_truediv (EInt 1) (E1 E_sqrt omega)) (F2 F_drop (EV (n + 2)) (EV (n + 1))));   (* n + 4 y2 *)
    CLet (E2 E_mul (as_column (EV n)) (transpose phi));                   (* n + 5 Ainv_phi *)
    CLet (EDot phi (EV (n + 5)));                                         (* n + 6 B *)
    CLet (F1 F_arange (F1 F_rows (EV (n + 6))));                          (* n + 7 indices *)
    CLet (F3 F_set_diag (EV (n + 6)) (EV (n + 7))
            (E2 E_add (F1 F_diag (EV (n + 6))) (E2 E_truediv (EFloat 1) omega)));                      (* n + 8 B *)
    CLet (F2 F_solve (EV (n + 8)) (E2 E_sub (E2 E_sub t (EDot phi (EV (n + 3)))) (EV (n + 4))));       (* n + 9 alpha *)
    CLet (E2 E_add (EV (n + 3)) (EDot (EV (n + 5)) (EV (n + 9)))) ].      (* n + 10 *)

(** multivariate_normal_rue2005 (dists.py:52-58), for a dense [Q]; the result is variable [n + 5] *)
Definition rue2005_code (n : nat) (b Q : expr) : list cmd :=
  [ CLet (F1 F_cholesky Q);                                               (* n     L *)
    CLet (F2 F_solve_lower (EV n) b);                                     (* n + 1 w *)
    CLet (F2 F_solve_upper (transpose (EV n)) (EV (n + 1)));              (* n + 2 u *)
    draw_standard_normal (F1 F_rows (EV n));                              (* n + 3 z *)
    CLet (F2 F_solve_upper (transpose (EV n)) (EV (n + 3)));              (* n + 4 v *)
    CLet (E2 E_add (EV (n + 2)) (EV (n + 4))) ].                          (* n + 5 *)

(** normal_regression_overdetermined_posterior (gibbs.py:44-50); the result is variable [n + 9] *)
Definition overdetermined_code (n : nat) (omega lmbdatau_inv X z : expr) : list cmd :=
  [ CLet (EDot (transpose X) (E2 E_mul (as_column omega) X));             (* n     Q *)
    CLet (F1 F_arange (F1 F_cols (EV n)));                                (* n + 1 indices *)
    CLet (F3 F_set_diag (EV n) (EV (n + 1)) (E2 E_add (F1 F_diag (EV n)) lmbdatau_inv));   (* n + 2 Q *)
    CLet (EDot (transpose X) (E2 E_mul omega z)) ]                        (* n + 3 *)
  ++ rue2005_code (n + 4) (EV (n + 3)) (EV (n + 2)).

(** normal_regression_posterior (gibbs.py:125-131); the result is variable [n + 22].
    (The condition of the ifelse is evaluated first in Python, which only changes the order
    in which nodes are made.) *)
Definition regression_code (n : nat) (omega lmbdatau_inv X z : expr) : list cmd :=
  CLet (E2 E_gt (F1 F_cols X) (F1 F_rows X))                              (* n *)
  :: cong2017_code (n + 1) lmbdatau_inv omega X z                         (* n + 11 *)
  ++ overdetermined_code (n + 12) omega lmbdatau_inv X z                  (* n + 21 *)
  ++ [CLet (F3 F_ifelse (EV n) (EV (n + 11)) (EV (n + 21)))].

(** nbinom_normal_posterior (gibbs.py:541-548): variables 0 to 4 are beta, beta_std, X, h, y *)
Definition nbinom_code : list cmd :=
  [ CDraw RV_polyagamma None [E2 E_add (EV 4) (EV 3); EDot (EV 2) (EV 0)];              (* 5 w *)
    CLet (E2 E_truediv (E2 E_mul EHalf (E2 E_sub (EV 4) (EV 3))) (EV 5));               (* 6 z *)
    CLet (E1 E_reciprocal (EV 1)) ]                                                     (* 7 tau_beta *)
  ++ regression_code 8 (EV 5) (EV 7) (EV 2) (EV 6).
(* gibbs.py:548 *)
Definition nbinom_outs : list nat := [30].

(** bern_normal_posterior (gibbs.py:724-731): variables 0 to 3 are beta, beta_std, X, y *)
Definition bern_code : list cmd :=
  [ CDraw RV_polyagamma None [EInt 1; EDot (EV 2) (EV 0)];                              (* 4 w *)
    CLet (E2 E_truediv (E2 E_sub (EV 3) EHalf) (EV 4));                                 (* 5 z *)
    CLet (E1 E_reciprocal (EV 1)) ]                                                     (* 6 tau_beta *)
  ++ regression_code 7 (EV 4) (EV 6) (EV 2) (EV 5).
(* gibbs.py:731 *)
Definition bern_outs : list nat := [29].
