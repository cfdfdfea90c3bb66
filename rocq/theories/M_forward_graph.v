(** Model of the graph of forward_step, the inner function of the forward scan of ffbs_step
    (/repo/aemcmc/ffbs.py:83-91); M_ffbs_graph has one node for that scan.

    Simplifications: as M_ffbs_graph; lower_prec_bound is given as a variable (in ffbs.py a
    number, of which Aesara makes a constant). *)
From Verif Require Export M_crt_graph.

(* codes for the functions called in ffbs.py:85 *)
Definition F_max := 34.     (* x.max() *)
Definition E_exp := 12.

(** forward_step (ffbs.py:84-91): variables 0, 1, 2, 3 are log_lik_T_n, Gamma_n, alpha_nm1, lower_prec_bound *)
Definition forward_step_code : list expr :=
  [ F1 F_transpose (EV 0);                                        (* 4 log_lik_n, :84 *)
    E1 E_exp (E2 E_sub (EV 4) (F1 F_max (EV 4)));                 (* 5 lik_n, :85 *)
    E2 E_mul (EDot (EV 2) (EV 1)) (EV 5);                         (* 6 alpha_n, :86 *)
    F1 F_sum_last (EV 6);                                         (* 7 alpha_n_sum, :87 *)
    F3 F_switch (E2 E_lt (EV 7) (EV 3)) (E2 E_truediv (EV 6) (EV 3)) (EV 6) ].   (* 8 rescaled_alpha_n, :88-90 *)

(** the variable that forward_step returns (ffbs.py:91) *)
Definition forward_step_graph (B : builder) (h : heap) (log_lik_T_n Gamma_n alpha_nm1 bound : vid) : heap * vid :=
  let '(h1, env) := mk_code B h [log_lik_T_n; Gamma_n; alpha_nm1; bound] (CLet <$> forward_step_code) in
  (h1, default 0 (env !! 8)).
