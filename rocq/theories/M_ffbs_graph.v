(** Model of the graph that ffbs_step builds (/repo/aemcmc/ffbs.py:66-131), for the random
    generators it uses; the numbers are modelled in M_ffbs.v.

    Simplifications: the forward scan (lines 93-101), which draws nothing, is one node; the
    inner graph of the backward scan is built on the same heap (Aesara copies it), on three
    placeholders that the scan's sequences and its previous output stand for. *)
From Verif Require Export M_code.

(** Functions *)
(* codes for the functions called in ffbs.py:66-131 *)
Definition F_last_dim := 20.       (* x.shape[-1] *)
Definition F_broadcast_to := 21.   (* broadcast_to(Gammas, (N,) + Gammas.shape[-2:]): Gammas, N *)
Definition F_forward_scan := 22.   (* the forward scan: log_lik.T, Gammas, gamma_0_normed *)
Definition F_transpose := 23.      (* x.T, any rank *)
Definition F_at_last := 24.        (* x[..., N - 1]: x, N *)
Definition F_sum_last := 25.       (* x.sum(axis=-1) *)
Definition F_init := 26.           (* x[: N - 1]: x, N *)
Definition F_tail := 27.           (* x[1:] *)
Definition F_column := 28.         (* Gamma[:, state]: Gamma, state *)
Definition F_atleast := 29.        (* atleast_Nd *)
Definition F_join := 30.           (* join(0, a, b) *)
Definition F_reverse := 31.        (* x[::-1] *)
(* srng.categorical, ffbs.py:109, 115 *)
Definition RV_categorical := 19.

(** everything before the first draw (ffbs.py:66-113): variables 0, 1, 2 are gamma_0, Gammas, log_lik *)
Definition ffbs_forward_code : list expr :=
  [ E2 E_truediv (EV 0) (F1 F_sum (EV 0));                        (*  3 gamma_0_normed, :76-77 *)
    F1 F_last_dim (EV 2);                                         (*  4 N, :70 *)
    F2 F_broadcast_to (EV 1) (EV 4);                              (*  5 Gammas, :81 *)
    F1 F_transpose (F3 F_forward_scan (F1 F_transpose (EV 2)) (EV 5) (EV 3));   (*  6 alphas, :93-103 *)
    F2 F_at_last (EV 6) (EV 4);                                   (*  7 alpha_N, :112 *)
    E2 E_truediv (EV 7) (F1 F_sum_last (EV 7));                   (*  8 beta_N, :113 *)
    F2 F_init (F1 F_transpose (EV 6)) (EV 4);                     (*  9 alphas.T[: N - 1], :119 *)
    F1 F_tail (EV 5) ].                                           (* 10 Gammas[1:], :119 *)

(** the weights in backward_step (ffbs.py:106-108): variables 0, 1, 2 are alphas_T_n, Gamma_np1, state_n *)
Definition ffbs_backward_code : list expr :=
  [ E2 E_mul (F1 F_transpose (EV 0)) (F2 F_column (EV 1) (EV 2));  (* 3 *)
    E2 E_truediv (EV 3) (F1 F_sum_last (EV 3)) ].                 (* 4 beta_n *)

(** [srng.categorical(w)] and other draws with one parameter and no size: the generator, its next
    state, the draw (ffbs.py:109, 115; gibbs.py:389) *)
Definition draw_one (B : builder) (h : heap) (d : nat) (w : vid) : heap * (vid * vid * vid) :=
  let '(h1, size) := mk_const h (b_nosize B) in
  let '(h2, dtype) := mk_const h1 (b_dtype B) in
  gen B h2 (ORV d) [size; dtype; w].
(* ffbs.py:109, 115 *)
Definition categorical (B : builder) (h : heap) (w : vid) : heap * (vid * vid * vid) := draw_one B h RV_categorical w.

(** a placeholder of the scan's inner function (Simplification: with the declared type of the
    sequence; Aesara drops the first dimension.) *)
(* made by aesara.scan for the arguments of backward_step, ffbs.py:105, 117-125 *)
Definition placeholder (h : heap) (v : vid) : heap * vid := alloc_var h (Var None (ty_def h v) KPlain None).

(** ffbs_step (ffbs.py:66-131): the states drawn, and the updates *)
Definition ffbs_graph (B : builder) (h : heap) (gamma_0 Gammas log_lik : vid) : heap * (vid * dict nat nat) :=
  let '(h1, env) := mk_code B h [gamma_0; Gammas; log_lik] (CLet <$> ffbs_forward_code) in
  let var i := default 0 (env !! i) in
  let '(h2, (_, _, state_N)) := categorical B h1 (var 8) in                        (* :115 *)
  let '(h3, a) := placeholder h2 (var 9) in                                        (* :105 *)
  let '(h4, G) := placeholder h3 (var 10) in
  let '(h5, s) := placeholder h4 state_N in
  let '(h6, inner) := mk_code B h5 [a; G; s] (CLet <$> ffbs_backward_code) in      (* :106-108 *)
  let '(h7, (rng, _, _)) := categorical B h6 (default 0 (inner !! 4)) in           (* :109 *)
  let o := OOther (8 * fresh (dom (h_nodes h7)) + K_scan) in
  let ins := [var 9; var 10; state_N; rng] in
  let '(h8, states, rng') := apply_rng h7 o ins (b_draw B h7 o ins) (b_rng B) in   (* :117-125 *)
  let '(h9, out) := mk_expr B [state_N; states] h8
                      (F1 F_reverse (F2 F_join (F1 F_atleast (EV 0)) (EV 1))) in   (* :127-131 *)
  (h9, (out, dof [(rng, rng')])).
