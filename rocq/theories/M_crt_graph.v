(** Model of the graph that sample_CRT builds (/repo/aemcmc/gibbs.py:387-400), with the inner
    graph of its scan; M_gibbs.sample_CRT_graph has one node in its place.

    Simplifications: the inner graph is built on the same heap (Aesara copies it), on two
    placeholders for an element of y and for h; [at.switch] is a function of three arguments;
    the name given to the result (:398) is left out. *)
From Verif Require Export M_ffbs_graph.

(* codes for the functions called in gibbs.py:388-389 *)
Definition F_range := 32.   (* at.arange(start, stop) *)
Definition F_switch := 33.  (* at.switch(condition, a, b) *)
Definition E_lt := 11.      (* a < b *)

(** before the draw (gibbs.py:388-389): variables 0 and 1 are y_i and h *)
Definition crt_code : list expr :=
  [ F2 F_range (EInt 2) (E2 E_add (EV 0) (EInt 1));                                   (* 2 n_i *)
    E2 E_truediv (EV 1) (E2 E_add (E2 E_sub (EV 2) (EInt 1)) (EV 1)) ].               (* 3 the probabilities *)
(** after it (gibbs.py:389): variables 0 and 1 are y_i and the draw *)
Definition crt_result : expr :=
  F3 F_switch (E2 E_lt (EV 0) (EInt 1)) (EInt 0) (E2 E_add (EInt 1) (F1 F_sum (EV 1))).

(** sample_CRT (gibbs.py:387-400): the table counts and the updates; and, to refer to it, the
    variable that the inner function of the scan returns. *)
Definition crt_graph (B : builder) (h : heap) (y hh : vid) : heap * (vid * dict nat nat * vid) :=
  let '(h1, ys) := mk_expr B [y] h (F1 F_ravel (EV 0)) in                             (* :393 *)
  let '(h2, y_i) := placeholder h1 ys in                                              (* :387 *)
  let '(h3, h_i) := placeholder h2 hh in
  let '(h4, env) := mk_code B h3 [y_i; h_i] (CLet <$> crt_code) in                    (* :388-389 *)
  let '(h5, (rng, _, draws)) := draw_one B h4 RV_bernoulli (default 0 (env !! 3)) in  (* :389 *)
  let '(h6, result) := mk_expr B [y_i; draws] h5 crt_result in                             (* :389 *)
  let o := OOther (8 * fresh (dom (h_nodes h6)) + K_scan) in
  let ins := [ys; rng; hh] in
  let '(h7, res, rng') := apply_rng h6 o ins (b_draw B h6 o ins) (b_rng B) in         (* :391-396 *)
  let '(h8, out) := mk_expr B [res; y] h7 (F2 F_reshape (EV 0) (EV 1)) in             (* :397 *)
  (h8, (out, dof [(rng, rng')], result)).
