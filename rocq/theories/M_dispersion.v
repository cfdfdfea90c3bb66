(** Model of nbinom_dispersion_posterior in /repo/aemcmc/gibbs.py (lines 403-478), for
    one-dimensional [y] and [p] (the code sums over the last axis). *)
From Verif Require Export M_crt.

(** An Aesara gamma node stores the shape and the scale; [srng.gamma(shape, rate)]
    stores the reciprocal of its second argument (tests/test_gibbs.py:289-300 pins
    this down). *)
Record gamma_node := GammaNode { gn_shape : R; gn_scale : R }.
Definition at_gamma (shape rate : R) : gamma_node := GammaNode shape (1 / rate).

(** gibbs.py:472-476: the node drawn from, given the table counts [ls]; [b] is the
    scale stored in the matched prior node (gibbs.py:323-337) *)
Definition dispersion_node (a b : R) (p : list R) (ls : list nat) : gamma_node :=
  at_gamma (a + INR (list_sum ls)) (/ b - lsum (map (fun q => ln (1 - q)) p)).
