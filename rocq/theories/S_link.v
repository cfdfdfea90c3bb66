(** Specification: the logistic link, Polya-Gamma and normal densities. *)
From Verif Require Export S_density.

Definition sigmoid (x : R) : R := / (1 + exp (- x)).

(** Bernoulli mass function of [y], [true] having probability [p] *)
Definition bernoulli_pmf (p : R) (y : bool) : R := if y then p else 1 - p.

(** Density at [w] of PG(b, c): the exponential tilting of the density [g b] of
    PG(b, 0) (Polson, Scott and Windle 2013, equation 5). *)
Definition pg_density (g : R -> R -> R) (b c w : R) : R :=
  Rpower (cosh (c / 2)) b * exp (- (c ^ 2 * w / 2)) * g b w.

(** density of a centred normal *)
Definition normal_density (sd x : R) : R :=
  / (sd * sqrt (2 * PI)) * exp (- (x ^ 2 / (2 * sd ^ 2))).
