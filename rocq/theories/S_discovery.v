(** Specification: which unobserved variables of a model have a closed-form sampling step. *)
From Verif Require Export S_gibbs.

(** the registered finders (gibbs.py:311, 653, 768; conjugates.py:241-247), by name *)
Definition normal_horseshoe_name : nat := 0.
Definition nbinom_logistic_name : nat := 1.
Definition bern_logistic_name : nat := 2.
Definition beta_binomial_name : nat := 3.
Definition gamma_poisson_name : nat := 4.
Definition beta_nb_name : nat := 5.

(** Finder [k] has a closed-form step for [v], thanks to the variable [y] that depends on [v].
    The first three are the documented conjugate pairs; the next is the horseshoe prior,
    where both half-Cauchy scales of [y] get a step; then the logistic regressions. *)
Inductive closed_form (T : typing) (h : heap) : nat -> vid -> vid -> Prop :=
  | cf_beta_binomial y nn p a b : rv_node h y RV_binomial [nn; p] -> rv_node h p RV_beta [a; b] ->
      closed_form T h beta_binomial_name y p
  | cf_gamma_poisson y z a b : rv_node h y RV_poisson [z] -> rv_node h z RV_gamma [a; b] ->
      closed_form T h gamma_poisson_name y z
  | cf_beta_nb y nn p a b : rv_node h y RV_nbinom [nn; p] -> rv_node h p RV_beta [a; b] ->
      closed_form T h beta_nb_name y p
  | cf_horseshoe y mu scale a b v : rv_node h y RV_normal [mu; scale] -> applied h scale (OElem E_mul) [a; b] ->
      half_cauchy h a -> half_cauchy h b -> one_element T h a \/ one_element T h b -> v = a \/ v = b ->
      closed_form T h normal_horseshoe_name y v
  | cf_bernoulli y c X beta : bern_form h y c X beta -> passes T h c -> buildable T h beta X [y] ->
      closed_form T h bern_logistic_name y beta
  | cf_nbinom y hh c X beta : nbinom_form h y hh c X beta -> passes T h c ->
      buildable T h beta X [hh; y] -> gamma_params_plain h hh ->
      closed_form T h nbinom_logistic_name y beta
  | cf_dispersion y hh c X beta a b : nbinom_form h y hh c X beta -> passes T h c ->
      buildable T h beta X [hh; y] -> gamma_params_plain h hh -> rv_node h hh RV_gamma [a; b] ->
      closed_form T h nbinom_logistic_name y hh.

(** [y] is the random variable of a node of the graph that computes [outs] *)
Definition rv_output (h : heap) (outs : list vid) (y : vid) : Prop :=
  reachable h outs y /\ exists n, owner h y = Some (n, 1).

(** The rewriters call every registered finder at least once on every random-variable node
    of the class that it tracks. *)
Definition covers (sched : heap -> list vid -> list (entry * nid)) : Prop :=
  forall h outs y n nd e, good_heap h -> reachable h outs y -> owner h y = Some (n, 1) -> hn h n = Some nd ->
    e ∈ registered -> n_op nd = ORV (e_rv e) -> (e, n) ∈ sched h outs.

(** finder [k] gave a step for [v], among the discovered steps [d] *)
Definition step_from (d : dict nat (list found)) (k : nat) (v : vid) : Prop :=
  exists fs f, dget d v = Some fs /\ f ∈ fs /\ f_desc f = k.
