(** Specification vocabulary for the finders of gibbs.py. *)
From Verif Require Export S_match S_build M_gibbs.

(** the prior documented for the horseshoe step (gibbs.py:190-213, 270-285): zero mean,
    scale the product of a half-Cauchy(0, 1) local scale and a half-Cauchy(0, 1) global one *)
Definition constant_number (T : typing) (h : heap) (v : vid) (z : Z) : Prop :=
  exists c, constant_of h v c /\ a_data T c = NScalar z.
Definition standard_half_cauchy (T : typing) (h : heap) (v : vid) : Prop :=
  exists loc scale, rv_node h v RV_halfcauchy [loc; scale] /\
    constant_number T h loc 0 /\ constant_number T h scale 1.
Definition documented_horseshoe (T : typing) (h : heap) (v lam tau : vid) : Prop :=
  horseshoe_prior T h v lam tau /\
  (exists mu scale, rv_node h v RV_normal [mu; scale] /\ constant_number T h mu 0) /\
  standard_half_cauchy T h lam /\ standard_half_cauchy T h tau.

(** [y] is Bernoulli, or negative-binomial with dispersion [hh], and its probability is
    sigmoid(c * dot(X, beta)) *)
Definition bern_form (h : heap) (y c X beta : vid) : Prop :=
  exists p, rv_node h y RV_bernoulli [p] /\ sigmoid_dot h p c X beta.
Definition nbinom_form (h : heap) (y hh c X beta : vid) : Prop :=
  exists p, rv_node h y RV_nbinom [hh; p] /\ sigmoid_dot h p c X beta.

(** the factor cannot be tested: it is no constant, or a number instead of an array *)
Definition untestable (T : typing) (h : heap) (c : vid) : Prop :=
  (~ exists k, constant_of h c k) \/ (exists k z, constant_of h c k /\ a_data T k = NScalar z).
(** the factor passes the test: it is an array, and going through its rows one finds a row
    that is empty or is -1, all earlier ones being single numbers other than -1 *)
Definition passes (T : typing) (h : heap) (c : vid) : Prop :=
  exists k rows1 r rows2, constant_of h c k /\ a_data T k = NList (rows1 ++ r :: rows2) /\
    Forall (fun r => exists z, elements_of r = [z] /\ z <> (-1)%Z) rows1 /\
    (elements_of r = [] \/ elements_of r = [(-1)%Z]).

Definition shared_var (h : heap) (v : vid) : Prop :=
  exists nm ty u ow, hv h v = Some (Var nm ty (KShared u) ow).
(** input 4 of the node that [v] comes from *)
Definition fifth_input (h : heap) (v w : vid) : Prop :=
  exists n k nd, owner h v = Some (n, k) /\ hn h n = Some nd /\ n_ins nd !! 4 = Some w.

(** what has to hold of the model besides its form for the regression steps to be built: the
    prior scale is declared with at least one dimension, the design with at least two, and
    nothing that the step takes is a shared variable *)
Definition has_dims (T : typing) (h : heap) (v : vid) (k : nat) : Prop :=
  exists ty, ty_of h v = Some ty /\ k <= a_ndim T ty.
Definition buildable (T : typing) (h : heap) (beta X : vid) (others : list vid) : Prop :=
  exists std, fifth_input h beta std /\ has_dims T h std 1 /\ has_dims T h X 2 /\
    forall v, v ∈ beta :: std :: X :: others -> ~ shared_var h v.
Definition gamma_params_plain (h : heap) (hh : vid) : Prop :=
  forall a b, rv_node h hh RV_gamma [a; b] -> ~ shared_var h a /\ ~ shared_var h b.

(** [s] is computed by one node, directly from the generator [r] *)
Definition next_state (h : heap) (r s : vid) : Prop :=
  shared_var h r /\ exists n i nd, owner h s = Some (n, i) /\ hn h n = Some nd /\ r ∈ n_ins nd.

(** Kernel [k] is the call of an OpFromGraph with inputs [ins] and inner outputs [inner]: its
    outputs are [outs], and besides [ins] it takes the shared variables of the inner graph. *)
Definition kernel_node (h : heap) (k : nid) (ins inner outs : list vid) : Prop :=
  length inner = length outs /\ exists kind, hn h k = Some (Node (OGraph kind ins inner) (ins ++ shared_inputs h ins inner) outs).

(** the updates give to each generator a next state of that generator *)
Definition updates_own (h : heap) (inner outs : list vid) (ups : dict nat nat) : Prop :=
  forall r u, dget ups r = Some u -> exists i s, outs !! i = Some u /\ inner !! i = Some s /\ next_state h r s.

(** the inner graph of the dispersion kernel: a gamma draw [sample] made with the generator
    [gamma_rng], the next state [gamma_next] of that generator, and the next state
    [scan_next] that a scan gives for the generator [scan_rng] *)
Definition dispersion_graph_ok (h : heap) (scan_rng gamma_rng sample gamma_next scan_next : vid) : Prop :=
  scan_rng <> gamma_rng /\ shared_var h scan_rng /\ shared_var h gamma_rng /\
  (exists n size dtype shape scale, owner h gamma_next = Some (n, 0) /\ owner h sample = Some (n, 1) /\
     hn h n = Some (Node (ORV RV_gamma) [gamma_rng; size; dtype; shape; scale] [gamma_next; sample]) /\
     scan_rng ∉ [size; dtype; shape; scale]) /\
  (exists n o ys hh res, owner h scan_next = Some (n, 1) /\ hn h n = Some (Node o [ys; scan_rng; hh] [res; scan_next]) /\
     gamma_rng ∉ [ys; hh]).

(** constants are not computed *)
Definition constant_leaves (h : heap) : Prop := forall v nm ty c ow, hv h v = Some (Var nm ty (KConst c) ow) -> ow = None.
