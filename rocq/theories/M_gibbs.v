(** Model of the sampler finders of /repo/aemcmc/gibbs.py, and of the registered finders. *)
From Verif Require Export M_conjugates M_code.

(** normal_horseshoe_finder (gibbs.py:264-308) *)
Definition normal_horseshoe_finder (B : builder) : finder := fun h n =>
  with_rv h n (fun _ rv_var =>
  match horseshoe_match B h rv_var with                                  (* :288-291 *)
  | Raise ValueError => (h, Ok [])
  | Raise e => (h, Raise e)
  | Ok (lambda_rv, tau_rv) =>
      let '(h1, two) := mk_const h (b_int B 2) in
      let '(h2, tau2) := mk_elem B h1 E_pow [tau_rv; two] in             (* :293 *)
      let '(h3, two') := mk_const h2 (b_int B 2) in
      let '(h4, lambda2) := mk_elem B h3 E_pow [lambda_rv; two'] in      (* :294 *)
      let '(h5, outputs) := mk_body B h4 [rv_var; lambda2; tau2] horseshoe_code horseshoe_outs in   (* :295-300 *)
      let inputs := remove_constants h5 [PVar rv_var; PVar lambda2; PVar tau2] in   (* :301 *)
      match mk_kernel h5 K_horseshoe inputs outputs                      (* :302-306 *)
              [posterior_name h lambda_rv "lambda"; posterior_name h tau_rv "tau"] with
      | Raise e => (h5, Raise e)
      | Ok (h6, outs) =>
          match outs with
          | [lambda_posterior; tau_posterior] =>
              (h6, Ok [(lambda_rv, lambda_posterior, []); (tau_rv, tau_posterior, [])])   (* :308 *)
          | _ => (h6, Raise ValueError)
          end
      end
  end).

(** [v.owner.inputs[4]] *)
(* gibbs.py:606, 754 *)
Definition owner_input4 (h : heap) (v : vid) : result vid :=
  match owner h v with
  | None => Raise AttributeError
  | Some (n, _) =>
      match hn h n with
      | None => Raise AttributeError
      | Some nd => match n_ins nd !! 4 with Some u => Ok u | None => Raise IndexError end
      end
  end.

(** sample_CRT (gibbs.py:367-400): the generator of the bernoulli draw in the inner function of
    the scan, and the updated generator and the result that the scan gives.
    (Simplifications: the inner graph of the scan is a single draw that depends on h; the
    number of steps is not an input of the scan.  The numbers are in M_dispersion.) *)
Definition sample_CRT_graph (B : builder) (h : heap) (y hh : vid) : heap * (vid * vid * vid) :=
  let '(h1, ys) := mk_fun B h F_ravel [y] in                                       (* :393 *)
  let '(h2, (scan_rng, _, _)) := gen B h1 (OOther (8 * fresh (dom (h_nodes h1)) + K_inner)) [hh] in   (* :389 *)
  let o := OOther (8 * fresh (dom (h_nodes h2)) + K_scan) in
  let '(h3, res, scan_next) := apply_rng h2 o [ys; scan_rng; hh] (b_draw B h2 o [ys; scan_rng; hh]) (b_rng B) in   (* :391-396 *)
  let '(h4, Ls) := mk_fun B h3 F_reshape [res; y] in                               (* :397 *)
  (h4, (scan_rng, scan_next, Ls)).

(** nbinom_dispersion_posterior (gibbs.py:403-478): the draw of h and its generator with its
    next state, and the generator of the scan with its next state.
    (Simplification: the sums over the last axis (:473, :475) are sums of all components, which is
    the same for vectors.) *)
Record dispersion_graph := DispersionGraph {
  dg_sample : vid;
  dg_rng : vid;
  dg_next : vid;
  dg_scan_rng : vid;
  dg_scan_next : vid;
}.
Definition dispersion_inner (B : builder) (h : heap) (hh p a b y : vid) : heap * dispersion_graph :=
  let '(h1, (scan_rng, scan_next, Ls)) := sample_CRT_graph B h y hh in             (* :472 *)
  let '(h2, L_sum) := mk_fun B h1 F_sum [Ls] in                                    (* :473 *)
  let '(h3, shape) := mk_elem B h2 E_add [a; L_sum] in                             (* :475 *)
  let '(h4, inv_b) := mk_elem B h3 E_reciprocal [b] in
  let '(h5, one) := mk_const h4 (b_int B 1) in
  let '(h6, q) := mk_elem B h5 E_sub [one; p] in
  let '(h7, log_q) := mk_elem B h6 E_log [q] in
  let '(h8, log_sum) := mk_fun B h7 F_sum [log_q] in
  let '(h9, rate) := mk_elem B h8 E_sub [inv_b; log_sum] in
  let '(h10, one') := mk_const h9 (b_float B 1) in                                 (* GammaRV.__call__ *)
  let '(h11, scale) := mk_elem B h10 E_truediv [one'; rate] in
  let '(h12, size) := mk_const h11 (b_nosize B) in
  let '(h13, dtype) := mk_const h12 (b_dtype B) in
  let '(h14, (rng, next, x)) := gen B h13 (ORV RV_gamma) [size; dtype; shape; scale] in   (* :474-476 *)
  (h14, DispersionGraph x rng next scan_rng scan_next).

(** the outputs of the inner graph of the dispersion kernel: the draw, the default update of
    its generator, the update that the scan gives (gibbs.py:632-635) *)
Definition dispersion_outputs (g : dispersion_graph) : list vid := [dg_sample g; dg_next g; dg_scan_next g].

(** the second half of nbinom_logistic_finder (gibbs.py:627-648) *)
Definition dispersion_step (B : builder) (h : heap) (X hh beta_posterior y a b : vid)
    : heap * result (vid * vid * dict nat nat) :=
  let '(h1, negX) := mk_elem B h E_neg [X] in                            (* :627 *)
  let '(h2, psi) := apply1 h1 (OOther K_dot) [negX; beta_posterior]
                      (b_dot B (ty_def h1 negX) (ty_def h1 beta_posterior)) in
  let '(h3, p) := mk_elem B h2 E_sigmoid [psi] in
  let '(h4, g) := dispersion_inner B h3 hh p a b y in                    (* :629 *)
  let inputs := remove_constants h4 [PVar hh; PVar p; PVar a; PVar b; PVar y] in   (* :636 *)
  match mk_kernel h4 K_dispersion inputs (dispersion_outputs g)        (* :637-640 *)
          [posterior_name h hh "h"; None; None] with
  | Raise e => (h4, Raise e)
  | Ok (h5, outs) =>
      match outs with
      | [h_posterior; upd1; upd2] =>
          let ins := inputs ++ shared_inputs h4 inputs (dispersion_outputs g) in
          match ins !! length inputs, ins !! S (length inputs) with      (* :642-646 *)
          | Some r1, Some r2 => (h5, Ok (hh, h_posterior, dof [(r1, upd1); (r2, upd2)]))
          | _, _ => (h5, Raise IndexError)
          end
      | _ => (h5, Raise ValueError)
      end
  end.

(** Building the regression kernels indexes [A_inv[:, None]] (dists.py:142), [B[indices, indices]]
    (dists.py:147-151) and [omega[:, None]] (gibbs.py:44).  Aesara raises IndexError at once if a
    variable has fewer dimensions than indices: that is so if the prior scale is a scalar, or the
    design matrix a vector.  (Simplification: nothing is said about errors for designs with more
    than two dimensions.) *)
Definition index_error (B : builder) (h : heap) (beta_std X : vid) : bool :=
  bool_decide (a_ndim B (ty_def h beta_std) < 1 \/ a_ndim B (ty_def h X) < 2).

(** nbinom_logistic_finder (gibbs.py:569-650) *)
Definition nbinom_logistic_finder (B : builder) : finder := fun h n =>
  with_rv h n (fun _ y =>
  match nbinom_sigmoid_dot_match B h y with                              (* :601-604 *)
  | Raise ValueError => (h, Ok [])
  | Raise e => (h, Raise e)
  | Ok (X, hh, beta_rv) =>
      match owner_input4 h beta_rv with                                  (* :606 *)
      | Raise e => (h, Raise e)
      | Ok beta_std =>
          if index_error B h beta_std X then (h, Raise IndexError) else
          let '(h1, outputs) := mk_body B h [beta_rv; beta_std; X; hh; y] nbinom_code nbinom_outs in   (* :607-610 *)
          let inputs := remove_constants h1 [PVar beta_rv; PVar beta_std; PVar X; PVar hh; PVar y] in   (* :611 *)
          match mk_kernel h1 K_nbreg inputs outputs [posterior_name h beta_rv "beta"] with   (* :612-615 *)
          | Raise e => (h1, Raise e)
          | Ok (h2, outs) =>
              match outs with
              | [beta_posterior] =>
                  match gamma_match h2 hh with                           (* :622-625 *)
                  | Raise ValueError => (h2, Ok [(beta_rv, beta_posterior, [])])
                  | Raise e => (h2, Raise e)
                  | Ok (a, b) =>
                      match dispersion_step B h2 X hh beta_posterior y a b with
                      | (h3, Raise e) => (h3, Raise e)
                      | (h3, Ok r) => (h3, Ok [(beta_rv, beta_posterior, []); r])   (* :648-650 *)
                      end
                  end
              | _ => (h2, Raise ValueError)
              end
          end
      end
  end).

(** bern_logistic_finder (gibbs.py:743-765) *)
Definition bern_logistic_finder (B : builder) : finder := fun h n =>
  with_rv h n (fun _ y =>
  match bern_sigmoid_dot_match B h y with
  | Raise ValueError => (h, Ok [])
  | Raise e => (h, Raise e)
  | Ok (X, beta_rv) =>
      match owner_input4 h beta_rv with
      | Raise e => (h, Raise e)
      | Ok beta_std =>
          if index_error B h beta_std X then (h, Raise IndexError) else
          let '(h1, outputs) := mk_body B h [beta_rv; beta_std; X; y] bern_code bern_outs in
          let inputs := remove_constants h1 [PVar beta_rv; PVar beta_std; PVar X; PVar y] in
          match mk_kernel h1 K_bern inputs outputs [posterior_name h beta_rv "beta"] with
          | Raise e => (h1, Raise e)
          | Ok (h2, outs) =>
              match outs with
              | [beta_posterior] => (h2, Ok [(beta_rv, beta_posterior, [])])
              | _ => (h2, Raise ValueError)
              end
          end
      end
  end).

(** The registered finders with the operators they are called on ([tracks],
    rewriting.py:127-145; gibbs.py:264, 311, 569, 653, 743, 768; conjugates.py:70, 144,
    221, 241-247) *)
Record entry := Entry { e_name : nat; e_rv : nat; e_finder : builder -> finder }.
Definition registered : list entry :=
  [ Entry 0 RV_normal normal_horseshoe_finder;
    Entry 1 RV_nbinom nbinom_logistic_finder;
    Entry 2 RV_bernoulli bern_logistic_finder;
    Entry 3 RV_binomial local_beta_binomial_posterior;
    Entry 4 RV_poisson local_gamma_poisson_posterior;
    Entry 5 RV_nbinom local_beta_negative_binomial_posterior ].

(** one call of finder [e] on node [n] during the rewriting of the function graph: only
    on nodes of the tracked class, and through the decorator (rewriting.py:147-172).  An
    exception is reported by Aesara and the node skipped. *)
Definition call_finder (B : builder) (st : heap * tracker) (c : entry * nid) : heap * tracker :=
  let '(h, t) := st in
  let '(e, n) := c in
  match hn h n with
  | None => st
  | Some nd =>
      match n_op nd, n_outs nd !! 1 with
      | ORV d, Some rv_var =>
          if decide (d = e_rv e /\ (e_name e, rv_var) ∉ tk_seen t) then
            let '(h1, out) := e_finder e B h n in
            match sampler_finder_call (e_name e) rv_var out (Some t) with
            | Ok (Some t1, _) => (h1, t1)
            | _ => (h1, t)
            end
          else st
      | _, _ => st
      end
  end.

(** The discovery of samplers: the rewriters visit nodes of the function graph in some
    order, possibly several times (in2out, gibbs.py:770-772, conjugates.py:250-252). *)
Definition discover (B : builder) (sched : heap -> list vid -> list (entry * nid))
    (h : heap) (outs : list vid) : heap * dict nat (list found) :=
  let '(h1, t) := foldl (call_finder B) (h, new_tracker) (sched h outs) in
  (h1, tk_samplers t).
