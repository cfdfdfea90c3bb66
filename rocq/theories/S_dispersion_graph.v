(** Specification: the dispersion step as a graph. *)
From Verif Require Export S_code S_dispersion.
Global Open Scope nat_scope.

(** The remaining functions that the dispersion step calls: [-x], [at.log], [at.sigmoid],
    [x.ravel()] and [x.reshape(y.shape)] have their usual meaning; the result of the scan is a
    vector. *)
Record tables_ok (B : builder) (scalar : nat -> list R -> option R)
    (other : op -> list (tensor R) -> option (list (tensor R))) : Prop := TablesOk {
  tb_neg : forall a, scalar E_neg [a] = Some (- a)%R;
  tb_log : forall a, (0 < a)%R -> scalar E_log [a] = Some (ln a);
  tb_sigmoid : forall a, scalar E_sigmoid [a] = Some (/ (1 + exp (- a)))%R;
  tb_ravel : forall x, other (fun_op F_ravel) [x] = Some [Tensor [size_of (t_shape x)] (t_data x)];
  tb_reshape : forall x y, size_of (t_shape x) = size_of (t_shape y) ->
    other (fun_op F_reshape) [x; y] = Some [Tensor (t_shape y) (t_data x)];
  tb_scan : forall h k vs, a_ndim B (b_draw B h (OOther (8 * k + K_scan)) vs) = 1;
}.

(** a vector of counts *)
Definition count_vector (ls : list nat) : tensor R := Tensor [length ls] (INR <$> ls).

(** With the values [rho] for the variables of the graph, the OpFromGraph with inputs [ins] and
    inner outputs [inner] first draws table counts: by a scan over the components of [ys], for
    the concentration [conc], with a generator whose next state is the third output.  Given
    counts [ls] the first output is computed as the program [P ls] says, and the second one is
    the next state of the generator that the first one is drawn with. *)
Definition table_kernel_runs (scalar : nat -> list R -> option R) (other : op -> list (tensor R) -> option (list (tensor R)))
    (cval : nat -> tensor R) (h : heap) (rho : vid -> option (tensor R)) (ins inner : list vid)
    (ys : list nat) (conc : tensor R) (P : list nat -> tprog) : Prop :=
  exists vals x next scan_next m o yv r hv res k,
    Forall2 (evals (tensor_base scalar other) cval h rho) ins vals /\ inner = [x; next; scan_next] /\
    hn h m = Some (Node (OOther (8 * o + K_scan)) [yv; r; hv] [res; scan_next]) /\ owner h res = Some (m, 0) /\
    owner h scan_next = Some (m, 1) /\ shared_var h r /\ given ins vals res = None /\
    evals (tensor_base scalar other) cval h (given ins vals) yv (count_vector ys) /\
    evals (tensor_base scalar other) cval h (given ins vals) hv conc /\
    owner h x = Some (k, 1) /\ owner h next = Some (k, 0) /\
    forall ls, length ls = length ys ->
      realises scalar other cval h [r] (assign (given ins vals) res (count_vector ls)) [x] (P ls).

(** The program returns one draw from a gamma distribution whose density is proportional to
    [density]. *)
Definition draws_gamma (density : R -> R) (P : tprog) : Prop :=
  exists shape scale k, P = TDraw RV_gamma [number shape; number scale] [] k /\
    (forall v, drawn RV_gamma [] v -> k v = TRet [v]) /\
    proportional pos_reals (gamma_node_density (GammaNode shape scale)) density.
