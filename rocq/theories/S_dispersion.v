(** Specification of the dispersion step. *)
From Verif Require Export S_crt M_dispersion.

(** unnormalised density of a draw from an Aesara gamma node *)
Definition gamma_node_density (g : gamma_node) : R -> R :=
  gamma_density (gn_shape g) (1 / gn_scale g).

(** joint density, as a function of [h], of the dispersion [h] with prior node [prior],
    observations [ys] with [ys_i ~ NB(h, ps_i)], and table counts [ls] drawn by
    [sample_CRT(ys, h)] *)
Definition dispersion_joint (prior : gamma_node) (ps : list R) (ys ls : list nat) (h : R) : R :=
  gamma_node_density prior h
  * lprod (map (fun q => nb_pmf h (fst q) (snd q)) (combine ps ys))
  * dprob (sample_CRT (Arr [length ys] (map Z.of_nat ys)) h) (is_arr (Arr [length ys] ls)).

(** counts that [sample_CRT] can return for [ys] *)
Definition possible_tables (ys ls : list nat) : Prop :=
  Forall2 (fun y l => (y = 0 /\ l = 0)%nat \/ (1 <= l <= y)%nat) ys ls.
