(** Model of /repo/aemcmc/sample.py. *)
From Verif Require Export M_utils.

Section sample.
  Context {D : Type}.
  Context (base : op -> list D -> option (list D)) (cval : nat -> D).

  (** Environment after one iteration of [aesara.scan]: a shared variable with an
      update takes the value its update has before the iteration, every other
      leaf keeps its value. *)
  Definition next_env (h : heap) (updates : dict nat nat) (rho rho' : vid -> option D) : Prop :=
    (forall v u, dget updates v = Some u -> exists x, evals base cval h rho u x /\ rho' v = Some x) /\
    (forall v, dget updates v = None -> rho' v = rho v).

  (** [aesara.scan(step_fn, n_steps=n)] with [step_fn] returning
      [rvs, rv_updates] (sample.py:26-29): iteration [i] computes [rvs] from the
      current shared variables, then applies the updates. *)
  Inductive scan_run (h : heap) (rvs : list vid) (updates : dict nat nat)
    : nat -> (vid -> option D) -> list (list D) -> (vid -> option D) -> Prop :=
    | scan_zero rho : scan_run h rvs updates 0 rho [] rho
    | scan_succ n rho xs rho1 xss rho2 :
        evals_list base cval h rho rvs xs ->
        next_env h updates rho rho1 ->
        scan_run h rvs updates n rho1 xss rho2 ->
        scan_run h rvs updates (S n) rho (xs :: xss) rho2.

  (** sample_prior (sample.py:8-31): the updates are those of get_rv_updates *)
  Definition sample_prior_run (h : heap) (state_updates : list (vid * vid)) (anc rvs : list vid)
      (num_samples : nat) (rho : vid -> option D) (samples : list (list D))
      (rho' : vid -> option D) : Prop :=
    exists updates,
      get_rv_updates h state_updates anc = Ok updates /\
      scan_run h rvs updates num_samples rho samples rho'.
End sample.
