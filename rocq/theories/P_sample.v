(** Property C19: /repo/aemcmc/sample.py *)
From Verif Require Import M_sample S_utils L_sample.

(** [sample_prior] returns [n] joint draws; there is a sequence of states
    [envs 0, ..., envs n] starting at the given one and ending at the returned one
    such that draw [i] is the variables evaluated in state [i], and state [i+1] is
    state [i] with exactly the RNGs the variables depend on advanced by their
    update. *)
Theorem C19_sample_prior {D} (base : op -> list D -> option (list D)) cval
    h su rvs anc n rho samples rho' :
  NoDup (map fst su) -> enumerates_ancestors h rvs anc ->
  sample_prior_run base cval h su anc rvs n rho samples rho' ->
  length samples = n /\
  exists envs : nat -> vid -> option D,
    envs 0 = rho /\ envs n = rho' /\
    (forall i, i < n -> exists xs, samples !! i = Some xs /\ evals_list base cval h (envs i) rvs xs) /\
    (forall i, i < n -> advances base cval h su rvs (envs i) (envs (S i))).
Proof. exact (sample_prior_spec base cval h su rvs anc n rho samples rho'). Qed.
Print Assumptions C19_sample_prior.

(** The draws and the final state are determined by the initial state. *)
Theorem C19_sample_prior_deterministic {D} (base : op -> list D -> option (list D)) cval
    h su rvs anc n rho xss1 xss2 r1 r2 :
  sample_prior_run base cval h su anc rvs n rho xss1 r1 ->
  sample_prior_run base cval h su anc rvs n rho xss2 r2 ->
  xss1 = xss2 /\ forall v, r1 v = r2 v.
Proof. exact (sample_prior_det base cval h su rvs anc n rho xss1 xss2 r1 r2). Qed.
Print Assumptions C19_sample_prior_deterministic.

(** Variables that share an ancestor share its draw: fixing the ancestor at the
    value it has in this draw changes none of them. *)
Theorem C19_shared_ancestor {D} (base : op -> list D -> option (list D)) cval h rho a xa rvs xs :
  evals base cval h rho a xa ->
  evals_list base cval h rho rvs xs <->
  evals_list base cval h (fun v => if decide (v = a) then Some xa else rho v) rvs xs.
Proof. exact (shared_ancestor base cval h rho a xa rvs xs). Qed.
Print Assumptions C19_shared_ancestor.

(** If the updates and variables can be evaluated in every state that assigns a
    value to the same leaves, all [n] draws exist. *)
Theorem C19_sample_prior_exists {D} (base : op -> list D -> option (list D)) cval
    h su rvs anc n rho :
  (exists upd, get_rv_updates h su anc = Ok upd) ->
  NoDup (map fst su) -> enumerates_ancestors h rvs anc ->
  (forall rho1 : vid -> option D, (forall v, is_Some (rho v) -> is_Some (rho1 v)) ->
     (exists xs, evals_list base cval h rho1 rvs xs) /\
     (forall v u, reachable h rvs v -> wanted_update h su v u -> exists x, evals base cval h rho1 u x)) ->
  exists samples rho', sample_prior_run base cval h su anc rvs n rho samples rho'.
Proof. exact (sample_prior_exists base cval h su rvs anc n rho). Qed.
Print Assumptions C19_sample_prior_exists.

(** Non-vacuity: one RNG (0), x = normal(rng), y = f(x): three draws. *)
Definition ex_h : heap :=
  Heap (list_to_map
    [(0, Var None (VType true 1) (KShared (Some 1)) None);
     (1, Var None (VType true 1) KPlain (Some (0, 0)));
     (2, Var (Some "x") (VType false 0) KPlain (Some (0, 1)));
     (3, Var (Some "y") (VType false 0) KPlain (Some (1, 0)))])
   (list_to_map [(0, Node (ORV 0) [0] [1; 2]); (1, Node (OElem 0) [2] [3])]).
Definition ex_base (o : op) (xs : list nat) : option (list nat) :=
  match o, xs with
  | ORV _, s :: _ => Some [S s; 10 * s]
  | OElem _, x :: _ => Some [x + 1]
  | _, _ => None
  end.
Definition ex_rho : vid -> option nat := fun v => if decide (v = 0) then Some 4 else None.

Lemma ex_eval rho s : rho 0 = Some s -> (forall v, v <> 0 -> rho v = None) ->
  evals ex_base id ex_h rho 1 (S s) /\ evals ex_base id ex_h rho 2 (10 * s) /\
  evals ex_base id ex_h rho 3 (10 * s + 1).
Proof.
  intros H0 Hn.
  assert (evals ex_base id ex_h rho 1 (S s)) as H1.
  { eapply (ev_app _ _ _ _ 1 0 0 (Node (ORV 0) [0] [1; 2]) [s]); [by apply Hn|done|done| |done|done].
    repeat constructor. done. }
  assert (evals ex_base id ex_h rho 2 (10 * s)) as H2.
  { eapply (ev_app _ _ _ _ 2 0 1 (Node (ORV 0) [0] [1; 2]) [s]); [by apply Hn|done|done| |done|done].
    repeat constructor. done. }
  split_and!; [done..|].
  eapply (ev_app _ _ _ _ 3 1 0 (Node (OElem 0) [2] [3]) [10 * s]); [by apply Hn|done|done| |done|done].
  constructor; [done|constructor].
Qed.

Example C19_example :
  exists rho', sample_prior_run ex_base id ex_h [(0, 1)] [2; 3; 0] [2; 3] 3 ex_rho
    [[40; 41]; [50; 51]; [60; 61]] rho' /\ rho' 0 = Some 7.
Proof.
  set (e := fun s v => if decide (v = 0) then Some s else None : option nat).
  assert (forall s, evals_list ex_base id ex_h (e s) [2; 3] [10 * s; 10 * s + 1]) as Hev.
  { intros s. destruct (ex_eval (e s) s) as (_ & H2 & H3); [done|by intros v Hv; unfold e; case_decide|].
    constructor; [done|]. constructor; [done|constructor]. }
  assert (forall s, next_env ex_base id ex_h [(0, 1)] (e s) (e (S s))) as Hne.
  { intros s. split.
    - intros v u. cbn. case_decide; [|done]. intros ?; simplify_eq. exists (S s). split; [|done].
      apply (ex_eval (e s) s); [done|by intros v Hv; unfold e; case_decide].
    - intros v. cbn. unfold e. by case_decide. }
  exists (e 7). split; [|done]. exists [(0, 1)]. split; [vm_compute; reflexivity|].
  eapply scan_succ; [apply (Hev 4)|apply (Hne 4)|].
  eapply scan_succ; [apply (Hev 5)|apply (Hne 5)|].
  eapply scan_succ; [apply (Hev 6)|apply (Hne 6)|]. constructor.
Qed.
