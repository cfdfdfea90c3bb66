(** construct_sampler with the registered finders: a concrete environment that meets the
    contracts, and two small models.  Used to show that hypotheses are satisfiable and
    that claims fail. *)
From Verif Require Export L_discover E_scan M_target.

(** a schedule: all finders on the nodes of the outputs, twice *)
Definition out_calls (h : heap) (outs : list vid) : list (entry * nid) :=
  flat_map (fun e => flat_map (fun r =>
    match owner h r with
    | Some (n, _) => match hn h n with
                     | Some nd => if decide (n_outs nd !! 1 = Some r) then [(e, n); (e, n)] else []
                     | None => [] end
    | None => [] end) outs) registered.
Lemma out_calls_ok : sched_ok out_calls.
Proof.
  intros h outs e n Hin. apply elem_of_list_In, in_flat_map in Hin as (e' & He & Hin). apply in_flat_map in Hin as (r & Hr & Hin).
  destruct (owner h r) as [[m k]|] eqn:Ho; [|done]. destruct (hn h m) as [md|] eqn:Hm; [|done]. case_decide as Hd; [|done].
  assert (e' = e /\ m = n) as [-> ->] by (destruct Hin as [[= -> ->]|[[= -> ->]|[]]]; done).
  apply elem_of_list_In in He, Hr. assert (Hrr : reachable h outs r) by (exists r; split; [done|apply rtc_refl]).
  split; [done|]. split; [by exists r, k|]. intros nd d v Hn _ Hv. rewrite Hm in Hn. injection Hn as <-. rewrite Hd in Hv. by injection Hv as <-.
Qed.
Definition re_ty (k : nat) : vtype := VType false k.
Definition re_B : builder := Builder (Typing ty_tag (fun ty => replicate (ty_tag ty) None) (fun _ => NScalar 0))
  (fun _ tys => re_ty (foldr Nat.max 0 (ty_tag <$> tys))) (fun o _ => re_ty (length o)) (fun _ _ => re_ty 1) (VType true 20)
  (fun _ _ _ => re_ty 0)
  (fun z => (encode_nat z, re_ty 0)) (fun z => (encode_nat z, re_ty 0)) (1, re_ty 0) (2, re_ty 1) (3, re_ty 0).
Lemma re_builder : builder_ok re_B.
Proof. constructor; done. Qed.

Definition re_o : oracles :=
  Oracles (fun h outs => (h, outs)) (discover re_B out_calls) (fun h roots => elements (fg_nodes h roots))
    (fun l => rev l) ex_nuts ex_ginputs 99.
Lemma re_contracts : contracts re_o.
Proof.
  constructor; cbn [o_canon o_finders o_order o_iter o_nuts o_ginputs re_o].
  - apply (ct_canon _ (ex_contracts [])).
  - intros h outs Hg Hr. exact (discover_contracts re_B out_calls h outs out_calls_ok Hg Hr).
  - apply (ct_order _ (ex_contracts [])).
  - apply (ct_iter _ (ex_contracts [])).
  - apply (ct_nuts _ (ex_contracts [])).
  - apply (ct_ginputs _ (ex_contracts [])).
Qed.

(** s ~ normal(1, 1), p ~ beta([a], 1), Y ~ binomial(5, p), Z ~ normal(s, 1), Y and Z observed;
    the parameter [a] is 3 (the constant 1) or 6 (s) *)
Definition re_h (a : vid) : heap :=
  let rng k ow := Var None (VType true 20) k ow in
  let sc s k ow := Var (Some s) (re_ty 0) k ow in
  Heap (list_to_map
    [(0, rng (KShared None) None); (1, Var None (re_ty 1) (KConst 0) None); (2, sc "dtype" (KConst 0) None);
     (3, sc "one" (KConst 1) None); (4, sc "n" (KConst 5) None);
     (5, rng KPlain (Some (0, 0))); (6, sc "s" KPlain (Some (0, 1)));
     (7, rng KPlain (Some (1, 0))); (8, sc "p" KPlain (Some (1, 1)));
     (9, rng KPlain (Some (2, 0))); (10, sc "Y" KPlain (Some (2, 1)));
     (11, rng KPlain (Some (3, 0))); (12, sc "Z" KPlain (Some (3, 1)));
     (13, sc "y" KPlain None); (14, sc "z" KPlain None)]%string)
   (list_to_map
    [(0, Node (ORV RV_normal) [0; 1; 2; 3; 3] [5; 6]); (1, Node (ORV RV_beta) [0; 1; 2; a; 3] [7; 8]);
     (2, Node (ORV RV_binomial) [0; 1; 2; 4; 8] [9; 10]); (3, Node (ORV RV_normal) [0; 1; 2; 6; 3] [11; 12])]).
Definition re_obs : dict nat nat := [(10, 13); (12, 14)].
Definition re_topo : list nid := [0; 1; 2; 3].

Lemma re_topo_ok a : a = 3 \/ a = 6 -> topo_order (re_h a) (dkeys re_obs) re_topo.
Proof. intros [-> | ->]; apply topo_check_spec; vm_compute; reflexivity. Qed.
Lemma re_topo_rv_ok a : a = 3 \/ a = 6 -> topo_order (re_h a) (rv_outputs (re_h a) re_topo) re_topo.
Proof. intros [-> | ->]; apply topo_check_spec; vm_compute; reflexivity. Qed.
Lemma re_model_ok a : a = 3 \/ a = 6 -> model_ok (re_h a) re_obs.
Proof. intros Ha. apply (model_check_ok _ _ _ (re_topo_ok a Ha)). destruct Ha as [-> | ->]; vm_compute; reflexivity. Qed.

Definition re_init (a : vid) := sampler_init re_o (re_h a) re_obs re_topo re_topo.
Definition re_i a : ir := (re_init a).1.1.1.
Definition re_outs a : list vid := (re_init a).1.1.2.
Definition re_inits a : list (vid * vid) := (re_init a).1.2.
Definition re_st0 a : state := (re_init a).2.
Definition re_st a : state :=
  match process_all (o_order re_o) (ir_obs (re_i a)) (re_st0 a) (re_outs a) with Ok st => st | Raise _ => re_st0 a end.
Lemma re_init_eq a : sampler_init re_o (re_h a) re_obs re_topo re_topo = (re_i a, re_outs a, re_inits a, re_st0 a).
Proof.
  unfold re_i, re_outs, re_inits, re_st0, re_init. by destruct (sampler_init re_o (re_h a) re_obs re_topo re_topo) as [[[? ?] ?] ?].
Qed.
Lemma re_loop_eq a : okP (process_all (o_order re_o) (ir_obs (re_i a)) (re_st0 a) (re_outs a)) (fun _ => True) ->
  process_all (o_order re_o) (ir_obs (re_i a)) (re_st0 a) (re_outs a) = Ok (re_st a).
Proof. unfold re_st. destruct (process_all (o_order re_o) (ir_obs (re_i a)) (re_st0 a) (re_outs a)); [reflexivity|intros []]. Qed.

(** evaluation of a joint log-density with integer terms *)
Section joint_eval.
  Context {D : Type} (base : op -> list D -> option (list D)) (cval : nat -> D) (ld : nat -> list D -> D -> Z).
  Context (h : heap) (rho : vid -> option D).
  Definition factor_eval (sigma : vid -> option D) (rv : vid) : option Z :=
    match owner h rv with
    | Some (n, 1) =>
        nd ← hn h n;
        match n_op nd with
        | ORV d => x ← sigma rv; xs ← mapM (eval base cval h (over sigma rho) 30) (tail (n_ins nd)); Some (ld d xs x)
        | _ => None
        end
    | _ => None
    end.
  Definition joint_eval (sigma : vid -> option D) (rvs : list vid) : option (list Z) := mapM (factor_eval sigma) rvs.
  Lemma factor_eval_sound sigma rv l : factor_eval sigma rv = Some l -> factor base cval (fun d xs x => IZR (ld d xs x)) h rho sigma rv (IZR l).
  Proof.
    unfold factor_eval. destruct (owner h rv) as [[n [|[|k]]]|] eqn:Ho; try done.
    destruct (hn h n) as [nd|] eqn:Hn; [|done]. cbn [mbind option_bind]. destruct (n_op nd) as [d| | | | |] eqn:Hop; try done.
    destruct (sigma rv) as [x|] eqn:Hx; [|done]. cbn [mbind option_bind].
    destruct (mapM (eval base cval h (over sigma rho) 30) (tail (n_ins nd))) as [xs|] eqn:Hm; [|done]. cbn [mbind option_bind]. intros [= <-].
    exists n, nd, d, xs, x. split_and!; try done. apply evals_list_Forall2. apply mapM_Some in Hm.
    eapply Forall2_impl; [exact Hm|]. intros v y. apply eval_sound.
  Qed.
  Lemma joint_eval_sound sigma rvs ls : joint_eval sigma rvs = Some ls ->
    joint base cval (fun d xs x => IZR (ld d xs x)) h rho sigma rvs (IZR (foldr Z.add 0%Z ls)).
  Proof.
    unfold joint_eval. intros Hm. apply mapM_Some in Hm. exists (IZR <$> ls). split.
    - apply Forall2_fmap_r. eapply Forall2_impl; [exact Hm|]. intros v y. apply factor_eval_sound.
    - clear. induction ls as [|a ls IH]; [reflexivity|]. cbn. rewrite plus_IZR, IH. reflexivity.
  Qed.
End joint_eval.
