(** Properties C01-C06, C08-C10, C46: construct_sampler (/repo/aemcmc/basic.py) and
    construct_ir_fgraph (/repo/aemcmc/rewriting.py).

    In every theorem [o] is the code construct_sampler calls outside the module
    (rewriting databases, finders, nuts.step, set iteration order), known only
    through [contracts o]; [h] is the heap with the caller's model, [obs] the
    observed variables with their values; [topo] and [topo_rv] are the topological
    orders used by io_toposort and by the cloning. *)
From Verif Require Import L_total E_scan.

(** the hypotheses shared by the theorems below hold for a model with three unobserved
    variables and one observed one, and an environment with a finder and NUTS *)
Example C01_hypotheses_met :
  contracts (ex_o [0; 2]) /\ model_ok ex_h ex_obs /\ topo_order ex_h (dkeys ex_obs) ex_topo /\
  topo_order ex_h (rv_outputs ex_h ex_topo) ex_topo.
Proof.
  split_and!; [apply ex_contracts|apply ex_model_ok|apply ex_topo_ok|apply ex_topo_rv_ok].
Qed.

(** ** C01 *)
Theorem C01_one_step_per_unobserved_variable o h obs topo topo_rv s :
  contracts o -> model_ok h obs -> topo_order h (dkeys obs) topo -> topo_order h (rv_outputs h topo) topo_rv ->
  construct_sampler o h obs topo topo_rv = Ok s ->
  NoDup (dkeys (s_steps s)) /\
  forall rv, rv ∈ dkeys (s_steps s) <-> model_rv h obs rv /\ rv ∉ dkeys obs.
Proof. intros Hc Hm Ht Htr. exact (steps_keys o h obs topo topo_rv Hc Hm Ht Htr s). Qed.
Print Assumptions C01_one_step_per_unobserved_variable.

(** construct_sampler returns whenever observed values have the type of their variable,
    discovered steps have the type of their variable, and the NUTS step reads at least
    as many shared variables as it updates. *)
Theorem C01_construct_sampler_returns o h obs topo topo_rv :
  contracts o -> model_ok h obs -> topo_order h (dkeys obs) topo -> topo_order h (rv_outputs h topo) topo_rv ->
  (forall k v, (k, v) ∈ obs -> ty_of h k = ty_of h v) ->
  (forall i outs inits st0 rv f, sampler_init o h obs topo topo_rv = (i, outs, inits, st0) ->
     rv ∈ outs -> chosen (st_found st0) rv = Some f -> ty_of (st_heap st0) (f_step f) = ty_of (st_heap st0) rv) ->
  nuts_pairable o ->
  exists s, construct_sampler o h obs topo topo_rv = Ok s.
Proof. intros Hc Hm Ht Htr. exact (construct_total o h obs topo topo_rv Hc Hm Ht Htr). Qed.
Print Assumptions C01_construct_sampler_returns.

Example C01_returns_hypotheses_met :
  (forall k v, (k, v) ∈ ex_obs -> ty_of ex_h k = ty_of ex_h v) /\
  (forall i outs inits st0 rv f, sampler_init (ex_o [0; 2]) ex_h ex_obs ex_topo ex_topo = (i, outs, inits, st0) ->
     rv ∈ outs -> chosen (st_found st0) rv = Some f -> ty_of (st_heap st0) (f_step f) = ty_of (st_heap st0) rv) /\
  nuts_pairable (ex_o [0; 2]).
Proof.
  split_and!; [|apply types_check_spec; vm_compute; reflexivity|apply ex_pairable].
  intros k v Hkv. apply elem_of_list_singleton in Hkv. injection Hkv as -> ->. vm_compute. reflexivity.
Qed.

Example C01_example :
  exists s, construct_sampler (ex_o [0; 2]) ex_h ex_obs ex_topo ex_topo = Ok s /\ dkeys (s_steps s) = [4; 6; 8].
Proof. apply okP_ex. vm_compute. done. Qed.

(** ** C02 *)
Theorem C02_placeholders o h obs topo topo_rv s :
  contracts o -> model_ok h obs -> topo_order h (dkeys obs) topo -> topo_order h (rv_outputs h topo) topo_rv ->
  construct_sampler o h obs topo topo_rv = Ok s ->
  NoDup (dkeys (s_init s)) /\
  (forall rv, rv ∈ dkeys (s_init s) <-> model_rv h obs rv /\ rv ∉ dkeys obs) /\
  NoDup (dvalues (s_init s)) /\
  (forall rv w, dget (s_init s) rv = Some w ->
     hv h w = None /\
     exists x, hv h rv = Some x /\ hv (s_heap s) w = Some (Var (v_name x) (v_ty x) KPlain None)).
Proof. intros Hc Hm Ht Htr. exact (init_keys o h obs topo topo_rv Hc Hm Ht Htr s). Qed.
Print Assumptions C02_placeholders.

Example C02_example :
  exists s, construct_sampler (ex_o [0; 2]) ex_h ex_obs ex_topo ex_topo = Ok s /\
    s_init s = [(4, 28); (6, 29); (8, 30)] /\ name_of (s_heap s) 29 = Some "tau"%string.
Proof. apply okP_ex. vm_compute. done. Qed.

(** ** C03 and C46 *)

(** A step obtained from a discovered sampler depends neither on a random variable of
    the caller's model nor on its clone in the measurable IR ... *)
Theorem C03_steps_do_not_mention_the_model o h obs topo topo_rv s rv f w u :
  contracts o -> model_ok h obs -> topo_order h (dkeys obs) topo -> topo_order h (rv_outputs h topo) topo_rv ->
  construct_sampler o h obs topo topo_rv = Ok s ->
  sampler_for o h obs topo topo_rv rv = Some f -> dget (s_steps s) rv = Some w ->
  reachable (s_heap s) [w] u ->
  ~ model_rv h obs u /\ u ∉ ir_outputs (construct_ir_fgraph (o_canon o) h obs topo topo_rv).
Proof.
  intros Hc Hm Ht Htr Hs Hf Hw Hu.
  destruct (steps_clean o h obs topo topo_rv Hc Hm Ht Htr s rv f w u Hs Hf Hw Hu) as (? & ? & _). done.
Qed.
Print Assumptions C03_steps_do_not_mention_the_model.

(** ... nor on a SubsumingElemwise. *)
Theorem C46_steps_have_no_subsumption o h obs topo topo_rv s rv f w u n j :
  contracts o -> model_ok h obs -> topo_order h (dkeys obs) topo -> topo_order h (rv_outputs h topo) topo_rv ->
  construct_sampler o h obs topo topo_rv = Ok s ->
  sampler_for o h obs topo topo_rv rv = Some f -> dget (s_steps s) rv = Some w ->
  reachable (s_heap s) [w] u -> owner (s_heap s) u = Some (n, j) -> ~ is_subsume (s_heap s) n.
Proof.
  intros Hc Hm Ht Htr Hs Hf Hw Hu.
  destruct (steps_clean o h obs topo topo_rv Hc Hm Ht Htr s rv f w u Hs Hf Hw Hu) as (_ & _ & H). exact (H n j).
Qed.
Print Assumptions C46_steps_have_no_subsumption.

Example C03_example :
  exists s, construct_sampler (ex_o [0; 2]) ex_h ex_obs ex_topo ex_topo = Ok s /\
    sampler_for (ex_o [0; 2]) ex_h ex_obs ex_topo ex_topo 8 = Some (Found 2 27 [(25, 26)]) /\
    dget (s_steps s) 8 = Some 27 /\
    elements (reach_set (s_heap s) [27]) = [27; 25; 29; 24; 12; 22; 30].
Proof. apply okP_ex. vm_compute. done. Qed.

(** ** C04 *)
Theorem C04_steps_acyclic o h obs topo topo_rv s :
  contracts o -> model_ok h obs -> topo_order h (dkeys obs) topo -> topo_order h (rv_outputs h topo) topo_rv ->
  construct_sampler o h obs topo topo_rv = Ok s ->
  forall w, ~ tc (input_of (s_heap s)) w w.
Proof. intros Hc Hm Ht Htr Hs. exact (steps_acyclic o h obs topo topo_rv Hc Hm Ht Htr s Hs). Qed.
Print Assumptions C04_steps_acyclic.

(** the step of nu really depends on the step of mu *)
Example C04_example :
  exists s, construct_sampler (ex_o [0; 2]) ex_h ex_obs ex_topo ex_topo = Ok s /\
    dget (s_steps s) 4 = Some 24 /\ dget (s_steps s) 8 = Some 27 /\ parents (s_heap s) 27 = [25; 24; 29; 12].
Proof. apply okP_ex. vm_compute. done. Qed.

(** ** C05 *)

(** The full claim is: for every discovered sampler, the value of the returned step is
    the one of the systematic scan.  It is false: the samplers' graphs are rewritten in
    place, so a node shared by two samplers keeps the values substituted for the first
    one, and the second step does not see the new value of the first variable. *)
Theorem C05_systematic_scan_refuted :
  exists o h obs topo topo_rv s i outs inits st0 (base : op -> list tm -> option (list tm)) cval rho sigma sigma' ups',
    contracts o /\ model_ok h obs /\ topo_order h (dkeys obs) topo /\ topo_order h (rv_outputs h topo) topo_rv /\
    construct_sampler o h obs topo topo_rv = Ok s /\
    sampler_init o h obs topo topo_rv = (i, outs, inits, st0) /\
    leaf_env (st_heap st0) rho /\
    (forall u, u ∉ outs -> sigma u = None) /\
    (forall k w, (k, w) ∈ inits ++ ir_obs i -> exists x, sigma k = Some x /\ evals base cval (st_heap st0) rho w x) /\
    scan base cval (st_heap st0) rho (ir_obs i) (st_found st0) outs (fun _ => None) sigma (fun _ => None) sigma' ups' /\
    exists rv w f x y, sampler_for o h obs topo topo_rv rv = Some f /\ dget (s_steps s) rv = Some w /\
      sigma' (memo_get (ir_memo i) rv) = Some x /\ evals base cval (s_heap s) rho w y /\ x <> y.
Proof.
  exists shared_o, ex_h, ex_obs, ex_topo, ex_topo, (the_sampler shared_o), (init_ir shared_o), (init_outs shared_o),
    (init_vals shared_o), (init_st shared_o), tm_base, C, (env_of [25; 26; 27; 12]).
  pose (sg0 := sigma_of [(14, L 25); (16, L 26); (18, L 27); (21, L 12)]).
  pose (x1 := T 201 0 [T 105 0 [L 25; L 26]]).
  pose (x2 := T 202 0 [T 105 0 [x1; L 26]]).
  exists sg0, (upd (upd sg0 14 x1) 16 x2), (fun _ => None).
  assert (Hm : okP (construct_sampler shared_o ex_h ex_obs ex_topo ex_topo) (fun _ => True)) by (vm_compute; done).
  assert (Houts : init_outs shared_o = [14; 16; 18; 21]) by (vm_compute; reflexivity).
  assert (Hvals : init_vals shared_o ++ ir_obs (init_ir shared_o) = [(14, 25); (16, 26); (18, 27); (21, 12)])
    by (vm_compute; reflexivity).
  split; [apply shared_contracts|]. split; [apply ex_model_ok|]. split; [apply ex_topo_ok|]. split; [apply ex_topo_rv_ok|].
  split; [by apply the_sampler_ok|]. split; [apply the_init_eq|]. split; [apply env_of_leaf; vm_compute; reflexivity|].
  rewrite Houts, Hvals. split_and!.
  - intros u Hu. by apply sigma_of_out.
  - intros k w Hkw.
    repeat (apply elem_of_cons in Hkw as [Hkw|Hkw];
      [injection Hkw as -> ->; eexists; split; [reflexivity|]; apply ev_given; reflexivity|]).
    inversion Hkw.
  - eapply scan_step with (f := Found 1 23 []) (n := 11) (i := 0) (x := x1) (ys := []);
      [apply (bool_decide_eq_true_1 _); vm_compute; reflexivity|vm_compute; reflexivity|vm_compute; reflexivity|reflexivity| |constructor|].
    { apply (eval_sound _ _ _ _ 30). vm_compute. reflexivity. }
    eapply scan_step with (f := Found 2 24 []) (n := 12) (i := 0) (x := x2) (ys := []);
      [apply (bool_decide_eq_true_1 _); vm_compute; reflexivity|vm_compute; reflexivity|vm_compute; reflexivity|reflexivity| |constructor|].
    { apply (eval_sound _ _ _ _ 30). vm_compute. reflexivity. }
    apply scan_skip; [right; vm_compute; reflexivity|]. apply scan_skip; [left; apply (bool_decide_eq_true_1 _); vm_compute; reflexivity|]. apply scan_nil.
  - exists 6, 24, (Found 2 24 []), x2, (T 202 0 [T 105 0 [L 25; L 26]]).
    split; [vm_compute; reflexivity|]. split; [vm_compute; reflexivity|]. split; [vm_compute; reflexivity|].
    split; [|unfold x2, x1; congruence]. apply (eval_sound _ _ _ _ 30). vm_compute. reflexivity.
Qed.
Print Assumptions C05_systematic_scan_refuted.

(** It holds when the samplers do not interfere: nodes of one sampler that read model
    variables do not occur in the graph of another (two samplers that are outputs of one
    kernel application are updated jointly), nor in the graph of an observed value.
    [scan] is the systematic scan written as an independent big-step semantics over the
    discovered samplers, on the heap before any rewriting. *)
Theorem C05_systematic_scan_partial o h obs topo topo_rv s {D} (base : op -> list D -> option (list D)) cval
    (rho : vid -> option D) i outs inits st0 :
  contracts o -> model_ok h obs -> topo_order h (dkeys obs) topo -> topo_order h (rv_outputs h topo) topo_rv ->
  construct_sampler o h obs topo topo_rv = Ok s ->
  sampler_init o h obs topo topo_rv = (i, outs, inits, st0) ->
  leaf_env (st_heap st0) rho ->
  (forall r1 r2 f g, r1 ∈ outs -> r2 ∈ outs -> r1 ∉ dkeys (ir_obs i) -> r2 ∉ dkeys (ir_obs i) -> r1 <> r2 ->
    chosen (st_found st0) r1 = Some f -> chosen (st_found st0) r2 = Some g -> separated (st_heap st0) outs f g) ->
  (forall rv g x v m j, rv ∈ outs -> rv ∉ dkeys (ir_obs i) -> chosen (st_found st0) rv = Some g ->
    x ∈ dvalues obs -> cut_reachable (st_heap st0) outs (roots_of g) v -> v ∉ outs ->
    owner (st_heap st0) v = Some (m, j) -> reads_model (st_heap st0) outs m -> ~ node_reachable h [x] m) ->
  forall sigma sigma' ups',
  (forall u, u ∉ outs -> sigma u = None) ->
  (forall k w, (k, w) ∈ inits ++ ir_obs i -> exists x, sigma k = Some x /\ evals base cval (st_heap st0) rho w x) ->
  scan base cval (st_heap st0) rho (ir_obs i) (st_found st0) outs (fun _ => None) sigma (fun _ => None) sigma' ups' ->
  (forall rv w f, sampler_for o h obs topo topo_rv rv = Some f -> dget (s_steps s) rv = Some w ->
     exists x, sigma' (memo_get (ir_memo i) rv) = Some x /\ evals base cval (s_heap s) rho w x) /\
  (forall k y, ups' k = Some y ->
     (exists u, dget (s_updates s) k = Some u /\ evals base cval (s_heap s) rho u y) \/
     (exists n nd, hn (s_heap s) n = Some nd /\ n_op nd = OOther (o_kernel o) /\ k ∈ n_ins nd)).
Proof.
  intros Hc Hm Ht Htr. exact (scan_steps o h obs topo topo_rv Hc Hm Ht Htr s base cval rho i outs inits st0).
Qed.
Print Assumptions C05_systematic_scan_partial.

(** all its hypotheses hold in the example: mu and nu have samplers *)
Definition exi := init_ir (ex_o [0; 2]).
Definition exst := init_st (ex_o [0; 2]).
Lemma ex_chosen r f :
  chosen [(14, [Found 0 24 [(22, 23)]]); (18, [Found 2 27 [(25, 26)]])] r = Some f ->
  (r = 14 /\ f = Found 0 24 [(22, 23)]) \/ (r = 18 /\ f = Found 2 27 [(25, 26)]).
Proof.
  unfold chosen. cbn [dget]. case_decide as H1; [|case_decide as H2]; cbn; intros He; [left|right|done]; split; congruence.
Qed.
Example C05_example :
  let outs := init_outs (ex_o [0; 2]) in
  let rho := env_of [28; 29; 30; 12; 22; 25] in
  let sigma := sigma_of [(14, L 28); (16, L 29); (18, L 30); (21, L 12)] in
  exists sigma' ups',
    okP (construct_sampler (ex_o [0; 2]) ex_h ex_obs ex_topo ex_topo) (fun _ => True) /\
    sampler_init (ex_o [0; 2]) ex_h ex_obs ex_topo ex_topo = (exi, outs, init_vals (ex_o [0; 2]), exst) /\
    leaf_env (st_heap exst) rho /\
    (forall r1 r2 f g, r1 ∈ outs -> r2 ∈ outs -> r1 ∉ dkeys (ir_obs exi) -> r2 ∉ dkeys (ir_obs exi) -> r1 <> r2 ->
      chosen (st_found exst) r1 = Some f -> chosen (st_found exst) r2 = Some g -> separated (st_heap exst) outs f g) /\
    (forall rv g x v m j, rv ∈ outs -> rv ∉ dkeys (ir_obs exi) -> chosen (st_found exst) rv = Some g ->
      x ∈ dvalues ex_obs -> cut_reachable (st_heap exst) outs (roots_of g) v -> v ∉ outs ->
      owner (st_heap exst) v = Some (m, j) -> reads_model (st_heap exst) outs m -> ~ node_reachable ex_h [x] m) /\
    (forall u, u ∉ outs -> sigma u = None) /\
    (forall k w, (k, w) ∈ init_vals (ex_o [0; 2]) ++ ir_obs exi ->
      exists x, sigma k = Some x /\ evals tm_base C (st_heap exst) rho w x) /\
    scan tm_base C (st_heap exst) rho (ir_obs exi) (st_found exst) outs (fun _ => None) sigma (fun _ => None) sigma' ups' /\
    sigma' (memo_get (ir_memo exi) 8) = Some (T 212 1 [L 25; T 210 1 [L 22; L 29; L 30; L 12]; L 29; L 12]).
Proof.
  intros outs rho sigma.
  pose (x1 := T 210 1 [L 22; L 29; L 30; L 12]).
  pose (x2 := T 212 1 [L 25; x1; L 29; L 12]).
  eexists (upd (upd sigma 14 x1) 18 x2), _.
  assert (Houts : outs = [14; 16; 18; 21]) by (vm_compute; reflexivity).
  assert (Hvals : init_vals (ex_o [0; 2]) ++ ir_obs exi = [(14, 28); (16, 29); (18, 30); (21, 12)])
    by (vm_compute; reflexivity).
  split; [vm_compute; done|]. split; [apply the_init_eq|]. split; [apply env_of_leaf; vm_compute; reflexivity|].
  rewrite Houts, Hvals. split_and!.
  - assert (Hfnd : st_found exst = [(14, [Found 0 24 [(22, 23)]]); (18, [Found 2 27 [(25, 26)]])]) by (vm_compute; reflexivity).
    rewrite Hfnd. intros r1 r2 f g H1 H2 _ _ Hne C1 C2.
    destruct (ex_chosen r1 f C1) as [[-> ->]|[-> ->]], (ex_chosen r2 g C2) as [[-> ->]|[-> ->]];
      [destruct (Hne eq_refl)| | |destruct (Hne eq_refl)]; apply sep_check_spec; vm_compute; reflexivity.
  - intros rv g x v m j _ _ _ Hx _ _ _ _ (u & k & (r & Hr & Hru) & Ho).
    apply elem_of_list_singleton in Hx as ->. apply elem_of_list_singleton in Hr as ->.
    apply rtc_inv in Hru as [<-|(w & Hw & _)].
    + vm_compute in Ho. done.
    + unfold input_of in Hw. vm_compute in Hw. by apply elem_of_nil in Hw.
  - intros u Hu. by apply sigma_of_out.
  - intros k w Hkw.
    repeat (apply elem_of_cons in Hkw as [Hkw|Hkw];
      [injection Hkw as -> ->; eexists; split; [reflexivity|]; apply ev_given; reflexivity|]).
    inversion Hkw.
  - eapply scan_step with (f := Found 0 24 [(22, 23)]) (n := 10) (i := 1) (x := x1) (ys := [T 210 0 [L 22; L 29; L 30; L 12]]);
      [apply (bool_decide_eq_true_1 _); vm_compute; reflexivity|vm_compute; reflexivity|vm_compute; reflexivity|reflexivity| | |].
    { apply (eval_sound _ _ _ _ 30). vm_compute. reflexivity. }
    { constructor; [|constructor]. apply (eval_sound _ _ _ _ 30). vm_compute. reflexivity. }
    apply scan_skip; [right; vm_compute; reflexivity|].
    eapply scan_step with (f := Found 2 27 [(25, 26)]) (n := 11) (i := 1) (x := x2) (ys := [T 212 0 [L 25; x1; L 29; L 12]]);
      [apply (bool_decide_eq_true_1 _); vm_compute; reflexivity|vm_compute; reflexivity|vm_compute; reflexivity|reflexivity| | |].
    { apply (eval_sound _ _ _ _ 30). vm_compute. reflexivity. }
    { constructor; [|constructor]. apply (eval_sound _ _ _ _ 30). vm_compute. reflexivity. }
    apply scan_skip; [left; apply (bool_decide_eq_true_1 _); vm_compute; reflexivity|]. apply scan_nil.
  - vm_compute. done.
Qed.

(** ** C06 *)
Theorem C06_nuts_exactly_for_what_is_left o h obs topo topo_rv s :
  contracts o -> model_ok h obs -> topo_order h (dkeys obs) topo -> topo_order h (rv_outputs h topo) topo_rv ->
  construct_sampler o h obs topo topo_rv = Ok s ->
  (s_parameters s = [] <->
     forall rv, model_rv h obs rv -> rv ∉ dkeys obs -> sampler_for o h obs topo topo_rv rv <> None) /\
  (s_parameters s <> [] -> exists n nd p,
     hn (s_heap s) n = Some nd /\ n_op nd = OOther (o_kernel o) /\ s_parameters s = [(o_kernel o, p)] /\
     (forall rv w, dget (s_steps s) rv = Some w ->
        (exists j, owner (s_heap s) w = Some (n, j)) <-> sampler_for o h obs topo topo_rv rv = None) /\
     (forall r1 r2 w, dget (s_steps s) r1 = Some w -> dget (s_steps s) r2 = Some w ->
        sampler_for o h obs topo topo_rv r1 = None -> sampler_for o h obs topo topo_rv r2 = None -> r1 = r2)).
Proof. intros Hc Hm Ht Htr. exact (nuts_left o h obs topo topo_rv Hc Hm Ht Htr s). Qed.
Print Assumptions C06_nuts_exactly_for_what_is_left.

(** without a finder everything goes to NUTS, with enough finders nothing does *)
Example C06_example :
  (exists s, construct_sampler (ex_o []) ex_h ex_obs ex_topo ex_topo = Ok s /\ s_parameters s <> [] /\
     map (fun p => fst <$> owner (s_heap s) p.2) (s_steps s) = [Some 11; Some 11; Some 11]) /\
  (exists s, construct_sampler (ex_o [0; 1; 2]) ex_h ex_obs ex_topo ex_topo = Ok s /\ s_parameters s = []).
Proof. split; apply okP_ex; vm_compute; done. Qed.

(** ** C08 *)
Theorem C08_model_not_modified o h obs topo topo_rv s :
  contracts o -> model_ok h obs -> topo_order h (dkeys obs) topo -> topo_order h (rv_outputs h topo) topo_rv ->
  construct_sampler o h obs topo topo_rv = Ok s ->
  (forall v x, hv h v = Some x -> hv (s_heap s) v = Some x) /\
  (forall n nd, hn h n = Some nd -> hn (s_heap s) n = Some nd).
Proof. intros Hc Hm Ht Htr. exact (model_kept o h obs topo topo_rv Hc Hm Ht Htr s). Qed.
Print Assumptions C08_model_not_modified.

Theorem C08_construct_ir_fgraph_model_not_modified o h obs topo topo_rv :
  contracts o -> model_ok h obs -> topo_order h (dkeys obs) topo -> topo_order h (rv_outputs h topo) topo_rv ->
  let h' := ir_heap (construct_ir_fgraph (o_canon o) h obs topo topo_rv) in
  (forall v x, hv h v = Some x -> hv h' v = Some x) /\ (forall n nd, hn h n = Some nd -> hn h' n = Some nd).
Proof. intros Hc Hm Ht Htr. exact (ir_kept o h obs topo topo_rv Hc Hm Ht Htr). Qed.
Print Assumptions C08_construct_ir_fgraph_model_not_modified.

(** the result lives in the same heap, next to the model: 25 new variables *)
Example C08_example :
  exists s, construct_sampler (ex_o [0; 2]) ex_h ex_obs ex_topo ex_topo = Ok s /\
    size (h_vars ex_h) = 13 /\ size (h_vars (s_heap s)) = 38.
Proof. apply okP_ex. vm_compute. done. Qed.

(** ** C09 *)

(** Whatever was discovered besides the last sampler of each variable has no influence
    on the result. *)
Theorem C09_unchosen_samplers_have_no_influence o o' h obs topo topo_rv :
  contracts o -> model_ok h obs -> topo_order h (dkeys obs) topo -> topo_order h (rv_outputs h topo) topo_rv ->
  same_choices o o' ->
  construct_sampler o' h obs topo topo_rv = construct_sampler o h obs topo topo_rv.
Proof. exact (construct_same o o' h obs topo topo_rv). Qed.
Print Assumptions C09_unchosen_samplers_have_no_influence.

(** The step of a variable is the variable of the sampler discovered last (unless this
    is itself a model variable or a SubsumingElemwise, which are substituted). *)
Theorem C09_step_is_the_last_discovered o h obs topo topo_rv s rv f i outs inits st0 :
  contracts o -> model_ok h obs -> topo_order h (dkeys obs) topo -> topo_order h (rv_outputs h topo) topo_rv ->
  construct_sampler o h obs topo topo_rv = Ok s ->
  sampler_init o h obs topo topo_rv = (i, outs, inits, st0) ->
  model_rv h obs rv -> rv ∉ dkeys obs -> sampler_for o h obs topo topo_rv rv = Some f ->
  f_step f ∉ outs ->
  (forall n j, owner (st_heap st0) (f_step f) = Some (n, j) -> ~ is_subsume (st_heap st0) n) ->
  dget (s_steps s) rv = Some (f_step f).
Proof. intros Hc Hm Ht Htr. exact (step_is_last o h obs topo topo_rv Hc Hm Ht Htr s rv f i outs inits st0). Qed.
Print Assumptions C09_step_is_the_last_discovered.

Definition ex_two (h : heap) (outs : list vid) : heap * dict nat (list found) :=
  let '(h1, fnd) := ex_find [0; 2] h outs in
  (h1, map (fun p => (p.1, map (fun f => Found 77 p.1 []) p.2 ++ p.2)) fnd).
Definition ex_o2 : oracles :=
  Oracles (o_canon (ex_o [0; 2])) ex_two (o_order (ex_o [0; 2])) (o_iter (ex_o [0; 2])) ex_nuts ex_ginputs 99.

Example C09_example :
  same_choices (ex_o [0; 2]) ex_o2 /\
  (exists s, construct_sampler ex_o2 ex_h ex_obs ex_topo ex_topo = Ok s /\
     dget (o_finders ex_o2 (ir_heap (construct_ir_fgraph (o_canon ex_o2) ex_h ex_obs ex_topo ex_topo)) [14; 16; 18; 21]).2 14
       = Some [Found 77 14 []; Found 0 24 [(22, 23)]] /\
     sampler_for ex_o2 ex_h ex_obs ex_topo ex_topo 4 = Some (Found 0 24 [(22, 23)]) /\
     dget (s_steps s) 4 = Some 24).
Proof.
  split.
  - constructor; try done; cbn [o_finders ex_o ex_o2]; intros h outs; unfold ex_two;
      destruct (ex_find [0; 2] h outs) as [h1 fnd]; [done|]. cbn [fst snd]. intros rv.
    unfold chosen. induction fnd as [|[k fs] fnd IH]; [done|]. cbn. case_decide; [|done]. cbn.
    rewrite last_app. destruct (last fs) eqn:Hl; [done|].
    destruct fs as [|f fs]; [done|]. exfalso. by apply last_None in Hl.
  - apply okP_ex. vm_compute. done.
Qed.

(** ** C10 *)
Theorem C10_updates_of_chosen_steps o h obs topo topo_rv s :
  contracts o -> model_ok h obs -> topo_order h (dkeys obs) topo -> topo_order h (rv_outputs h topo) topo_rv ->
  construct_sampler o h obs topo topo_rv = Ok s ->
  (forall rv f k, model_rv h obs rv -> rv ∉ dkeys obs -> sampler_for o h obs topo topo_rv rv = Some f ->
     k ∈ dkeys (f_updates f) -> k ∈ dkeys (s_updates s)) /\
  (forall k, k ∈ dkeys (s_updates s) ->
     (exists rv f, model_rv h obs rv /\ rv ∉ dkeys obs /\ sampler_for o h obs topo topo_rv rv = Some f /\
        k ∈ dkeys (f_updates f)) \/
     (exists rv w n j j' u, dget (s_steps s) rv = Some w /\ sampler_for o h obs topo topo_rv rv = None /\
        owner (s_heap s) w = Some (n, j) /\ dget (s_updates s) k = Some u /\ owner (s_heap s) u = Some (n, j'))).
Proof. intros Hc Hm Ht Htr. exact (updates_keys o h obs topo topo_rv Hc Hm Ht Htr s). Qed.
Print Assumptions C10_updates_of_chosen_steps.

Example C10_example :
  exists s, construct_sampler (ex_o [0; 2]) ex_h ex_obs ex_topo ex_topo = Ok s /\
    s_updates s = [(22, 23); (25, 26); (31, 37)].
Proof. apply okP_ex. vm_compute. done. Qed.
