(** Property C57: one call of the sampler returned by construct_sampler leaves the posterior of
    the model invariant, provided each of its steps leaves the conditional law of its variables
    invariant.

    [bs] are the discovered samplers as transition kernels, [N] is the NUTS step for the variables
    that are left; [mu] is the reference measure of all the variables and [w] the posterior
    density up to a constant (by C56 the copy of the model has the same density as the model). *)
From Coq Require Import Reals Lra FunctionalExtensionality.
From Verif Require Import L_sweep E_sweep.

(** [ok] says which values of the variables and states of the generators occur.  [out x e] are
    the values of the returned steps at the current values [x] and the states [e] of the generators; averaged over the states of the generators and over current values drawn
    from the posterior, every test function has the average it has under the posterior. *)
Theorem C57_sampler_keeps_the_posterior_partial o h obs topo topo_rv s {D}
    (base : op -> list D -> option (list D)) cval i outs inits st0 rho data ok bs N :
  contracts o -> model_ok h obs -> topo_order h (dkeys obs) topo -> topo_order h (rv_outputs h topo) topo_rv ->
  construct_sampler o h obs topo topo_rv = Ok s ->
  sampler_init o h obs topo topo_rv = (i, outs, inits, st0) ->
  (* the samplers do not interfere (see C05) *)
  (forall r1 r2 f g, r1 ∈ outs -> r2 ∈ outs -> r1 ∉ dkeys (ir_obs i) -> r2 ∉ dkeys (ir_obs i) -> r1 <> r2 ->
    chosen (st_found st0) r1 = Some f -> chosen (st_found st0) r2 = Some g -> separated (st_heap st0) outs f g) ->
  (forall rv g x v m j, rv ∈ outs -> rv ∉ dkeys (ir_obs i) -> chosen (st_found st0) rv = Some g ->
    x ∈ dvalues obs -> cut_reachable (st_heap st0) outs (roots_of g) v -> v ∉ outs ->
    owner (st_heap st0) v = Some (m, j) -> reads_model (st_heap st0) outs m -> ~ node_reachable h [x] m) ->
  (* what the discovered samplers compute *)
  discovered base cval (st_heap st0) (ir_obs i) (st_found st0) outs inits rho data ok bs N ->
  (* what the NUTS step computes from the new values of the other variables *)
  (forall x z e env, ok x e -> ok z e -> inputs (s_heap s) inits (bs ++ [N]) rho x e env ->
    (forall rv v, dget (s_steps s) rv = Some v -> sampler_for o h obs topo topo_rv rv <> None ->
       evals base cval (s_heap s) env v (z (memo_get (ir_memo i) rv))) ->
    (forall u, u ∈ b_vars N -> z u = x u) ->
    forall rv v, dget (s_steps s) rv = Some v -> sampler_for o h obs topo topo_rv rv = None ->
      evals base cval (s_heap s) env v (b_step N z e (memo_get (ir_memo i) rv))) ->
  forall (test : ((vid -> D) -> R) -> Prop) (mu : law (vid -> D)) (w : (vid -> D) -> R),
  (forall B, B ∈ bs ++ [N] -> targets test mu w B) ->
  exists out : (vid -> D) -> (vid -> D) -> vid -> D,
    (forall x e env, ok x e -> inputs (s_heap s) inits (bs ++ [N]) rho x e env ->
       forall rv v, dget (s_steps s) rv = Some v ->
         evals base cval (s_heap s) env v (out x e (memo_get (ir_memo i) rv))) /\
    (forall x e u, (forall B, B ∈ bs ++ [N] -> u ∉ b_vars B) -> out x e u = x u) /\
    forall e g, test g ->
      mu (fun x => w x * draw_gens (bs ++ [N]) e (fun e' => g (out x e')))%R = mu (fun x => w x * g x)%R.
Proof.
  intros H1 H2 H3 H4 H5 H6 H7 H8 H9 H10 test mu w.
  exact (sampler_keeps o h obs topo topo_rv H1 H2 H3 H4 s base cval i outs inits st0 rho data ok bs N H5 H6 H7 H8 H9 H10 test mu w).
Qed.
Print Assumptions C57_sampler_keeps_the_posterior_partial.

(** A draw from the full conditional leaves it invariant. *)
Theorem C57_exact_draws_keep_the_conditional {D} (test : ((vid -> D) -> R) -> Prop) w (B : step_block D) :
  (forall a c, b_own B (fun y => a y * c)%R = (b_own B a * c)%R) ->
  (forall x, b_own B (fun y => w (put (b_vars B) y x)) <> 0%R) ->
  draws_conditional test w B -> keeps_conditional test w B.
Proof. apply draws_keeps. Qed.
Print Assumptions C57_exact_draws_keep_the_conditional.

(** ** An example: mu and nu have discovered samplers, tau is left to NUTS *)
Definition sw_o : oracles := ex_o [0; 2].
Definition sw_s : sampler := the_sampler sw_o.
Definition sw_rho (u : vid) : option nat :=
  if decide (u = 12) then Some 1 else if decide (u = 32) then Some 0 else if decide (u = 33) then Some 0 else None.

Lemma sw_found : st_found (init_st sw_o) = [(14, [Found 0 24 [(22, 23)]]); (18, [Found 2 27 [(25, 26)]])].
Proof. vm_compute. reflexivity. Qed.
Lemma sw_outs : init_outs sw_o = [14; 16; 18; 21].
Proof. vm_compute. reflexivity. Qed.
Lemma sw_obs : ir_obs (init_ir sw_o) = [(21, 12)].
Proof. vm_compute. reflexivity. Qed.
Lemma sw_inits : init_vals sw_o = [(14, 28); (16, 29); (18, 30)].
Proof. vm_compute. reflexivity. Qed.
Lemma sw_steps : s_steps sw_s = [(4, 24); (6, 36); (8, 27)].
Proof. vm_compute. reflexivity. Qed.
Lemma sw_chosen r f :
  chosen [(14, [Found 0 24 [(22, 23)]]); (18, [Found 2 27 [(25, 26)]])] r = Some f ->
  (r = 14 /\ f = Found 0 24 [(22, 23)]) \/ (r = 18 /\ f = Found 2 27 [(25, 26)]).
Proof.
  unfold chosen. cbn [dget]. case_decide as H1; [|case_decide as H2]; cbn; intros He; [left|right|done]; split; congruence.
Qed.
Definition sw_h0 := st_heap (init_st sw_o).
Definition sw_hs := s_heap sw_s.

Section sw_inputs.
  Context (h : heap) (x e : vid -> nat) (env : vid -> option nat).
  Hypothesis Hin : inputs h [(14, 28); (16, 29); (18, 30)] ([B14; B18] ++ [B16]) sw_rho x e env.
  Lemma sw28 : env 28 = Some (x 14). Proof using Hin. apply (in_init _ _ _ _ _ _ _ Hin). by left. Qed.
  Lemma sw29 : env 29 = Some (x 16). Proof using Hin. apply (in_init _ _ _ _ _ _ _ Hin). right. by left. Qed.
  Lemma sw30 : env 30 = Some (x 18). Proof using Hin. apply (in_init _ _ _ _ _ _ _ Hin). right. right. by left. Qed.
  Lemma sw22 : is_Some (hv h 22) -> env 22 = Some (e 22).
  Proof using Hin. apply (in_gens _ _ _ _ _ _ _ Hin B14); by left. Qed.
  Lemma sw25 : is_Some (hv h 25) -> env 25 = Some (e 25).
  Proof using Hin. apply (in_gens _ _ _ _ _ _ _ Hin B18); [right|]; by left. Qed.
  Lemma sw31 : is_Some (hv h 31) -> env 31 = Some (e 31).
  Proof using Hin. apply (in_gens _ _ _ _ _ _ _ Hin B16); [right; right|]; by left. Qed.
  Lemma sw_other u : is_Some (hv h u) -> u ∉ [28; 29; 30; 22; 25; 31] -> env u = sw_rho u.
  Proof using Hin.
    intros Hu Hn. apply (in_rest _ _ _ _ _ _ _ Hin u Hu).
    - intros Hd. apply Hn. change (u ∈ [28; 29; 30]) in Hd. set_solver.
    - intros B HB. repeat (apply elem_of_cons in HB as [->|HB]); [| | |exact (False_ind _ (not_elem_of_nil _ HB))]; cbn; set_solver.
  Qed.
End sw_inputs.

Lemma is_some_bool {A} (o : option A) : (match o with Some _ => true | None => false end) = true -> is_Some o.
Proof. destruct o; [by eauto|done]. Qed.
Ltac there := apply is_some_bool; vm_compute; reflexivity.
Ltac each := repeat first [apply List.Forall2_nil | apply List.Forall2_cons].

Lemma sw_discovered :
  discovered gibbs_base no_const sw_h0 [(21, 12)] (st_found (init_st sw_o)) [14; 16; 18; 21] [(14, 28); (16, 29); (18, 30)]
    sw_rho (fun _ => 1) (fun _ _ => True) [B14; B18] B16.
Proof.
  rewrite sw_found. constructor.
  - reflexivity.
  - reflexivity.
  - intros B HB. repeat (apply elem_of_cons in HB as [->|HB]); [done|done|exact (False_ind _ (not_elem_of_nil _ HB))].
  - intros B r1 r2 f1 f2 n i HB H1 H2 C1 C2 Ho.
    repeat (apply elem_of_cons in HB as [->|HB]); [| |exact (False_ind _ (not_elem_of_nil _ HB))];
      apply elem_of_list_singleton in H1 as ->; apply elem_of_list_singleton in H2 as ->;
      rewrite C1 in C2; apply Some_inj in C2; subst f2; exists i; exact Ho.
  - intros B1 B2 r1 r2 f1 f2 n i j HB1 HB2 H1 H2 C1 C2 O1 O2.
    repeat (apply elem_of_cons in HB1 as [->|HB1]); [| |exact (False_ind _ (not_elem_of_nil _ HB1))];
    (repeat (apply elem_of_cons in HB2 as [->|HB2]); [| |exact (False_ind _ (not_elem_of_nil _ HB2))]); try reflexivity;
      apply elem_of_list_singleton in H1 as ->; apply elem_of_list_singleton in H2 as ->;
      vm_compute in C1, C2; injection C1 as <-; injection C2 as <-; vm_compute in O1, O2; congruence.
  - intros B r f HB Hr Hc. repeat (apply elem_of_cons in HB as [->|HB]); [| |exact (False_ind _ (not_elem_of_nil _ HB))];
      apply elem_of_list_singleton in Hr as ->; vm_compute in Hc; injection Hc as <-; there.
  - apply (bool_decide_eq_true_1 _). vm_compute. reflexivity.
  - intros B x e e' HB He r Hr.
    repeat (apply elem_of_cons in HB as [->|HB]); [| | |exact (False_ind _ (not_elem_of_nil _ HB))]; cbn; rewrite (He _ ltac:(by left)); done.
  - intros B r f x x0 e env HB Hr Hc _ Hin.
    pose proof (in_leaves _ _ _ _ _ _ _ Hin) as Hl.
    repeat (apply elem_of_cons in HB as [->|HB]); [| |exact (False_ind _ (not_elem_of_nil _ HB))];
      apply elem_of_list_singleton in Hr as ->; vm_compute in Hc; injection Hc as <-.
    + assert (Ha : Forall2 (evals gibbs_base no_const sw_h0 (over (on [14; 16; 18; 21] (put (dkeys [(21, 12)]) (fun _ => 1) x)) env))
        [22; 16; 18; 21] [e 22; x 16; x 18; 1]).
      { each; try (apply ev_given; reflexivity). apply ev_given. unfold over. cbn.
        apply (sw22 _ _ _ _ Hin). there. }
      split.
      * apply (ev_node _ _ _ _ 24 10 1 (Node (OOther 10) [22; 16; 18; 21] [23; 24]) [e 22; x 16; x 18; 1]
          [e 22; flip (e 22) [x 16; x 18; 1]]);
      [|vm_compute; reflexivity|vm_compute; reflexivity|cbn [n_ins]; try assumption|reflexivity|reflexivity].
        unfold over. cbn. apply (env_none sw_h0 env 24 (10, 1)); [done|vm_compute; reflexivity].
      * intros u ->%elem_of_list_singleton. exists (e 22).
        apply (ev_node _ _ _ _ 23 10 0 (Node (OOther 10) [22; 16; 18; 21] [23; 24]) [e 22; x 16; x 18; 1]
          [e 22; flip (e 22) [x 16; x 18; 1]]);
      [|vm_compute; reflexivity|vm_compute; reflexivity|cbn [n_ins]; try assumption|reflexivity|reflexivity].
        unfold over. cbn. apply (env_none sw_h0 env 23 (10, 0)); [done|vm_compute; reflexivity].
    + assert (Ha : Forall2 (evals gibbs_base no_const sw_h0 (over (on [14; 16; 18; 21] (put (dkeys [(21, 12)]) (fun _ => 1) x)) env))
        [25; 14; 16; 21] [e 25; x 14; x 16; 1]).
      { each; try (apply ev_given; reflexivity). apply ev_given. unfold over. cbn.
        apply (sw25 _ _ _ _ Hin). there. }
      split.
      * apply (ev_node _ _ _ _ 27 11 1 (Node (OOther 12) [25; 14; 16; 21] [26; 27]) [e 25; x 14; x 16; 1]
          [e 25; flip (e 25) [x 14; x 16; 1]]);
      [|vm_compute; reflexivity|vm_compute; reflexivity|cbn [n_ins]; try assumption|reflexivity|reflexivity].
        unfold over. cbn. apply (env_none sw_h0 env 27 (11, 1)); [done|vm_compute; reflexivity].
      * intros u ->%elem_of_list_singleton. exists (e 25).
        apply (ev_node _ _ _ _ 26 11 0 (Node (OOther 12) [25; 14; 16; 21] [26; 27]) [e 25; x 14; x 16; 1]
          [e 25; flip (e 25) [x 14; x 16; 1]]);
      [|vm_compute; reflexivity|vm_compute; reflexivity|cbn [n_ins]; try assumption|reflexivity|reflexivity].
        unfold over. cbn. apply (env_none sw_h0 env 26 (11, 0)); [done|vm_compute; reflexivity].
  - intros B x e _ _. exact I.
  - intros k v x e env Hk Hin. apply elem_of_list_singleton in Hk. injection Hk as -> ->. apply ev_given.
    rewrite (sw_other _ _ _ _ Hin 12); [reflexivity|there|]. apply (bool_decide_eq_true_1 _). vm_compute. reflexivity.
Qed.

Definition sw_env (x e : vid -> nat) (u : vid) : option nat :=
  if decide (u = 28) then Some (x 14) else if decide (u = 29) then Some (x 16) else if decide (u = 30) then Some (x 18)
  else if decide (u ∈ [22; 25; 31]) then Some (e u) else sw_rho u.
Lemma sw_env_inputs x e :
  inputs sw_hs [(14, 28); (16, 29); (18, 30)] ([B14; B18] ++ [B16]) sw_rho x e (sw_env x e).
Proof.
  constructor.
  - intros u Hu.
    assert (Hm : u ∈ [28; 29; 30; 22; 25; 31; 12; 32; 33]).
    { unfold sw_env, sw_rho in Hu. repeat (case_decide; [set_solver|]). by destruct Hu. }
    repeat (apply elem_of_cons in Hm as [->|Hm];
      [split; [there|split; vm_compute; reflexivity]|]). by apply elem_of_nil in Hm.
  - intros k p Hk. repeat (apply elem_of_cons in Hk as [Hk|Hk]; [injection Hk as -> ->; reflexivity|]). exact (False_ind _ (not_elem_of_nil _ Hk)).
  - intros B g HB Hg _. repeat (apply elem_of_cons in HB as [->|HB]); [| | |exact (False_ind _ (not_elem_of_nil _ HB))];
      apply elem_of_list_singleton in Hg as ->; reflexivity.
  - intros u _ Hd Hg. change (u ∉ [28; 29; 30]) in Hd.
    assert (H1 : u <> 22) by (intros ->; apply (Hg B14); by left).
    assert (H2 : u <> 25) by (intros ->; apply (Hg B18); [right|]; by left).
    assert (H3 : u <> 31) by (intros ->; apply (Hg B16); [right; right|]; by left).
    unfold sw_env. rewrite !decide_False by set_solver. done.
Qed.

Section sw_values.
  Context (x e : vid -> nat) (env : vid -> option nat).
  Hypothesis Hin : inputs sw_hs [(14, 28); (16, 29); (18, 30)] ([B14; B18] ++ [B16]) sw_rho x e env.
  Notation EV := (evals gibbs_base no_const sw_hs env).
  Let Hl := in_leaves _ _ _ _ _ _ _ Hin.
  Lemma sw12 : EV 12 1.
  Proof using Hin.
    apply ev_given. rewrite (sw_other _ _ _ _ Hin 12); [reflexivity|there|]. apply (bool_decide_eq_true_1 _). vm_compute. reflexivity.
  Qed.
  Lemma sw_mu : EV 24 (flip (e 22) [x 16; x 18; 1]).
  Proof using Hin Hl.
    apply (ev_node _ _ _ _ 24 10 1 (Node (OOther 10) [22; 29; 30; 12] [23; 24]) [e 22; x 16; x 18; 1]
          [e 22; flip (e 22) [x 16; x 18; 1]]);
      [|vm_compute; reflexivity|vm_compute; reflexivity|cbn [n_ins]; try assumption|reflexivity|reflexivity].
    - apply (env_none sw_hs env 24 (10, 1)); [done|vm_compute; reflexivity].
    - each; [apply ev_given, (sw22 _ _ _ _ Hin); there|apply ev_given, (sw29 _ _ _ _ Hin)|apply ev_given, (sw30 _ _ _ _ Hin)|apply sw12].
  Qed.
  Lemma sw_nu : EV 27 (flip (e 25) [flip (e 22) [x 16; x 18; 1]; x 16; 1]).
  Proof using Hin Hl.
    apply (ev_node _ _ _ _ 27 11 1 (Node (OOther 12) [25; 24; 29; 12] [26; 27]) [e 25; flip (e 22) [x 16; x 18; 1]; x 16; 1]
          [e 25; flip (e 25) [flip (e 22) [x 16; x 18; 1]; x 16; 1]]);
      [|vm_compute; reflexivity|vm_compute; reflexivity|cbn [n_ins]; try assumption|reflexivity|reflexivity].
    - apply (env_none sw_hs env 27 (11, 1)); [done|vm_compute; reflexivity].
    - each; [apply ev_given, (sw25 _ _ _ _ Hin); there|apply sw_mu|apply ev_given, (sw29 _ _ _ _ Hin)|apply sw12].
  Qed.
  Lemma sw_tau : let mu := flip (e 22) [x 16; x 18; 1] in
    EV 36 (flip (e 31) [mu; flip (e 25) [mu; x 16; 1]; 1]).
  Proof using Hin Hl.
    intros mu.
    apply (ev_node _ _ _ _ 36 13 0 (Node (OOther 99) [33; 29; 32; 12; 30; 31; 25; 22] [36; 37])
      [0; x 16; 0; 1; x 18; e 31; e 25; e 22] [flip (e 31) [mu; flip (e 25) [mu; x 16; 1]; 1]; e 31]);
      [|vm_compute; reflexivity|vm_compute; reflexivity|cbn [n_ins]; try assumption|reflexivity|reflexivity].
    - apply (env_none sw_hs env 36 (13, 0)); [done|vm_compute; reflexivity].
    - each; [|apply ev_given, (sw29 _ _ _ _ Hin)| |apply sw12|apply ev_given, (sw30 _ _ _ _ Hin)|
        apply ev_given, (sw31 _ _ _ _ Hin); there|apply ev_given, (sw25 _ _ _ _ Hin); there|apply ev_given, (sw22 _ _ _ _ Hin); there];
        apply ev_given.
      + rewrite (sw_other _ _ _ _ Hin 33); [reflexivity|there|]. apply (bool_decide_eq_true_1 _). vm_compute. reflexivity.
      + rewrite (sw_other _ _ _ _ Hin 32); [reflexivity|there|]. apply (bool_decide_eq_true_1 _). vm_compute. reflexivity.
  Qed.
End sw_values.

Lemma sw_for : sampler_for sw_o ex_h ex_obs ex_topo ex_topo 4 = Some (Found 0 24 [(22, 23)]) /\
  sampler_for sw_o ex_h ex_obs ex_topo ex_topo 6 = None /\
  sampler_for sw_o ex_h ex_obs ex_topo ex_topo 8 = Some (Found 2 27 [(25, 26)]).
Proof. split_and!; vm_compute; reflexivity. Qed.
Lemma sw_memo : memo_get (ir_memo (init_ir sw_o)) 4 = 14 /\ memo_get (ir_memo (init_ir sw_o)) 6 = 16 /\
  memo_get (ir_memo (init_ir sw_o)) 8 = 18.
Proof. split_and!; vm_compute; reflexivity. Qed.

(** the sampler of the example and everything the theorem asks of it; the conclusion is therefore
    about a real case: from current values [x] and states [e] of the generators it computes *)
Example C57_example :
  let out (x e : vid -> nat) u :=
    let mu := flip (e 22) [x 16; x 18; 1] in
    let nu := flip (e 25) [mu; x 16; 1] in
    if decide (u = 14) then mu else if decide (u = 18) then nu else
    if decide (u = 16) then flip (e 31) [mu; nu; 1] else x u in
  construct_sampler sw_o ex_h ex_obs ex_topo ex_topo = Ok sw_s /\
  (forall x e, exists env, inputs sw_hs [(14, 28); (16, 29); (18, 30)] ([B14; B18] ++ [B16]) sw_rho x e env /\
     evals gibbs_base no_const sw_hs env 24 (out x e 14) /\
     evals gibbs_base no_const sw_hs env 36 (out x e 16) /\
     evals gibbs_base no_const sw_hs env 27 (out x e 18)) /\
  forall e g, mu3 (fun x => w3 x * draw_gens ([B14; B18] ++ [B16]) e (fun e' => g (out x e')))%R = mu3 (fun x => w3 x * g x)%R.
Proof.
  intros out.
  assert (Hs : construct_sampler sw_o ex_h ex_obs ex_topo ex_topo = Ok sw_s) by (apply the_sampler_ok; vm_compute; done).
  assert (Hv : forall x e env, inputs sw_hs [(14, 28); (16, 29); (18, 30)] ([B14; B18] ++ [B16]) sw_rho x e env ->
     evals gibbs_base no_const sw_hs env 24 (out x e 14) /\
     evals gibbs_base no_const sw_hs env 36 (out x e 16) /\
     evals gibbs_base no_const sw_hs env 27 (out x e 18)).
  { intros x e env Hin. split_and!; [apply (sw_mu x e env Hin)|apply (sw_tau x e env Hin)|apply (sw_nu x e env Hin)]. }
  split; [exact Hs|]. split.
  { intros x e. exists (sw_env x e). split; [apply sw_env_inputs|apply Hv, sw_env_inputs]. }
  intros e g.
  destruct sw_for as (F4 & F6 & F8). destruct sw_memo as (M4 & M6 & M8).
  destruct (C57_sampler_keeps_the_posterior_partial sw_o ex_h ex_obs ex_topo ex_topo sw_s gibbs_base no_const
    (init_ir sw_o) (init_outs sw_o) (init_vals sw_o) (init_st sw_o) sw_rho (fun _ => 1) (fun _ _ => True) [B14; B18] B16)
    with (test := all_tests) (mu := mu3) (w := w3) as (out' & Hev & Hrest & Hinv).
  - apply ex_contracts.
  - apply ex_model_ok.
  - apply ex_topo_ok.
  - apply ex_topo_rv_ok.
  - exact Hs.
  - apply the_init_eq.
  - rewrite sw_found, sw_outs, sw_obs. intros r1 r2 f g' H1 H2 _ _ Hne C1 C2.
    destruct (sw_chosen r1 f C1) as [[-> ->]|[-> ->]], (sw_chosen r2 g' C2) as [[-> ->]|[-> ->]];
      [destruct (Hne eq_refl)| | |destruct (Hne eq_refl)]; apply sep_check_spec; vm_compute; reflexivity.
  - intros rv g' x v m j _ _ _ Hx _ _ _ _ (u & k & (r & Hr & Hru) & Ho).
    apply elem_of_list_singleton in Hx as ->. apply elem_of_list_singleton in Hr as ->.
    apply rtc_inv in Hru as [<-|(z & Hz & _)].
    + vm_compute in Ho. done.
    + unfold input_of in Hz. vm_compute in Hz. by apply elem_of_nil in Hz.
  - rewrite sw_outs, sw_obs, sw_inits. apply sw_discovered.
  - rewrite sw_inits, sw_steps. intros x z e' env _ _ Hin Hz _ rv v Hrv Hf.
    assert (Hz4 : evals gibbs_base no_const sw_hs env 24 (z 14)).
    { rewrite <- M4. apply (Hz 4 24); [reflexivity|]. rewrite F4. done. }
    assert (Hz8 : evals gibbs_base no_const sw_hs env 27 (z 18)).
    { rewrite <- M8. apply (Hz 8 27); [reflexivity|]. rewrite F8. done. }
    apply dget_Some_in in Hrv.
    repeat (apply elem_of_cons in Hrv as [Hrv|Hrv]; [injection Hrv as -> ->|]); [congruence| |congruence|exact (False_ind _ (not_elem_of_nil _ Hrv))].
    rewrite M6. cbn [b_step B16].
    rewrite (evals_det _ _ _ _ _ _ _ Hz4 (sw_mu x e' env Hin)), (evals_det _ _ _ _ _ _ _ Hz8 (sw_nu x e' env Hin)).
    apply (sw_tau x e' env Hin).
  - exact targets3.
  - rewrite <- (Hinv e g I). f_equal. apply functional_extensionality. intros x. f_equal. apply draw_gens_ext. intros e' _.
    f_equal. apply functional_extensionality. intros u.
    specialize (Hev x e' (sw_env x e') I). rewrite sw_inits in Hev. specialize (Hev (sw_env_inputs x e')). rewrite sw_steps in Hev.
    destruct (Hv x e' _ (sw_env_inputs x e')) as (V4 & V6 & V8).
    pose proof (Hev 4 24 eq_refl) as E4. pose proof (Hev 6 36 eq_refl) as E6. pose proof (Hev 8 27 eq_refl) as E8.
    rewrite M4 in E4. rewrite M6 in E6. rewrite M8 in E8.
    destruct (decide (u = 14)) as [->|N14]; [by eapply evals_det; eassumption|].
    destruct (decide (u = 16)) as [->|N16]; [by eapply evals_det; eassumption|].
    destruct (decide (u = 18)) as [->|N18]; [by eapply evals_det; eassumption|].
    unfold out. rewrite !decide_False by assumption. symmetry. apply Hrest. clear - N14 N16 N18. intros B HB.
    repeat (apply elem_of_cons in HB as [->|HB]); [| | |exact (False_ind _ (not_elem_of_nil _ HB))]; intros ?%elem_of_list_singleton; done.
Qed.

(** ** Without the condition on the samplers' graphs the posterior is not invariant: a finder that
    shares a statistic of two variables between their samplers (as in C05).  Each of the two
    steps leaves the conditional of its variable invariant, but the second one is computed from
    the old value of the first variable, and the pair leaves the support of the posterior. *)
Definition sh_s : sampler := the_sampler shared_o.
Definition sh_h0 := st_heap (init_st shared_o).
Definition sh_hs := s_heap sh_s.
Definition sh_rho (u : vid) : option nat :=
  if decide (u = 12) then Some 1 else if decide (u = 29) then Some 0 else if decide (u = 30) then Some 0 else None.
Definition sh_env (x e : vid -> nat) (u : vid) : option nat :=
  if decide (u = 25) then Some (x 14) else if decide (u = 26) then Some (x 16) else if decide (u = 27) then Some (x 18)
  else if decide (u = 28) then Some (e u) else sh_rho u.
Lemma sh_env_inputs x e :
  inputs sh_hs [(14, 25); (16, 26); (18, 27)] ([A14; A16] ++ [A18]) sh_rho x e (sh_env x e).
Proof.
  constructor.
  - intros u Hu.
    assert (Hm : u ∈ [25; 26; 27; 28; 12; 29; 30]).
    { unfold sh_env, sh_rho in Hu. repeat (case_decide; [set_solver|]). by destruct Hu. }
    repeat (apply elem_of_cons in Hm as [->|Hm];
      [split; [there|split; vm_compute; reflexivity]|]). by apply elem_of_nil in Hm.
  - intros k p Hk. repeat (apply elem_of_cons in Hk as [Hk|Hk]; [injection Hk as -> ->; reflexivity|]). exact (False_ind _ (not_elem_of_nil _ Hk)).
  - intros B g HB Hg _. repeat (apply elem_of_cons in HB as [->|HB]); [| | |exact (False_ind _ (not_elem_of_nil _ HB))];
      [by apply elem_of_nil in Hg|by apply elem_of_nil in Hg|]. apply elem_of_list_singleton in Hg as ->. reflexivity.
  - intros u _ Hd Hg. change (u ∉ [25; 26; 27]) in Hd.
    assert (H3 : u <> 28) by (intros ->; apply (Hg A18); [right; right|]; by left).
    unfold sh_env. clear Hg. rewrite !decide_False by set_solver. reflexivity.
Qed.

Lemma sh_found : st_found (init_st shared_o) = [(14, [Found 1 23 []]); (16, [Found 2 24 []])].
Proof. vm_compute. reflexivity. Qed.
Lemma sh_outs : init_outs shared_o = [14; 16; 18; 21].
Proof. vm_compute. reflexivity. Qed.
Lemma sh_obs : ir_obs (init_ir shared_o) = [(21, 12)].
Proof. vm_compute. reflexivity. Qed.
Lemma sh_inits : init_vals shared_o = [(14, 25); (16, 26); (18, 27)].
Proof. vm_compute. reflexivity. Qed.
Lemma sh_steps : s_steps sh_s = [(4, 23); (6, 24); (8, 33)].
Proof. vm_compute. reflexivity. Qed.
Lemma sh_for : sampler_for shared_o ex_h ex_obs ex_topo ex_topo 4 = Some (Found 1 23 []) /\
  sampler_for shared_o ex_h ex_obs ex_topo ex_topo 6 = Some (Found 2 24 []) /\
  sampler_for shared_o ex_h ex_obs ex_topo ex_topo 8 = None.
Proof. split_and!; vm_compute; reflexivity. Qed.
Lemma sh_memo : memo_get (ir_memo (init_ir shared_o)) 4 = 14 /\ memo_get (ir_memo (init_ir shared_o)) 6 = 16 /\
  memo_get (ir_memo (init_ir shared_o)) 8 = 18.
Proof. split_and!; vm_compute; reflexivity. Qed.

Lemma sh_discovered :
  discovered shared_base no_const sh_h0 [(21, 12)] (st_found (init_st shared_o)) [14; 16; 18; 21]
    [(14, 25); (16, 26); (18, 27)] sh_rho (fun _ => 1) (fun _ _ => True) [A14; A16] A18.
Proof.
  rewrite sh_found. constructor.
  - reflexivity.
  - reflexivity.
  - intros B HB. repeat (apply elem_of_cons in HB as [->|HB]); [done|done|exact (False_ind _ (not_elem_of_nil _ HB))].
  - intros B r1 r2 f1 f2 n i HB H1 H2 C1 C2 Ho.
    repeat (apply elem_of_cons in HB as [->|HB]); [| |exact (False_ind _ (not_elem_of_nil _ HB))];
      apply elem_of_list_singleton in H1 as ->; apply elem_of_list_singleton in H2 as ->;
      rewrite C1 in C2; apply Some_inj in C2; subst f2; exists i; exact Ho.
  - intros B1 B2 r1 r2 f1 f2 n i j HB1 HB2 H1 H2 C1 C2 O1 O2.
    repeat (apply elem_of_cons in HB1 as [->|HB1]); [| |exact (False_ind _ (not_elem_of_nil _ HB1))];
    (repeat (apply elem_of_cons in HB2 as [->|HB2]); [| |exact (False_ind _ (not_elem_of_nil _ HB2))]); try reflexivity;
      apply elem_of_list_singleton in H1 as ->; apply elem_of_list_singleton in H2 as ->;
      vm_compute in C1, C2; injection C1 as <-; injection C2 as <-; vm_compute in O1, O2; congruence.
  - intros B r f HB Hr Hc. repeat (apply elem_of_cons in HB as [->|HB]); [| |exact (False_ind _ (not_elem_of_nil _ HB))];
      apply elem_of_list_singleton in Hr as ->; vm_compute in Hc; injection Hc as <-; there.
  - apply (bool_decide_eq_true_1 _). vm_compute. reflexivity.
  - intros B x e e' HB He r Hr.
    repeat (apply elem_of_cons in HB as [->|HB]); [| | |exact (False_ind _ (not_elem_of_nil _ HB))]; done.
  - intros B r f x x0 e env HB Hr Hc _ Hin.
    pose proof (in_leaves _ _ _ _ _ _ _ Hin) as Hl.
    assert (Hq : evals shared_base no_const sh_h0 (over (on [14; 16; 18; 21] (put (dkeys [(21, 12)]) (fun _ => 1) x)) env)
      22 (stat (x 14) (x 16))).
    { apply (ev_node _ _ _ _ 22 10 0 (Node (OElem 5) [14; 16] [22]) [x 14; x 16] [stat (x 14) (x 16)]);
      [|vm_compute; reflexivity|vm_compute; reflexivity|cbn [n_ins]; try assumption|reflexivity|reflexivity].
      - unfold over. cbn. apply (env_none sh_h0 env 22 (10, 0)); [done|vm_compute; reflexivity].
      - each; apply ev_given; reflexivity. }
    repeat (apply elem_of_cons in HB as [->|HB]); [| |exact (False_ind _ (not_elem_of_nil _ HB))];
      apply elem_of_list_singleton in Hr as ->; vm_compute in Hc; injection Hc as <-;
      (split; [|by intros u ?%elem_of_nil]).
    + apply (ev_node _ _ _ _ 23 11 0 (Node (OOther 1) [22] [23]) [stat (x 14) (x 16)] [step_a (stat (x 14) (x 16))]);
      [|vm_compute; reflexivity|vm_compute; reflexivity|cbn [n_ins]; try assumption|reflexivity|reflexivity].
      * unfold over. cbn. apply (env_none sh_h0 env 23 (11, 0)); [done|vm_compute; reflexivity].
      * each. exact Hq.
    + apply (ev_node _ _ _ _ 24 12 0 (Node (OOther 2) [22] [24]) [stat (x 14) (x 16)] [step_b (stat (x 14) (x 16))]);
      [|vm_compute; reflexivity|vm_compute; reflexivity|cbn [n_ins]; try assumption|reflexivity|reflexivity].
      * unfold over. cbn. apply (env_none sh_h0 env 24 (12, 0)); [done|vm_compute; reflexivity].
      * each. exact Hq.
  - intros B x e _ _. exact I.
  - intros k v x e env Hk Hin. apply elem_of_list_singleton in Hk. injection Hk as -> ->. apply ev_given.
    rewrite (in_rest _ _ _ _ _ _ _ Hin 12); [reflexivity|there| |].
    + apply (bool_decide_eq_true_1 _). vm_compute. reflexivity.
    + intros B HB. repeat (apply elem_of_cons in HB as [->|HB]); [| | |exact (False_ind _ (not_elem_of_nil _ HB))]; cbn; set_solver.
Qed.

Section sh_values.
  Context (x e : vid -> nat) (env : vid -> option nat).
  Hypothesis Hin : inputs sh_hs [(14, 25); (16, 26); (18, 27)] ([A14; A16] ++ [A18]) sh_rho x e env.
  Notation EV := (evals shared_base no_const sh_hs env).
  Let Hl := in_leaves _ _ _ _ _ _ _ Hin.
  Lemma sh_stat : EV 22 (stat (x 14) (x 16)).
  Proof using Hin Hl.
    apply (ev_node _ _ _ _ 22 10 0 (Node (OElem 5) [25; 26] [22]) [x 14; x 16] [stat (x 14) (x 16)]);
      [|vm_compute; reflexivity|vm_compute; reflexivity|cbn [n_ins]; try assumption|reflexivity|reflexivity].
    - apply (env_none sh_hs env 22 (10, 0)); [done|vm_compute; reflexivity].
    - each; apply ev_given, (in_init _ _ _ _ _ _ _ Hin); [by left|right; by left].
  Qed.
  Lemma sh_mu : EV 23 (step_a (stat (x 14) (x 16))).
  Proof using Hin Hl.
    apply (ev_node _ _ _ _ 23 11 0 (Node (OOther 1) [22] [23]) [stat (x 14) (x 16)] [step_a (stat (x 14) (x 16))]);
      [|vm_compute; reflexivity|vm_compute; reflexivity|cbn [n_ins]; try assumption|reflexivity|reflexivity].
    - apply (env_none sh_hs env 23 (11, 0)); [done|vm_compute; reflexivity].
    - each. apply sh_stat.
  Qed.
  Lemma sh_tau : EV 24 (step_b (stat (x 14) (x 16))).
  Proof using Hin Hl.
    apply (ev_node _ _ _ _ 24 12 0 (Node (OOther 2) [22] [24]) [stat (x 14) (x 16)] [step_b (stat (x 14) (x 16))]);
      [|vm_compute; reflexivity|vm_compute; reflexivity|cbn [n_ins]; try assumption|reflexivity|reflexivity].
    - apply (env_none sh_hs env 24 (12, 0)); [done|vm_compute; reflexivity].
    - each. apply sh_stat.
  Qed.
  Lemma sh_rest u : is_Some (hv sh_hs u) -> u ∉ [25; 26; 27; 28] -> env u = sh_rho u.
  Proof using Hin.
    intros Hu Hn. apply (in_rest _ _ _ _ _ _ _ Hin u Hu).
    - intros Hd. apply Hn. change (u ∈ [25; 26; 27]) in Hd. set_solver.
    - intros B HB. repeat (apply elem_of_cons in HB as [->|HB]); [| | |exact (False_ind _ (not_elem_of_nil _ HB))]; cbn; set_solver.
  Qed.
  Lemma sh_nu : EV 33 (x 18).
  Proof using Hin Hl.
    apply (ev_node _ _ _ _ 33 14 0 (Node (OOther 99) [27; 25; 29; 12; 26; 30; 28] [33; 34])
      [x 18; x 14; 0; 1; x 16; 0; e 28] [x 18; e 28]);
      [|vm_compute; reflexivity|vm_compute; reflexivity|cbn [n_ins]; try assumption|reflexivity|reflexivity].
    - apply (env_none sh_hs env 33 (14, 0)); [done|vm_compute; reflexivity].
    - each; apply ev_given;
        [apply (in_init _ _ _ _ _ _ _ Hin); right; right; by left|apply (in_init _ _ _ _ _ _ _ Hin); by left| | |
         apply (in_init _ _ _ _ _ _ _ Hin); right; by left| |
         apply (in_gens _ _ _ _ _ _ _ Hin A18); [right; right; by left|by left|there]];
        (rewrite sh_rest; [reflexivity|there|apply (bool_decide_eq_true_1 _); vm_compute; reflexivity]).
  Qed.
End sh_values.

Theorem C57_sampler_keeps_the_posterior_refuted :
  exists o h obs topo topo_rv s (base : op -> list nat -> option (list nat)) cval i outs inits st0 rho data bs N
      (test : ((vid -> nat) -> R) -> Prop) mu w,
    contracts o /\ model_ok h obs /\ topo_order h (dkeys obs) topo /\ topo_order h (rv_outputs h topo) topo_rv /\
    construct_sampler o h obs topo topo_rv = Ok s /\
    sampler_init o h obs topo topo_rv = (i, outs, inits, st0) /\
    discovered base cval (st_heap st0) (ir_obs i) (st_found st0) outs inits rho data (fun _ _ => True) bs N /\
    (forall x z e env, inputs (s_heap s) inits (bs ++ [N]) rho x e env ->
      (forall rv v, dget (s_steps s) rv = Some v -> sampler_for o h obs topo topo_rv rv <> None ->
         evals base cval (s_heap s) env v (z (memo_get (ir_memo i) rv))) ->
      (forall u, u ∈ b_vars N -> z u = x u) ->
      forall rv v, dget (s_steps s) rv = Some v -> sampler_for o h obs topo topo_rv rv = None ->
        evals base cval (s_heap s) env v (b_step N z e (memo_get (ir_memo i) rv))) /\
    (forall B, B ∈ bs ++ [N] -> targets test mu w B) /\
    (forall x e, exists env, inputs (s_heap s) inits (bs ++ [N]) rho x e env) /\
    ~ exists out : (vid -> nat) -> (vid -> nat) -> vid -> nat,
      (forall x e env, inputs (s_heap s) inits (bs ++ [N]) rho x e env ->
         forall rv v, dget (s_steps s) rv = Some v ->
           evals base cval (s_heap s) env v (out x e (memo_get (ir_memo i) rv))) /\
      forall e g, test g ->
        mu (fun x => w x * draw_gens (bs ++ [N]) e (fun e' => g (out x e')))%R = mu (fun x => w x * g x)%R.
Proof.
  exists shared_o, ex_h, ex_obs, ex_topo, ex_topo, sh_s, shared_base, no_const, (init_ir shared_o), (init_outs shared_o),
    (init_vals shared_o), (init_st shared_o), sh_rho, (fun _ => 1), [A14; A16], A18, all_tests, mu3, w2.
  destruct sh_for as (F4 & F6 & F8). destruct sh_memo as (M4 & M6 & M8).
  split; [apply shared_contracts|]. split; [apply ex_model_ok|]. split; [apply ex_topo_ok|]. split; [apply ex_topo_rv_ok|].
  split; [apply the_sampler_ok; vm_compute; done|]. split; [apply the_init_eq|].
  rewrite sh_outs, sh_obs, sh_inits, sh_steps.
  split; [apply sh_discovered|]. split.
  { intros x z e env Hin _ Hz rv v Hrv Hf. apply dget_Some_in in Hrv.
    repeat (apply elem_of_cons in Hrv as [Hrv|Hrv]; [injection Hrv as -> ->|]); [congruence|congruence| |exact (False_ind _ (not_elem_of_nil _ Hrv))].
    rewrite M8. cbn [b_step A18]. rewrite (Hz 18 ltac:(by left)). apply (sh_nu x e env Hin). }
  split; [exact shared_targets|]. split; [intros x e; exists (sh_env x e); apply sh_env_inputs|].
  intros (out & Hev & Hinv).
  assert (Ho : forall x e, out x e 14 = step_a (stat (x 14) (x 16)) /\ out x e 16 = step_b (stat (x 14) (x 16))).
  { intros x e. pose proof (sh_env_inputs x e) as Hin. specialize (Hev x e _ Hin). split.
    - eapply evals_det; [|apply (sh_mu x e _ Hin)]. rewrite <- M4. by apply Hev.
    - eapply evals_det; [|apply (sh_tau x e _ Hin)]. rewrite <- M6. by apply Hev. }
  pose (g := fun x : vid -> nat => (1 - w2 x)%R).
  specialize (Hinv (fun _ => 0) g I).
  assert (Hg : forall x e, g (out x e) = if Nat.odd (step_a (stat (x 14) (x 16))) then 0%R else
      if Nat.odd (step_b (stat (x 14) (x 16))) then 1%R else 0%R).
  { intros x e. unfold g, w2. destruct (Ho x e) as [-> ->]. clear.
    destruct (Nat.odd (step_a _)); [ring|]. destruct (Nat.odd (step_b _)); ring. }
  assert (Hd : forall x, draw_gens ([A14; A16] ++ [A18]) (fun _ => 0) (fun e' => g (out x e')) =
    if Nat.odd (step_a (stat (x 14) (x 16))) then 0%R else if Nat.odd (step_b (stat (x 14) (x 16))) then 1%R else 0%R).
  { intros x. cbn [draw_gens app A14 A16 A18 b_seed]. unfold point. apply Hg. }
  unfold mu3, sum2 in Hinv. rewrite !Hd in Hinv. unfold g, w2 in Hinv. clear - Hinv.
  assert (H14 : forall a b c, st3 a b c 14 = a) by reflexivity. assert (H16 : forall a b c, st3 a b c 16 = b) by reflexivity.
  rewrite !H14, !H16 in Hinv. cbn in Hinv. lra.
Qed.
Print Assumptions C57_sampler_keeps_the_posterior_refuted.
