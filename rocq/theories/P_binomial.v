(** Properties C62 and C63: when the variables with a closed-form step are beta priors of binomial
    variables, and these are all (C62) or NUTS samples the others (C63), the sampler that construct_sampler returns leaves the posterior of the model
    invariant.  That the steps do not interfere with each other, that each is computed from the
    current values of the other variables, and that each leaves the conditional law of its
    variable invariant is proved here from the graph; what numpy's beta draws are is assumed. *)
From Coq Require Import Reals Lra FunctionalExtensionality.
From Verif Require P_exact.
From Verif Require Import L_sweep L_exact L_conditional L_elem_value L_whole L_bbsampler P_conditional P_closed E_nuts E_real E_binomial.

Section theorem.
  Context (canon : heap -> list vid -> heap * list vid) (sched : heap -> list vid -> list (entry * nid)).
  Context (order : heap -> list vid -> list nid) (iter : list vid -> list vid) (B : builder) (tr : transforms).
  Context (lp : heap -> dict nat nat -> dict nat nat -> heap * list vid) (nr kn : nat).
  Context (h : heap) (obs : dict nat nat) (topo topo_rv : list nid).
  Context (s : sampler) (i : ir) (outs : list vid) (inits : dict nat nat) (st0 : state).
  Context (scalar : nat -> list R -> option R) (other : op -> list (tensor R) -> option (list (tensor R)))
    (cval : nat -> tensor R) (ld : nat -> list (tensor R) -> tensor R -> R).
  Context (rho : vid -> option (tensor R)) (data : vid -> tensor R) (shape : vid -> list nat).
  Context (dom : (vid -> tensor R) -> Prop) (w : (vid -> tensor R) -> R) (mu : law (vid -> tensor R)).
  Context (state : tensor R -> Prop) (test : ((vid -> tensor R) -> R) -> Prop) (gen : vid -> vid) (blk : vid -> step_block (tensor R)).

  (** the sampler is constructed from a model of the kind considered *)
  Definition constructed : Prop :=
    let o := whole canon sched order iter B tr lp nr kn in
    canon_ok canon /\ sched_ok sched /\ covers sched /\ order_ok order /\ iter_ok iter /\ builder_ok B /\ lp_ok lp /\
    model_ok h obs /\ topo_order h (dkeys obs) topo /\ topo_order h (rv_outputs h topo) topo_rv /\
    construct_sampler o h obs topo topo_rv = Ok s /\
    sampler_init o h obs topo topo_rv = (i, outs, inits, st0) /\
    binomial_model B (ir_heap i) (ir_outputs i) (dkeys (ir_obs i)).

  (** the operators are those of the reals, [w] is the posterior density, and the steps of the
      variables [l] draw from beta laws *)
  Definition interpreted (l : list vid) : Prop :=
    real_ops B scalar cval /\ log_densities ld /\ gives_old (ir_heap i) rho /\
    (forall k v, (k, v) ∈ ir_obs i -> evals (tensor_base scalar other) cval (ir_heap i) rho v (data k)) /\
    posterior_on B scalar other cval ld (ir_heap i) rho outs (dkeys (ir_obs i)) data shape dom w /\
    (forall p f, p ∈ l -> chosen (st_found st0) p = Some f ->
      beta_block scalar other cval (ir_heap i) rho outs shape (st_heap st0) (f_step f) state test dom p (gen p) (blk p)) /\
    forall p, p ∈ l -> iterated test mu w (blk p) /\ forall g, test g -> test (fun x => kernel (blk p) x g).
End theorem.

(** C63.  Some variables are left to the NUTS step [N], which is assumed to leave the conditional law
    of its variables invariant (see C61); this is what is missing. *)
Theorem C63_mixed_sampler_partial canon sched order iter (B : builder) (tr : transforms) lp (nr kn : nat)
    (h : heap) (obs : dict nat nat) (topo topo_rv : list nid) (s : sampler) (i : ir) (outs : list vid) (inits : dict nat nat)
    (st0 : state) (scalar : nat -> list R -> option R) (other : op -> list (tensor R) -> option (list (tensor R)))
    (cval : nat -> tensor R) (ld : nat -> list (tensor R) -> tensor R -> R) (rho : vid -> option (tensor R))
    (data : vid -> tensor R) (shape : vid -> list nat) (dom : (vid -> tensor R) -> Prop) (w : (vid -> tensor R) -> R)
    (mu : law (vid -> tensor R)) (seeds : tensor R -> Prop) (test : ((vid -> tensor R) -> R) -> Prop)
    (gen : vid -> vid) (blk : vid -> step_block (tensor R)) (N : step_block (tensor R)) :
  let o := whole canon sched order iter B tr lp nr kn in
  let l := filter (fun r => r ∉ dkeys (ir_obs i) /\ is_Some (chosen (st_found st0) r)) outs in
  let ok := fun x e : vid -> tensor R => dom x /\ forall p, p ∈ l -> seeds (e (gen p)) in
  let bs := blk <$> l in
  constructed canon sched order iter B tr lp nr kn h obs topo topo_rv s i outs inits st0 ->
  interpreted B i outs st0 scalar other cval ld rho data shape dom w mu seeds test gen blk l ->
  (* the NUTS step: its variables, its generators, what it computes and leaves invariant *)
  b_vars N = filter (fun r => r ∉ dkeys (ir_obs i) /\ chosen (st_found st0) r = None) outs ->
  NoDup (b_gens N) -> (forall g, g ∈ b_gens N -> hv (st_heap st0) g = None) ->
  (forall x e e', (forall g, g ∈ b_gens N -> e g = e' g) -> forall r, r ∈ b_vars N -> b_step N x e r = b_step N x e' r) ->
  (forall x z e env, ok x e -> ok z e -> inputs (s_heap s) inits (bs ++ [N]) rho x e env ->
    (forall rv v, dget (s_steps s) rv = Some v -> sampler_for o h obs topo topo_rv rv <> None ->
       evals (tensor_base scalar other) cval (s_heap s) env v (z (memo_get (ir_memo i) rv))) ->
    (forall u, u ∈ b_vars N -> z u = x u) ->
    forall rv v, dget (s_steps s) rv = Some v -> sampler_for o h obs topo topo_rv rv = None ->
      evals (tensor_base scalar other) cval (s_heap s) env v (b_step N z e (memo_get (ir_memo i) rv))) ->
  targets test mu w N ->
  (* the variables with a closed-form step are the beta priors of binomial variables *)
  (forall r, r ∈ outs -> r ∉ dkeys (ir_obs i) -> r ∈ l <-> exists y, beta_binomial (ir_heap i) outs r y) /\
  (* [out x e]: the values of the returned steps at the current values [x] and the generators [e] *)
  exists out : (vid -> tensor R) -> (vid -> tensor R) -> vid -> tensor R,
    (forall x e env, ok x e -> inputs (s_heap s) inits (bs ++ [N]) rho x e env ->
       forall rv v, dget (s_steps s) rv = Some v ->
         evals (tensor_base scalar other) cval (s_heap s) env v (out x e (memo_get (ir_memo i) rv))) /\
    (forall x e u, (forall K, K ∈ bs ++ [N] -> u ∉ b_vars K) -> out x e u = x u) /\
    forall e g, test g ->
      mu (fun x => w x * draw_gens (bs ++ [N]) e (fun e' => g (out x e')))%R = mu (fun x => w x * g x)%R.
Proof.
  intros o l ok bs (A1 & A2 & A3 & A4 & A5 & A6 & A7 & A8 & A9 & A10 & A11 & A12 & A13) (B1 & B2 & B3 & B4 & B5 & B6 & B7) N1 N2 N3 N4 N5 N6.
  split.
  - intros r Hr Ho. rewrite <- (bb_chosen canon sched order iter B tr lp nr kn A1 A2 A3 A4 A5 A6 A7 h obs topo topo_rv A8 A9 A10 s i outs inits st0 A11 A12 A13 r Hr Ho).
    unfold l. rewrite elem_of_list_filter. tauto.
  - apply (bb_sampler canon sched order iter B tr lp nr kn A1 A2 A3 A4 A5 A6 A7 h obs topo topo_rv A8 A9 A10 s i outs inits st0 A11 A12 A13
      scalar other cval ld B1 B2 rho data shape B3 B4 dom w B5 seeds test gen blk); try done.
    intros p f Hp Ho Hf. apply B6; [|done]. apply elem_of_list_filter. split; [|done]. split; [done|]. by exists f.
Qed.
Print Assumptions C63_mixed_sampler_partial.

(** ** C62: every variable has a closed-form step *)

Lemma filter_also {A} (P Q : A -> Prop) `{forall x, Decision (P x)} `{forall x, Decision (Q x)} `{forall x, Decision (P x /\ Q x)} (l : list A) :
  (forall x, x ∈ l -> P x -> Q x) -> filter (fun x => P x /\ Q x) l = filter P l.
Proof.
  induction l as [|x l IH]; intros HQ; [done|]. rewrite !filter_cons, (IH (fun y Hy => HQ y (elem_of_list_further _ _ _ Hy))).
  pose proof (HQ x (elem_of_list_here _ _)). repeat case_decide; tauto.
Qed.
Lemma filter_none {A} (P : A -> Prop) `{forall x, Decision (P x)} (l : list A) : (forall x, x ∈ l -> ~ P x) -> filter P l = [].
Proof.
  induction l as [|x l IH]; intros HQ; [done|]. rewrite filter_cons, IH; [|intros y Hy; apply HQ; by right].
  rewrite decide_False; [done|]. apply HQ. by left.
Qed.
Lemma put_nothing {D} (y x : vid -> D) : put [] y x = x.
Proof. apply functional_extensionality. intros u. unfold put. by rewrite decide_False by apply not_elem_of_nil. Qed.

(** a step of no variables *)
Definition no_step {D} (d : vid -> D) (mu : law (vid -> D)) : step_block D :=
  StepBlock [] [] (fun f => f d) (fun x _ => x) (fun f => f d) mu.
Lemma no_step_targets {D} d test mu (w : (vid -> D) -> R) : targets test mu w (no_step d mu).
Proof.
  constructor.
  - intros g Hg. reflexivity.
  - intros g Hg. unfold kernel. cbn. replace (fun x => g (put [] x x)) with g; [done|]. apply functional_extensionality. intros x. by rewrite put_nothing.
  - intros x g Hg. unfold kernel. cbn. by rewrite !put_nothing.
Qed.
Lemma draw_no_step {D} (d : vid -> D) mu bs e f : draw_gens (bs ++ [no_step d mu]) e f = draw_gens bs e f.
Proof.
  revert e. induction bs as [|K bs IH]; intros e; cbn.
  - by rewrite put_nothing.
  - f_equal. apply functional_extensionality. intros x. apply IH.
Qed.

Theorem C62_conjugate_sampler canon sched order iter (B : builder) (tr : transforms) lp (nr kn : nat)
    (h : heap) (obs : dict nat nat) (topo topo_rv : list nid) (s : sampler) (i : ir) (outs : list vid) (inits : dict nat nat)
    (st0 : state) (scalar : nat -> list R -> option R) (other : op -> list (tensor R) -> option (list (tensor R)))
    (cval : nat -> tensor R) (ld : nat -> list (tensor R) -> tensor R -> R) (rho : vid -> option (tensor R))
    (data : vid -> tensor R) (shape : vid -> list nat) (dom : (vid -> tensor R) -> Prop) (w : (vid -> tensor R) -> R)
    (mu : law (vid -> tensor R)) (seeds : tensor R -> Prop) (test : ((vid -> tensor R) -> R) -> Prop)
    (gen : vid -> vid) (blk : vid -> step_block (tensor R)) :
  let l := filter (fun r => r ∉ dkeys (ir_obs i)) outs in
  constructed canon sched order iter B tr lp nr kn h obs topo topo_rv s i outs inits st0 ->
  (forall r, r ∈ l -> exists y, beta_binomial (ir_heap i) outs r y) ->
  interpreted B i outs st0 scalar other cval ld rho data shape dom w mu seeds test gen blk l ->
  exists out : (vid -> tensor R) -> (vid -> tensor R) -> vid -> tensor R,
    (* [out x e]: the values of the returned steps at the current values [x] and the generators [e] *)
    (forall x e env, dom x -> (forall p, p ∈ l -> seeds (e (gen p))) -> inputs (s_heap s) inits (blk <$> l) rho x e env ->
       forall rv v, dget (s_steps s) rv = Some v ->
         evals (tensor_base scalar other) cval (s_heap s) env v (out x e (memo_get (ir_memo i) rv))) /\
    (forall x e u, u ∉ l -> out x e u = x u) /\
    (* one call of the sampler leaves the posterior invariant *)
    forall e g, test g ->
      mu (fun x => w x * draw_gens (blk <$> l) e (fun e' => g (out x e')))%R = mu (fun x => w x * g x)%R.
Proof.
  intros l HC Hall HI. pose proof HC as (A1 & A2 & A3 & A4 & A5 & A6 & A7 & A8 & A9 & A10 & A11 & A12 & A13).
  pose proof (bb_chosen canon sched order iter B tr lp nr kn A1 A2 A3 A4 A5 A6 A7 h obs topo topo_rv A8 A9 A10 s i outs inits st0 A11 A12 A13) as Hch.
  assert (Hl : filter (fun r => r ∉ dkeys (ir_obs i) /\ is_Some (chosen (st_found st0) r)) outs = l).
  { apply (filter_also (fun r => r ∉ dkeys (ir_obs i)) (fun r => is_Some (chosen (st_found st0) r))). intros r Hr Ho. apply (Hch r Hr Ho), Hall. by apply elem_of_list_filter. }
  assert (HN : filter (fun r => r ∉ dkeys (ir_obs i) /\ chosen (st_found st0) r = None) outs = []).
  { apply filter_none. intros r Hr [Ho Hn]. assert (is_Some (chosen (st_found st0) r)) as [f Hf]; [|congruence].
    apply (Hch r Hr Ho), Hall. by apply elem_of_list_filter. }
  set (d0 := fun _ : vid => Tensor [] [] : tensor R).
  pose proof (C63_mixed_sampler_partial canon sched order iter B tr lp nr kn h obs topo topo_rv s i outs inits st0
    scalar other cval ld rho data shape dom w mu seeds test gen blk (no_step d0 mu)) as HT. cbv zeta in HT. rewrite Hl, HN in HT.
  assert (Hg0 : forall g, g ∈ b_gens (no_step d0 mu) -> hv (st_heap st0) g = None) by (intros g Hg; by apply elem_of_nil in Hg).
  specialize (HT HC HI eq_refl (NoDup_nil_2) Hg0 ltac:(done)).
  destruct HT as (_ & out & O1 & O2 & O3); [|apply no_step_targets|].
  { intros x z e env _ _ _ _ _ rv v Hrv Hnone. exfalso.
    assert (Hct : contracts (whole canon sched order iter B tr lp nr kn)) by by apply whole_contracts.
    destruct (sampler_parts _ h obs topo topo_rv Hct A8 A9 A10 s A11) as (i' & outs' & inits' & st0' & st & pss & Hp).
    pose proof (pt_init _ _ _ _ _ _ _ _ _ _ _ _ Hp) as Hi'. rewrite A12 in Hi'. injection Hi' as <- <- <- <-.
    apply (pt_steps _ _ _ _ _ _ _ _ _ _ _ _ Hp) in Hrv as (R1 & R2 & _). rewrite (pt_for _ _ _ _ _ _ _ _ _ _ _ _ Hp) in Hnone.
    assert (Hro : memo_get (ir_memo i) rv ∉ dkeys (ir_obs i)) by by rewrite (pt_obs _ _ _ _ _ _ _ _ _ _ _ _ Hp rv R1).
    assert (Hin : memo_get (ir_memo i) rv ∈ outs).
    { rewrite (if_outs _ _ _ _ _ _ _ _ (pt_facts _ _ _ _ _ _ _ _ _ _ _ _ Hp)). by apply elem_of_list_fmap_1. }
    assert (is_Some (chosen (st_found st0) (memo_get (ir_memo i) rv))) as [f Hf]; [|congruence].
    apply (Hch _ Hin Hro), Hall. by apply elem_of_list_filter. }
  exists out. split; [|split].
  - intros x e env Hx He [E1' E2' E3' E4']. apply O1; [by split|]. constructor; [done|done| |].
    + intros K g [HK|HK]%elem_of_app Hg; [by eapply E3'|]. apply elem_of_list_singleton in HK as ->. by apply elem_of_nil in Hg.
    + intros u Hu Hv HK. apply E4'; [done|done|]. intros K HKin. apply HK, elem_of_app. by left.
  - intros x e u Hu. apply O2. intros K [HK|HK]%elem_of_app; [|apply elem_of_list_singleton in HK as ->; apply not_elem_of_nil].
    apply elem_of_list_fmap in HK as (p & -> & Hp). destruct HI as (_ & _ & _ & _ & _ & HI & _).
    pose proof Hp as [Ho Hpo]%elem_of_list_filter. destruct (proj2 (Hch p Hpo Ho) (Hall p Hp)) as [f Hf].
    rewrite (bb_vars _ _ _ _ _ _ _ _ _ _ _ _ _ _ _ (HI p f Hp Hf)). intros ->%elem_of_list_singleton. done.
  - intros e g Hg. rewrite <- (O3 e g Hg). f_equal. apply functional_extensionality. intros x. by rewrite draw_no_step.
Qed.
Print Assumptions C62_conjugate_sampler.

(** ** The example: p1 ~ Beta(1, 1), Y1 ~ Binomial(5, p1), p2 ~ Beta(1, 1), Y2 ~ Binomial(Y1, p2),
    where Y1 is 3 and Y2 is 2, and p1 and p2 take the values 1/4 and 3/4 *)
Lemma bx_constructed s : construct_sampler bx_o bx_h bx_obs bx_topo bx_topo = Ok s ->
  constructed bx_canon all_calls bx_order bx_iter sp_B aeppl_default nu_lp 1 99 bx_h bx_obs bx_topo bx_topo s bx_i bx_outs bx_inits bx_st0.
Proof.
  intros Hs. split; [apply (ct_canon _ re_contracts)|]. split; [apply all_calls_ok|]. split; [apply all_calls_cover|].
  split; [apply (ct_order _ re_contracts)|]. split; [apply (ct_iter _ re_contracts)|]. split; [apply sp_builder|]. split; [apply nu_lp_ok|].
  split; [apply bx_model_ok|]. split; [apply bx_topo_ok|]. split; [apply bx_topo_rv_ok|]. split; [exact Hs|]. split; [apply bx_init_eq|].
  rewrite bx_ir_outs, bx_ir_obs. exact bx_binomial.
Qed.
Lemma bx_l_eq : filter (fun r => r ∉ dkeys (ir_obs bx_i)) bx_outs = [16; 20].
Proof. rewrite bx_outs_eq, bx_ir_obs. vm_compute. reflexivity. Qed.
Lemma bx_interpreted :
  interpreted sp_B bx_i bx_outs bx_st0 sp_scalar bx_other sp_cval sp_ld bx_rho bx_data bx_shape bx_dom bx_w bx_mu bx_state
    (fun _ => True) bx_gen bx_blk [16; 20].
Proof.
  unfold interpreted. rewrite bx_outs_eq, bx_ir_obs. split; [apply sp_ops|]. split; [apply sp_densities|]. split; [apply bx_old|].
  split; [|split; [exact bx_posterior|split]].
  - intros k v Hkv. apply elem_of_cons in Hkv as [[= -> ->]|Hkv]; [apply ev_given; reflexivity|].
    apply elem_of_list_singleton in Hkv as [= -> ->]. apply ev_given. reflexivity.
  - exact bx_block.
  - intros p _. split; [apply bx_iterated|done].
Qed.

(** the inputs of the compiled sampler *)
Definition bx_env (x e : vid -> tensor R) (u : vid) : option (tensor R) :=
  if Nat.eqb u 35 then Some (x 16) else if Nat.eqb u 36 then Some (x 20)
  else if decide (u ∈ [26; 32]) then Some (e u) else bx_rho u.
Lemma bx_inputs h x e : bx_leaves h = true -> inputs h bx_inits (bx_blk <$> [16; 20]) bx_rho x e (bx_env x e).
Proof.
  intros Hl. unfold bx_leaves in Hl. rewrite forallb_forall in Hl. rewrite bx_inits_eq. constructor.
  - intros u Hu. assert (Hin : In u [13; 14; 26; 32; 35; 36]).
    { unfold bx_env, bx_rho in Hu. destruct (Nat.eqb_spec u 35) as [E|_]; [rewrite E; cbn; tauto|]. destruct (Nat.eqb_spec u 36) as [E|_]; [rewrite E; cbn; tauto|].
      destruct (decide (u ∈ [26; 32])) as [Hin|_]; [rewrite elem_of_list_In in Hin; cbn in *; tauto|].
      destruct (Nat.eqb_spec u 13) as [E|_]; [rewrite E; cbn; tauto|]. destruct (Nat.eqb_spec u 14) as [E|_]; [rewrite E; cbn; tauto|]. by destruct Hu. }
    specialize (Hl u Hin). apply andb_prop in Hl as [Hl H3]. apply andb_prop in Hl as [H1 H2].
    apply bool_decide_eq_true in H1, H2. apply negb_true_iff in H3. done.
  - intros k p Hkp. apply elem_of_cons in Hkp as [[= -> ->]|Hkp]; [reflexivity|]. apply elem_of_list_singleton in Hkp as [= -> ->]. reflexivity.
  - intros K g HK Hg _. apply elem_of_list_fmap in HK as (p & -> & Hp).
    apply elem_of_cons in Hp as [->|Hp]; [|apply elem_of_list_singleton in Hp as ->]; apply elem_of_list_singleton in Hg as ->; reflexivity.
  - intros u _ Hi HK. unfold bx_env. destruct (Nat.eqb_spec u 35) as [->|_]; [destruct Hi; left|]. destruct (Nat.eqb_spec u 36) as [->|_]; [destruct Hi; right; left|].
    rewrite decide_False; [done|]. intros Hu. apply elem_of_cons in Hu as [->|Hu].
    + apply (HK (bx_blk 16)); [left|]. left.
    + apply elem_of_list_singleton in Hu as ->. apply (HK (bx_blk 20)); [right; left|]. left.
Qed.
Lemma bx_mass : (0 < bx_mu bx_w)%R.
Proof.
  assert (H : forall r t x, (0 < r < 1)%R -> (0 < t < 1)%R -> x 18 = bx_y1 -> x 22 = bx_y2 ->
    let z := put [16] (fun _ => Tensor [] [r]) (put [20] (fun _ => Tensor [] [t]) x) in (0 < bx_w z)%R).
  { intros r t x Hr Ht H1 H2 z. unfold bx_w. destruct (bx_dom_dec _) as [_|N]; [apply exp_pos|]. destruct N. split; [by split|].
    split; apply P_exact.xb_unit; assumption. }
  unfold bx_mu, bx_own. repeat apply Rplus_lt_0_compat; apply H; try reflexivity; lra.
Qed.

Example C62_example : exists s, construct_sampler bx_o bx_h bx_obs bx_topo bx_topo = Ok s /\
  exists out : (vid -> tensor R) -> (vid -> tensor R) -> vid -> tensor R,
    (forall x e, bx_dom x -> bx_state (e 26) -> bx_state (e 32) -> exists env,
       inputs (s_heap s) bx_inits (bx_blk <$> [16; 20]) bx_rho x e env /\
       evals (tensor_base sp_scalar bx_other) sp_cval (s_heap s) env 28 (out x e 16) /\
       evals (tensor_base sp_scalar bx_other) sp_cval (s_heap s) env 34 (out x e 20)) /\
    (0 < bx_mu bx_w)%R /\
    forall e g, bx_mu (fun x => bx_w x * draw_gens (bx_blk <$> [16; 20]%nat) e (fun e' => g (out x e')))%R = bx_mu (fun x => bx_w x * g x)%R.
Proof.
  destruct bx_built as (s & Hs & H6 & H10 & Hl). exists s. split; [exact Hs|].
  pose proof (C62_conjugate_sampler bx_canon all_calls bx_order bx_iter sp_B aeppl_default nu_lp 1 99 bx_h bx_obs bx_topo bx_topo s bx_i bx_outs bx_inits bx_st0
    sp_scalar bx_other sp_cval sp_ld bx_rho bx_data bx_shape bx_dom bx_w bx_mu bx_state (fun _ => True) bx_gen bx_blk) as HT.
  cbv zeta in HT. rewrite bx_l_eq in HT. destruct (HT (bx_constructed s Hs)) as (out & O1 & _ & O3); [|exact bx_interpreted|]; clear HT.
  - rewrite bx_outs_eq. intros r Hr. apply elem_of_cons in Hr as [->|Hr]; [eexists _, _, _, _, _, _; exact bx_pair1|].
    apply elem_of_list_singleton in Hr as ->. eexists _, _, _, _, _, _; exact bx_pair2.
  - exists out. split; [|split; [exact bx_mass|intros e g; by apply O3]].
    intros x e Hx E1' E2'. exists (bx_env x e). pose proof (bx_inputs (s_heap s) x e Hl) as Hi. split; [exact Hi|].
    assert (He : forall p, p ∈ [16; 20] -> bx_state (e (bx_gen p))).
    { intros p Hp. apply elem_of_cons in Hp as [->|Hp]; [exact E1'|]. apply elem_of_list_singleton in Hp as ->. exact E2'. }
    split; [exact (O1 x e _ Hx He Hi 6 28 H6)|exact (O1 x e _ Hx He Hi 10 34 H10)].
Qed.
