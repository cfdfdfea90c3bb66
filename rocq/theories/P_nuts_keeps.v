(** Property C61: one NUTS step leaves the conditional law of its variables invariant, if
    AeHMC's kernel leaves its target invariant. *)
From Coq Require Import Lra FunctionalExtensionality.
From Verif Require Import S_nuts_keeps L_nuts_inverse L_nuts_keeps E_nuts P_nuts.

(** ** C61.  [w] is the density of the model; for values [x] of the other variables, [nu x] is
    the law of [w] carried to the transformed space (what joint_logprob with
    TransformValuesRewrite is for).  If the kernel leaves [nu] invariant, the step, which
    transforms the values it is given, flattens them, applies the kernel and transforms back,
    leaves the conditional law of its variables invariant, so that it can take its place in
    C57.  For angles the kernel has to be periodic: their forward transform does not undo the
    backward one.  Missing: bounds of supports that depend on the variables updated, for which
    it is false (C42). *)
Theorem C61_nuts_keeps_the_conditional_partial K other cval B lp nr h ts re h' s env space N test w orig move nu :
  step B aeppl_default lp nr h ts re = (h', s) ->
  lp_ok lp -> good_heap h -> (forall v, v ∈ dvalues ts ++ dvalues re -> is_Some (hv h v)) ->
  nuts_inputs K other cval h ts h' env space ->
  nuts_moves K other cval h ts h' env space move ->
  nuts_target ts space test w (b_own N) orig nu ->
  kernel_keeps ts test (b_seed N) orig move nu ->
  step_computes K other cval ts h' s env space (b_step N) ->
  b_vars N = dkeys ts -> (forall g, test g -> test (fun x => kernel N x g)) ->
  (forall x rv, rv ∈ dkeys ts -> vs_dist (space x rv) <> RV_vonmises) \/
  (forall x e z z', free ts space x z -> free ts space x z' -> (forall r, r ∈ dkeys ts -> orig x z r = orig x z' r) ->
      forall r, r ∈ dkeys ts -> orig x (move x e z) r = orig x (move x e z') r) ->
  keeps_conditional test w N.
Proof.
  intros Hst Hlp Hg Hv Hi Hm Ht Hk Hc HV Hte Hper.
  apply (nuts_keeps K other cval B lp nr h ts re h' s env space Hst Hlp Hg Hv Hi N test w orig move nu Hm Ht Hk Hc HV Hte).
  destruct Hper as [Hno|Hper]; [|exact Hper]. apply (no_angles K other cval h ts h' env space Hi orig move Hm Hno).
  apply (nt_orig _ _ _ _ _ _ _ Ht).
Qed.
Print Assumptions C61_nuts_keeps_the_conditional_partial.

(** ** An example: S ~ exponential(1), U ~ uniform(0, 4), Y observed.  The kernel reverses the
    sign of the position or not, according to the state of its generator; the target is the law
    on two values of (S, U). *)
Definition nk_neg (t : tensor num) : tensor num := Tensor (t_shape t) (nlift Ropp <$> t_data t).
Definition nk_flip (t : tensor num) : bool := match t_data t with Some a :: _ => if Req_EM_T a 0 then false else true | _ => false end.
Definition nk_K (xs : list (tensor num)) : option (list (tensor num)) :=
  match xs with
  | q :: p :: r :: rest => Some ((if nk_flip r then nk_neg q else q) :: p :: r :: rest)
  | _ => Some xs
  end.
Definition nk_env (x e : vid -> tensor num) (u : vid) : option (tensor num) :=
  if decide (u = 14) then Some (x 9) else if decide (u = 15) then Some (x 11) else if decide (u = 25) then Some (e 25) else nu_rho 4 u.
Definition nk_space (x : vid -> tensor num) (rv : vid) : value_space :=
  if decide (rv = 9) then ValueSpace RV_exponential [sc 1] (sc 1) else ValueSpace RV_uniform [sc 0; sc 4] (sc 1).
Definition nk_orig (x z : vid -> tensor num) (rv : vid) : tensor num :=
  default (sc 0) (if decide (rv = 9) then backward KLog [z rv] else backward KInterval [z rv; sc 0; sc 4]).
Definition nk_forward (x : vid -> tensor num) (rv : vid) : tensor num :=
  default (sc 0) (if decide (rv = 9) then forward KLog [x rv] else forward KInterval [x rv; sc 0; sc 4]).
Definition nk_move (x e z : vid -> tensor num) (rv : vid) : tensor num := if nk_flip (e 25) then nk_neg (z rv) else z rv.
Definition nk_z1 : vid -> tensor num := fun _ => sc 1.
Definition nk_z2 : vid -> tensor num := fun _ => nk_neg (sc 1).
Definition nk_nu (x : vid -> tensor num) : law (vid -> tensor num) := fun f => (f nk_z1 + f nk_z2)%R.
Definition nk_own : law (vid -> tensor num) := fun f => (f (nk_orig (fun _ => sc 0) nk_z1) + f (nk_orig (fun _ => sc 0) nk_z2))%R.
Definition nk_seed : law (vid -> tensor num) := fun f => (f (fun _ => sc 0) / 3 + f (fun _ => sc 1) * (2 / 3))%R.
Definition nk_N : step_block (tensor num) :=
  StepBlock [9; 11] [25] nk_seed (fun x e => nk_orig x (nk_move x e (nk_forward x))) nk_own (fun f => f (fun _ => sc 0)).

Lemma nk_neg_neg t : nk_neg (nk_neg t) = t.
Proof.
  destruct t as [s d]. unfold nk_neg. cbn. f_equal. rewrite <- list_fmap_compose. transitivity ((fun a : num => a) <$> d); [|by rewrite list_fmap_id].
  apply list_fmap_ext. intros i [a|] _; [|done]. cbn. by rewrite Ropp_involutive.
Qed.
Lemma nk_neg_ravel (zs : list (tensor num)) : nk_neg (ravel_params zs) = ravel_params (nk_neg <$> zs).
Proof.
  unfold nk_neg, ravel_params. cbn. assert (E : nlift Ropp <$> mjoin (t_data <$> zs) = mjoin (t_data <$> ((fun t => Tensor (t_shape t) (nlift Ropp <$> t_data t)) <$> zs))).
  { induction zs as [|z zs IH]; [done|]. cbn in *. unfold mjoin in *. by rewrite fmap_app, IH. }
  rewrite <- E. by rewrite fmap_length.
Qed.
Lemma nk_V rv : rv ∈ dkeys nu_ts -> rv = 9 \/ rv = 11.
Proof. intros H. change (rv ∈ [9; 11]) in H. apply elem_of_cons in H as [->|H]; [by left|]. apply elem_of_list_singleton in H as ->. by right. Qed.
Lemma nk_spaces x rv : rv ∈ dkeys nu_ts -> space_ok (nk_space x rv).
Proof.
  intros [-> | ->]%nk_V; constructor; cbn; try reflexivity.
  - constructor; [apply sc_fits|constructor].
  - apply (sc_support RV_exponential [1%R] (fun x => 0 < x)%R); [done|done|lra].
  - constructor; [apply sc_fits|constructor; [apply sc_fits|constructor]].
  - apply (sc_support RV_uniform [0; 4]%R (fun x => 0 < x < 4)%R); [done|done|lra].
Qed.
Lemma nk_known u : u = 14 \/ u = 15 -> is_Some (hv (nu_h 4) u).
Proof. intros [-> | ->]; apply nu_vals; [by left|by left|by left|right; by left]. Qed.
Lemma nk_25 : owner (nu_step 4).1 25 = None.
Proof. vm_compute; reflexivity. Qed.
Lemma nk_env_new x e u : hv (nu_h 4) u = None -> is_Some (owner (nu_step 4).1 u) -> nk_env x e u = None.
Proof.
  intros Hu Ho. unfold nk_env. destruct (decide (u = 14)) as [H1|_].
  { destruct (nk_known u (or_introl H1)) as [w Hw]. rewrite Hu in Hw. inversion Hw. }
  destruct (decide (u = 15)) as [H2|_].
  { destruct (nk_known u (or_intror H2)) as [w Hw]. rewrite Hu in Hw. inversion Hw. }
  destruct (decide (u = 25)) as [->|_]; [|exact (nu_new 4 u Hu Ho)].
  rewrite nk_25 in Ho. destruct Ho as [w Hw]. inversion Hw.
Qed.
Lemma nk_inputs : nuts_inputs nk_K nu_other nu_cval (nu_h 4) nu_ts (nu_step 4).1 nk_env nk_space.
Proof.
  set (Hb := or_introl (conj eq_refl eq_refl) : 4 = 4 /\ 4%R = 4%R \/ 4 = 9 /\ 4%R = 10%R).
  constructor.
  - intros x e u. apply nk_env_new.
  - intros x e rv vv Hin. apply ev_given. apply elem_of_cons in Hin as [[= -> ->]|Hin]; [reflexivity|].
    apply elem_of_list_singleton in Hin. injection Hin as -> ->. reflexivity.
  - intros x rv. apply nk_spaces.
  - done.
  - intros x e rv [-> | ->]%nk_V.
    + exists [3]. split; [apply (nu_rvS 4 4 Hb)|]. split; [done|]. constructor.
    + exists [5; 4]. split; [apply (nu_rvU 4 4 Hb)|]. split; [done|].
      change (Forall2 (evals (nuts_base nk_K nu_other) nu_cval (nu_h 4) (nk_env x e)) [5; 4] [sc 0; sc 4]).
      constructor; [by apply (nu_zero 4 4 Hb)|]. constructor; [by apply (nu_four 4 4 Hb)|constructor].
Qed.

(** the kernel node of the step *)
Definition nk_check (h : heap) : bool :=
  forallb (fun p : nat * node => bool_decide (n_op p.2 = nuts_op N_expand -> n_ins p.2 = [19; 24; 25; 20; 21; 16])) (map_to_list (h_nodes h)).
Lemma nk_check_ok h : nk_check h = true -> forall n nd, hn h n = Some nd -> n_op nd = nuts_op N_expand -> n_ins nd = [19; 24; 25; 20; 21; 16].
Proof.
  unfold nk_check. intros Hc n nd Hn. rewrite forallb_forall in Hc.
  specialize (Hc (n, nd) ltac:(apply elem_of_list_In, elem_of_map_to_list; exact Hn)). by apply bool_decide_eq_true_1 in Hc.
Qed.
Lemma nk_node n nd : hn (nu_step 4).1 n = Some nd -> n_op nd = nuts_op N_expand -> n_ins nd = [19; 24; 25; 20; 21; 16].
Proof. apply nk_check_ok. vm_compute; reflexivity. Qed.
Lemma nk_moves : nuts_moves nk_K nu_other nu_cval (nu_h 4) nu_ts (nu_step 4).1 nk_env nk_space nk_move.
Proof.
  constructor.
  - intros x e z Hz rv Hrv. destruct (Hz rv Hrv) as (H1 & H2 & H3). unfold nk_move. destruct (nk_flip (e 25)); [|done].
    split; [unfold tensor_ok in *; cbn; by rewrite fmap_length|]. split; [|done]. unfold finite in *. cbn. apply Forall_fmap.
    eapply Forall_impl; [exact H2|]. intros a [r ->]. by eexists.
  - intros x e z z' rv Hz Hrv. unfold nk_move. by rewrite (Hz rv Hrv).
  - intros x y e z v n nd q ins rest Hz _ _ Hn Hop Hin Hrest.
    rewrite (nk_node n nd Hn Hop) in Hin. injection Hin as <- <-.
    apply Forall2_cons_inv_l in Hrest as (p & l1 & _ & Hl1 & ->). apply Forall2_cons_inv_l in Hl1 as (r & l2 & Hr & _ & ->).
    assert (Er : r = e 25).
    { eapply evals_det; [exact Hr|]. apply ev_given. reflexivity. }
    subst r. cbn [nk_K]. exists (p :: e 25 :: l2). do 2 f_equal. unfold nk_move. destruct (nk_flip (e 25)); [|done].
    rewrite nk_neg_ravel. f_equal.
Qed.

Lemma nk_original x z rv : rv ∈ dkeys nu_ts -> is_free (nk_space x rv) (z rv) -> original (nk_space x rv) (z rv) (nk_orig x z rv).
Proof.
  intros Hrv Hz. destruct (free_value _ (nk_spaces x rv Hrv) _ Hz) as (y & Hy & _).
  apply nk_V in Hrv as [-> | ->].
  - change (backward KLog [z 9] = Some y) in Hy. change (backward KLog [z 9] = Some (default (sc 0) (backward KLog [z 9]))). by rewrite Hy.
  - change (backward KInterval [z 11; sc 0; sc 4] = Some y) in Hy.
    change (backward KInterval [z 11; sc 0; sc 4] = Some (default (sc 0) (backward KInterval [z 11; sc 0; sc 4]))). by rewrite Hy.
Qed.
Lemma nk_free_z x : free nu_ts nk_space x nk_z1 /\ free nu_ts nk_space x nk_z2.
Proof.
  split; intros rv [-> | ->]%nk_V; (split; [done|]); (split; [repeat constructor; by eexists|]); reflexivity.
Qed.
Lemma nk_target : nuts_target nu_ts nk_space (fun _ => True) (fun _ => 1%R) nk_own nk_orig nk_nu.
Proof.
  constructor.
  - intros x f f' Hf. unfold nk_nu. destruct (nk_free_z x) as [H1 H2]. by rewrite (Hf _ H1), (Hf _ H2).
  - intros x z Hz rv Hrv. apply nk_original; [done|by apply Hz].
  - intros x g _. unfold nk_own, nk_nu. rewrite !Rmult_1_l. reflexivity.
Qed.
Lemma nk_keeps : kernel_keeps nu_ts (fun _ => True) nk_seed nk_orig nk_move nk_nu.
Proof.
  intros x g _. unfold nk_nu, nk_seed.
  assert (F0 : forall z, nk_move x (fun _ => sc 0) z = z).
  { intros z. apply functional_extensionality. intros u. unfold nk_move, nk_flip. cbn. by destruct (Req_EM_T 0 0). }
  assert (F1 : forall z, nk_move x (fun _ => sc 1) z = fun u => nk_neg (z u)).
  { intros z. apply functional_extensionality. intros u. unfold nk_move, nk_flip. cbn. destruct (Req_EM_T 1 0) as [H|_]; [lra|done]. }
  rewrite !F0, !F1. change (fun u => nk_neg (nk_z1 u)) with nk_z2.
  assert (E : (fun u => nk_neg (nk_z2 u)) = nk_z1) by (apply functional_extensionality; intros u; apply nk_neg_neg). rewrite E. lra.
Qed.
Lemma nk_K_position : returns_position nk_K.
Proof.
  intros q args ys Hok Hf Hy.
  assert (E : exists b rest, ys = (if b : bool then nk_neg q else q) :: rest).
  { destruct args as [|p [|r rest]]; cbn in Hy; injection Hy as <-; [by exists false, []|by exists false, [p]|by exists (nk_flip r), (p :: r :: rest)]. }
  destruct E as (b & rest & ->). exists (if b then nk_neg q else q), rest. split; [done|]. destruct b; [|done].
  split; [unfold tensor_ok in *; cbn; by rewrite fmap_length|]. split; [|done]. unfold finite in *. cbn. apply Forall_fmap.
  eapply Forall_impl; [exact Hf|]. intros a [r ->]. by eexists.
Qed.

Lemma nk_leaf x e u : hv (nu_h 4) u = None -> owner (nu_step 4).1 u = None -> is_Some (nk_env x e u).
Proof. intros H1 H2. unfold nk_env. repeat (case_decide; [by eexists|]). by apply nu_leaves. Qed.
Definition nk_sigma (x : vid -> tensor num) (u : vid) : option (tensor num) :=
  if decide (u = 9) then Some (x 9) else if decide (u = 11) then Some (x 11) else None.
Definition nk_values (x : vid -> tensor num) : Prop := forall r, r ∈ dkeys nu_ts -> is_value (nk_space x r) (x r).
Lemma nk_Hb : 4 = 4 /\ 4%R = 4%R \/ 4 = 9 /\ 4%R = 10%R.
Proof. by left. Qed.
Lemma nk_state x e rv vv : nk_values x -> (rv, vv) ∈ nu_ts -> exists d params,
  in_state (evals (nuts_base nk_K nu_other) nu_cval (nu_h 4)) (nk_env x e) (nk_sigma x) (nu_h 4) rv vv d params /\
  forall u, reachable (nu_h 4) (bounds d params) u -> nk_sigma x u = None.
Proof.
  intros Hx Hin. apply elem_of_cons in Hin as [[= -> ->]|Hin]; [|apply elem_of_list_singleton in Hin; injection Hin as -> ->].
  - destruct (Hx 9 ltac:(by left)) as (X1 & X2 & X3).
    exists RV_exponential, [3]. split; [|intros u (w & Hw & _); by apply elem_of_nil in Hw].
    split; [apply (nu_rvS 4 4 nk_Hb)|]. split; [reflexivity|]. exists (x 9), [sc 1].
    split; [reflexivity|]. split; [by apply ev_given|]. split; [exact X1|].
    split; [constructor; [by apply (nu_one 4 4 nk_Hb)|constructor]|]. split; [|exact X3].
    rewrite X2. constructor; [apply sc_fits|constructor].
  - destruct (Hx 11 ltac:(right; by left)) as (X1 & X2 & X3).
    exists RV_uniform, [5; 4]. split.
    + split; [apply (nu_rvU 4 4 nk_Hb)|]. split; [reflexivity|]. exists (x 11), [sc 0; sc 4].
      split; [reflexivity|]. split; [by apply ev_given|]. split; [exact X1|].
      split; [constructor; [by apply (nu_zero 4 4 nk_Hb)|constructor; [by apply (nu_four 4 4 nk_Hb)|constructor]]|].
      split; [|exact X3]. rewrite X2. constructor; [apply sc_fits|constructor; [apply sc_fits|constructor]].
    + change (bounds RV_uniform [5; 4]) with [5; 4]. intros u Hu. apply nu_leaves_only in Hu.
      * apply elem_of_cons in Hu as [->|Hu]; [reflexivity|]. apply elem_of_list_singleton in Hu as ->. reflexivity.
      * intros w Hw. apply elem_of_cons in Hw as [->|Hw]; [reflexivity|]. apply elem_of_list_singleton in Hw as ->. reflexivity.
Qed.
Lemma nk_returns x e i rv vv : nk_values x -> nu_ts !! i = Some (rv, vv) -> exists w X', ns_results (nu_step 4).2 !! i = Some w /\
  evals (nuts_base nk_K nu_other) nu_cval (nu_step 4).1 (nk_env x e) w X'.
Proof.
  intros Hx.
  apply (C42_nuts_returns nk_K nu_other nu_cval re_B nu_lp 1 (nu_h 4) nu_ts nu_re (nk_env x e) (nk_sigma x) (nu_step 4).1 (nu_step 4).2).
  - apply surjective_pairing.
  - apply nu_lp_ok.
  - apply nu_good. by left.
  - intros u. apply nu_vals. by left.
  - apply nk_K_position.
  - intros q args _ _. destruct args as [|p [|r rest]]; by eexists.
  - intros a b. exists a, a. reflexivity.
  - intros u. apply nk_env_new.
  - intros u Hu Hsh. apply nk_leaf; [exact Hu|]. exact (nu_shared 4 4 nk_Hb u Hsh).
  - apply nk_leaf; vm_compute; reflexivity.
  - apply nk_leaf; vm_compute; reflexivity.
  - intros h1 _ _ u Hu. cbn in Hu. apply elem_of_list_singleton in Hu as ->. exists (sc 0). apply ev_given. reflexivity.
  - intros rv' vv'. apply (nk_state x e rv' vv' Hx).
Qed.
Lemma nk_key i rv : dkeys nu_ts !! i = Some rv -> exists vv, nu_ts !! i = Some (rv, vv).
Proof. intros Hi. destruct i as [|[|i]]; [| |discriminate Hi]; injection Hi as <-; eexists; reflexivity. Qed.
Lemma nk_at x z r : r ∈ dkeys nu_ts -> is_value (nk_space x r) (x r) -> is_free (nk_space x r) z -> original (nk_space x r) z (x r) -> z = nk_forward x r.
Proof.
  intros Hr Hx Hz Ho. pose proof (nk_spaces x r Hr) as Hs. destruct (value_free _ Hs _ Hx) as (z' & Hf & Hz' & Ho').
  assert (Ed : vs_dist (nk_space x r) <> RV_vonmises) by (by apply nk_V in Hr as [-> | ->]).
  rewrite (original_inj _ Hs z z' (x r) Ed Hz Hz' Ho Ho'). apply nk_V in Hr as [-> | ->].
  - change (forward KLog [x 9] = Some z') in Hf. change (z' = default (sc 0) (forward KLog [x 9])). by rewrite Hf.
  - change (forward KInterval [x 11; sc 0; sc 4] = Some z') in Hf. change (z' = default (sc 0) (forward KInterval [x 11; sc 0; sc 4])). by rewrite Hf.
Qed.
Lemma nk_put (x : vid -> tensor num) : put (dkeys nu_ts) x x = x.
Proof. apply functional_extensionality. intros u. unfold put. by case_decide. Qed.
Lemma nk_computes : step_computes nk_K nu_other nu_cval nu_ts (nu_step 4).1 (nu_step 4).2 nk_env nk_space (b_step nk_N).
Proof.
  intros x e i rv v Hx Hi Hv. destruct (nk_key i rv Hi) as [vv Hts].
  destruct (nk_returns x e i rv vv Hx Hts) as (w & X' & Hw & HX).
  assert (Ew : w = v) by (rewrite Hv in Hw; injection Hw as Hw'; exact (eq_sym Hw')). rewrite Ew in HX. clear Ew Hw w.
  destruct (step_moves nk_K nu_other nu_cval re_B nu_lp 1 (nu_h 4) nu_ts nu_re (nu_step 4).1 (nu_step 4).2 nk_env nk_space
    (surjective_pairing _) nu_lp_ok (nu_good 4 (or_introl eq_refl)) (fun u => nu_vals 4 u (or_introl eq_refl)) nk_inputs
    nk_move x x e i rv v X' nk_moves Hx Hi Hv) as (z & Hz & Ho & Hres).
  { rewrite nk_put. exact HX. }
  assert (Hrv : rv ∈ dkeys nu_ts) by (eapply elem_of_list_lookup_2; exact Hi).
  assert (Ez : forall r, r ∈ dkeys nu_ts -> z r = nk_forward x r).
  { intros r Hr. exact (nk_at x (z r) r Hr (Hx r Hr) (Hz r Hr) (Ho r Hr)). }
  pose proof (nm_free _ _ _ _ _ _ _ _ _ nk_moves x e z Hz) as Hmf.
  rewrite (original_det _ _ _ _ Hres (nk_original x (nk_move x e z) rv Hrv (Hmf rv Hrv))) in HX.
  assert (E : nk_orig x (nk_move x e z) rv = b_step nk_N x e rv).
  { cbn [b_step nk_N]. unfold nk_orig. rewrite (nm_own _ _ _ _ _ _ _ _ _ nk_moves x e z (nk_forward x) rv Ez Hrv). reflexivity. }
  rewrite <- E. exact HX.
Qed.
Example C61_example : keeps_conditional (fun _ => True) (fun _ => 1%R) nk_N.
Proof.
  apply (C61_nuts_keeps_the_conditional_partial nk_K nu_other nu_cval re_B nu_lp 1 (nu_h 4) nu_ts nu_re (nu_step 4).1 (nu_step 4).2 nk_env nk_space
    nk_N (fun _ => True) (fun _ => 1%R) nk_orig nk_move nk_nu).
  - apply surjective_pairing.
  - apply nu_lp_ok.
  - apply nu_good. by left.
  - intros u. apply nu_vals. by left.
  - apply nk_inputs.
  - apply nk_moves.
  - apply nk_target.
  - apply nk_keeps.
  - apply nk_computes.
  - reflexivity.
  - done.
  - left. intros x rv [-> | ->]%nk_V; done.
Qed.
