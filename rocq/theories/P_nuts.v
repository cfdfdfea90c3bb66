(** C42, C43, C44, C50: the NUTS step. *)
From Coq Require Import Lra.
From Verif Require Import L_nuts_updates E_nuts.

(** [step] builds the graph of one NUTS step for the variables [ts] (with their value
    variables), the others being fixed by [re].  The operators of the graph mean
    [nuts_base K other]: [K] is the kernel (the trajectory AeHMC expands), [other] every
    operator that is not special to the step.  [rho] gives the values of the leaves,
    [sigma] those of the model's random variables. *)

(** ** C42.  The state before the step is in the support: every variable updated is in the
    support of its distribution, whose parameters are evaluated at the state.  Then so is
    every variable after the step, with the shape it had, and it is unchanged if the kernel
    returns the position it was given, _provided that_ the bounds of the supports do not
    depend on random variables of the model. *)
Theorem C42_nuts_support_partial K other cval B lp nr h ts re rho sigma sigma' h' s :
  let ev := evals (nuts_base K other) cval in
  step B aeppl_default lp nr h ts re = (h', s) ->
  lp_ok lp -> good_heap h -> (forall v, v ∈ dvalues ts ++ dvalues re -> is_Some (hv h v)) -> returns_position K ->
  (forall u, hv h u = None -> is_Some (owner h' u) -> rho u = None) ->
  (forall rv vv, (rv, vv) ∈ ts -> exists d params, in_state (ev h) rho sigma h rv vv d params /\
     (forall u, reachable h (bounds d params) u -> sigma u = None)) ->
  (forall u, sigma u = None -> sigma' u = None) ->
  (forall i rv vv w, ts !! i = Some (rv, vv) -> ns_results s !! i = Some w -> exists X', ev h' rho w X' /\ sigma' rv = Some X') ->
  forall rv vv d params, (rv, vv) ∈ ts -> rv_of h rv d params ->
  exists x X', sigma rv = Some x /\ sigma' rv = Some X' /\ tensor_ok X' /\ same_shape X' x /\
    (forall P', Forall2 (ev h (over sigma' rho)) params P' -> Forall finite P' -> Forall (fits (t_shape X')) P' -> in_support d P' X') /\
    (kernel_stays K -> X' = x).
Proof.
  cbv zeta. intros Hst Hlp Hg Hv HK Hrho Hgood. apply (step_support_after K other cval B lp nr h ts re rho sigma sigma' h' s Hst Hlp Hg Hv HK Hrho).
  intros rv vv Hin. destruct (Hgood rv vv Hin) as (d & params & (Hrv & Hn & x & P & Hs & Hx & Hok & HP & Hf & Hsup) & Hb).
  by exists d, params, x, P.
Qed.
Print Assumptions C42_nuts_support_partial.

(** ... and the step does compute a value for every variable, if the kernel always returns *)
Theorem C42_nuts_returns K other cval B lp nr h ts re rho sigma h' s :
  let ev := evals (nuts_base K other) cval in
  step B aeppl_default lp nr h ts re = (h', s) ->
  lp_ok lp -> good_heap h -> (forall v, v ∈ dvalues ts ++ dvalues re -> is_Some (hv h v)) ->
  returns_position K -> (forall q args, tensor_ok q -> finite q -> is_Some (K (q :: args))) ->
  (forall a b, exists y x, other (nuts_op N_momentum) [a; b] = Some [y; x]) ->
  (forall u, hv h u = None -> is_Some (owner h' u) -> rho u = None) ->
  (forall u, hv h u = None -> is_shared h' u = true -> is_Some (rho u)) ->
  is_Some (rho (ns_params s).1) -> is_Some (rho (ns_params s).2) ->
  (forall h1, extends h h1 -> good_heap h1 -> forall v, v ∈ (lp h1 ts re).2 -> exists x, ev (lp h1 ts re).1 rho v x) ->
  (forall rv vv, (rv, vv) ∈ ts -> exists d params, in_state (ev h) rho sigma h rv vv d params /\
     (forall u, reachable h (bounds d params) u -> sigma u = None)) ->
  forall i rv vv, ts !! i = Some (rv, vv) -> exists w X', ns_results s !! i = Some w /\ ev h' rho w X'.
Proof.
  cbv zeta. intros Hst Hlp Hg Hv HK Hrun Hmom Hrho Hsh H1 H2 Hlpv Hgood.
  apply (step_defined K other cval B lp nr h ts re rho sigma h' s Hst Hlp Hg Hv HK Hrun Hmom Hrho Hsh H1 H2 Hlpv).
  intros rv vv Hin. destruct (Hgood rv vv Hin) as (d & params & (Hrv & Hn & x & P & Hs & Hx & Hok & HP & Hf & Hsup) & Hb).
  by exists d, params, x, P.
Qed.
Print Assumptions C42_nuts_returns.

(** Without the proviso the claim is false: the transforms are applied with the inputs of
    the random variable's node, so a bound that is a random variable of the model is drawn
    again from its prior.  For S ~ exponential(1), U ~ uniform(0, S), Y ~ normal(U, 1) at
    S = 2, U = 1 the step may return S = 1, U = 5. *)
Theorem C42_nuts_support_refuted : exists K other cval B lp nr h ts re rho sigma sigma' h' s,
  let ev := evals (nuts_base K other) cval in
  step B aeppl_default lp nr h ts re = (h', s) /\
  lp_ok lp /\ good_heap h /\ (forall v, v ∈ dvalues ts ++ dvalues re -> is_Some (hv h v)) /\ returns_position K /\
  (forall u, hv h u = None -> is_Some (owner h' u) -> rho u = None) /\
  (forall rv vv, (rv, vv) ∈ ts -> exists d params, in_state (ev h) rho sigma h rv vv d params) /\
  (forall u, sigma u = None -> sigma' u = None) /\
  (forall i rv vv w, ts !! i = Some (rv, vv) -> ns_results s !! i = Some w -> exists X', ev h' rho w X' /\ sigma' rv = Some X') /\
  exists rv vv d params P' X', (rv, vv) ∈ ts /\ rv_of h rv d params /\ sigma' rv = Some X' /\
    Forall2 (ev h (over sigma' rho)) params P' /\ Forall finite P' /\ Forall (fits (t_shape X')) P' /\ ~ in_support d P' X'.
Proof.
  set (Hb := or_intror (conj eq_refl eq_refl) : 9 = 4 /\ 10%R = 4%R \/ 9 = 9 /\ 10%R = 10%R).
  destruct (nu_results 9 10 Hb) as (w1 & w2 & Hw & H1 & H2).
  exists to_zero, nu_other, nu_cval, re_B, nu_lp, 1, (nu_h 9), nu_ts, nu_re, (nu_rho 9), (nu_sigma 2 1 0), (nu_sigma 1 5 0), (nu_step 9).1, (nu_step 9).2.
  cbv zeta. split; [apply surjective_pairing|]. split; [apply nu_lp_ok|]. split; [apply nu_good; by right|].
  split; [intros v; apply nu_vals; by right|]. split; [apply to_zero_position|]. split; [apply (nu_new 9)|].
  assert (H3 : over (nu_sigma 2 1 0) (nu_rho 9) 3 = None) by reflexivity.
  assert (H5 : over (nu_sigma 2 1 0) (nu_rho 9) 5 = None) by reflexivity.
  split; [|split; [|split]].
  - intros rv vv Hin. apply elem_of_cons in Hin as [[= -> ->]|Hin]; [|apply elem_of_list_singleton in Hin; injection Hin as -> ->].
    + exists RV_exponential, [3]. split; [apply (nu_rvS 9 10 Hb)|]. split; [reflexivity|]. exists (sc 2), [sc 1].
      split; [reflexivity|]. split; [by apply ev_given|]. split; [apply sc_ok|].
      split; [constructor; [by apply (nu_one 9 10 Hb)|constructor]|]. split; [constructor; [apply sc_fits|constructor]|].
      apply (sc_support RV_exponential [1%R] (fun x => 0 < x)%R); [done|done|lra].
    + exists RV_uniform, [5; 9]. split; [apply (nu_rvU 9 10 Hb)|]. split; [reflexivity|]. exists (sc 1), [sc 0; sc 2].
      split; [reflexivity|]. split; [by apply ev_given|]. split; [apply sc_ok|].
      split; [constructor; [by apply (nu_zero 9 10 Hb)|constructor; [by apply ev_given|constructor]]|].
      split; [constructor; [apply sc_fits|constructor; [apply sc_fits|constructor]]|].
      apply (sc_support RV_uniform [0; 2]%R (fun x => 0 < x < 2)%R); [done|done|lra].
  - intros u. unfold nu_sigma. repeat case_decide; done.
  - intros i rv vv w Hi Hwi. rewrite Hw in Hwi. destruct i as [|[|i]]; [| |done]; cbn in Hi, Hwi; injection Hi as <- <-; injection Hwi as <-.
    + exists (sc 1). split; [exact H1|reflexivity].
    + exists (sc (10 / 2)). split; [exact H2|]. cbn. unfold nu_sigma. do 2 f_equal. lra.
  - exists 11, 15, RV_uniform, [5; 9], [sc 0; sc 1], (sc 5). split; [right; by left|]. split; [apply (nu_rvU 9 10 Hb)|].
    split; [reflexivity|]. split; [constructor; [by apply (nu_zero 9 10 Hb)|constructor; [by apply ev_given|constructor]]|].
    split; [constructor; [apply sc_finite|constructor; [apply sc_finite|constructor]]|].
    split; [constructor; [apply sc_fits|constructor; [apply sc_fits|constructor]]|].
    rewrite (sc_support RV_uniform [0; 1]%R (fun x => 0 < x < 1)%R); [lra|done|done].
Qed.
Print Assumptions C42_nuts_support_refuted.

(** Non-vacuity, and the values: S ~ exponential(1), U ~ uniform(0, 4) at S = 2, U = 1 *)
Lemma nu_leaves_only (h : heap) vs : (forall v, v ∈ vs -> owner h v = None) -> forall u, reachable h vs u -> u ∈ vs.
Proof.
  intros Hl u (v & Hv & Hr). apply rtc_inv in Hr as [->|(z & Hz & _)]; [done|]. exfalso.
  unfold input_of, parents in Hz. rewrite (Hl v Hv) in Hz. by apply elem_of_nil in Hz.
Qed.
Lemma nu_state K rv vv : (rv, vv) ∈ nu_ts -> exists d params,
  in_state (evals (nuts_base K nu_other) nu_cval (nu_h 4)) (nu_rho 4) (nu_sigma 2 1 0) (nu_h 4) rv vv d params /\
  forall u, reachable (nu_h 4) (bounds d params) u -> nu_sigma 2 1 0 u = None.
Proof.
  set (Hb := or_introl (conj eq_refl eq_refl) : 4 = 4 /\ 4%R = 4%R \/ 4 = 9 /\ 4%R = 10%R).
  assert (H3 : over (nu_sigma 2 1 0) (nu_rho 4) 3 = None) by reflexivity.
  assert (H4 : over (nu_sigma 2 1 0) (nu_rho 4) 4 = None) by reflexivity.
  assert (H5 : over (nu_sigma 2 1 0) (nu_rho 4) 5 = None) by reflexivity.
  intros Hin. apply elem_of_cons in Hin as [[= -> ->]|Hin]; [|apply elem_of_list_singleton in Hin; injection Hin as -> ->].
  - exists RV_exponential, [3]. split; [|intros u (v & Hv & _); by apply elem_of_nil in Hv].
    split; [apply (nu_rvS 4 4 Hb)|]. split; [reflexivity|]. exists (sc 2), [sc 1].
    split; [reflexivity|]. split; [by apply ev_given|]. split; [apply sc_ok|].
    split; [constructor; [by apply (nu_one 4 4 Hb)|constructor]|]. split; [constructor; [apply sc_fits|constructor]|].
    apply (sc_support RV_exponential [1%R] (fun x => 0 < x)%R); [done|done|lra].
  - exists RV_uniform, [5; 4]. split.
    + split; [apply (nu_rvU 4 4 Hb)|]. split; [reflexivity|]. exists (sc 1), [sc 0; sc 4].
      split; [reflexivity|]. split; [by apply ev_given|]. split; [apply sc_ok|].
      split; [constructor; [by apply (nu_zero 4 4 Hb)|constructor; [by apply (nu_four 4 4 Hb)|constructor]]|].
      split; [constructor; [apply sc_fits|constructor; [apply sc_fits|constructor]]|].
      apply (sc_support RV_uniform [0; 4]%R (fun x => 0 < x < 4)%R); [done|done|lra].
    + change (bounds RV_uniform [5; 4]) with [5; 4]. intros u Hu. apply nu_leaves_only in Hu.
      * apply elem_of_cons in Hu as [->|Hu]; [reflexivity|]. apply elem_of_list_singleton in Hu as ->. reflexivity.
      * intros v Hv. apply elem_of_cons in Hv as [->|Hv]; [reflexivity|]. apply elem_of_list_singleton in Hv as ->. reflexivity.
Qed.
Example C42_returns_instance i rv vv : nu_ts !! i = Some (rv, vv) -> exists w X', ns_results (nu_step 4).2 !! i = Some w /\
  evals (nuts_base to_zero nu_other) nu_cval (nu_step 4).1 (nu_rho 4) w X'.
Proof.
  apply (C42_nuts_returns to_zero nu_other nu_cval re_B nu_lp 1 (nu_h 4) nu_ts nu_re (nu_rho 4) (nu_sigma 2 1 0) (nu_step 4).1 (nu_step 4).2).
  - apply surjective_pairing.
  - apply nu_lp_ok.
  - apply nu_good. by left.
  - intros v. apply nu_vals. by left.
  - apply to_zero_position.
  - intros q args _ _. by eexists.
  - intros a b. exists a, a. reflexivity.
  - apply (nu_new 4).
  - intros u Hu Hsh. exact (nu_leaves 4 u Hu (nu_shared 4 4 (or_introl (conj eq_refl eq_refl)) u Hsh)).
  - apply (nu_leaves 4); vm_compute; reflexivity.
  - apply (nu_leaves 4); vm_compute; reflexivity.
  - intros h1 _ _ v Hv. cbn in Hv. apply elem_of_list_singleton in Hv as ->. exists (sc 0). apply ev_given. reflexivity.
  - apply nu_state.
Qed.
(** ... after the step S = 1 and U = 2 *)
Example C42_support_instance rv vv d params : (rv, vv) ∈ nu_ts -> rv_of (nu_h 4) rv d params ->
  exists x X', nu_sigma 2 1 0 rv = Some x /\ nu_sigma 1 2 0 rv = Some X' /\ tensor_ok X' /\ same_shape X' x /\
    (forall P', Forall2 (evals (nuts_base to_zero nu_other) nu_cval (nu_h 4) (over (nu_sigma 1 2 0) (nu_rho 4))) params P' ->
       Forall finite P' -> Forall (fits (t_shape X')) P' -> in_support d P' X').
Proof.
  intros Hin Hrv.
  set (Hb := or_introl (conj eq_refl eq_refl) : 4 = 4 /\ 4%R = 4%R \/ 4 = 9 /\ 4%R = 10%R).
  destruct (nu_results 4 4 Hb) as (w1 & w2 & Hw & H1 & H2).
  destruct (C42_nuts_support_partial to_zero nu_other nu_cval re_B nu_lp 1 (nu_h 4) nu_ts nu_re (nu_rho 4) (nu_sigma 2 1 0) (nu_sigma 1 2 0)
    (nu_step 4).1 (nu_step 4).2 ltac:(apply surjective_pairing) nu_lp_ok (nu_good 4 ltac:(by left)) (fun v => nu_vals 4 v ltac:(by left))
    to_zero_position (nu_new 4) (nu_state to_zero)) with (rv := rv) (vv := vv) (d := d) (params := params) as (x & X' & Hx & HX & Hok & Hs & Hsup & _); [| |exact Hin|exact Hrv|].
  - intros u. unfold nu_sigma. repeat case_decide; done.
  - intros i rv' vv' w Hi Hwi. rewrite Hw in Hwi. destruct i as [|[|i]]; [| |done]; cbn in Hi, Hwi; injection Hi as <- <-; injection Hwi as <-.
    + exists (sc 1). split; [exact H1|reflexivity].
    + exists (sc (4 / 2)). split; [exact H2|]. cbn. unfold nu_sigma. do 2 f_equal. lra.
  - exists x, X'. split; [exact Hx|]. split; [exact HX|]. split; [exact Hok|]. split; [exact Hs|exact Hsup].
Qed.

(** ** C43.  The kernel moves the position whose components are the transformed values
    [y rv] to one whose components are [z rv], whichever of the two orders the variables
    are enumerated in.  Then every variable gets the same value in both orders: the
    backward transform of its own component. *)
Theorem C43_nuts_order K other cval B tr lp nr h re rho1 rho2 ts1 ts2 h1 s1 h2 s2 (y z : vid -> tensor num) (args : vid -> list (tensor num)) :
  let ev := evals (nuts_base K other) cval in
  step B tr lp nr h ts1 re = (h1, s1) -> step B tr lp nr h ts2 re = (h2, s2) -> ts1 ≡ₚ ts2 ->
  lp_ok lp -> good_heap h -> (forall v, v ∈ dvalues ts1 ++ dvalues re -> is_Some (hv h v)) -> (forall v, v ∈ dkeys ts1 -> is_Some (hv h v)) ->
  (forall u, is_Some (hv h u) -> rho2 u = rho1 u) ->
  (forall u, hv h u = None -> is_Some (owner h1 u) -> rho1 u = None) ->
  (forall u, hv h u = None -> is_Some (owner h2 u) -> rho2 u = None) ->
  (forall rv vv, (rv, vv) ∈ ts1 -> exists x, ev h rho1 vv x /\ Forall2 (ev h rho1) (targ_vars tr h rv) (args rv) /\
      tforward (get_transform tr h rv) x (args rv) = Some (y rv) /\ tensor_ok (z rv) /\ same_shape (z rv) (y rv)) ->
  (forall ts, ts = ts1 \/ ts = ts2 -> forall rest out, K (ravel_params (y <$> dkeys ts) :: rest) = Some out ->
      exists out', out = ravel_params (z <$> dkeys ts) :: out') ->
  forall i1 i2 rv vv w1 w2 X1 X2, ts1 !! i1 = Some (rv, vv) -> ts2 !! i2 = Some (rv, vv) ->
    ns_results s1 !! i1 = Some w1 -> ns_results s2 !! i2 = Some w2 -> ev h1 rho1 w1 X1 -> ev h2 rho2 w2 X2 ->
    X1 = X2 /\ tbackward (get_transform tr h rv) (z rv) (args rv) = Some X1.
Proof.
  cbv zeta. intros Hst1 Hst2 Hperm Hlp Hg Hv Hk Hrr Hr1 Hr2 Hval HK i1 i2 rv vv w1 w2 X1 X2 Hi1 Hi2 Hw1 Hw2 HX1 HX2.
  pose proof (step_components K other cval B tr lp nr h ts1 re rho1 h1 s1 y z args Hst1 Hlp Hg Hv Hk Hr1 Hval (HK ts1 ltac:(by left)) i1 rv vv w1 X1 Hi1 Hw1 HX1) as E1.
  assert (Hold : forall v x, is_Some (hv h v) -> evals (nuts_base K other) cval h rho1 v x -> evals (nuts_base K other) cval h rho2 v x).
  { intros v x Hs He. eapply (evals_agree _ _ (fun v => is_Some (hv h v)) h h rho1 rho2); [|split; done|done|exact He|exact Hs].
    intros u u' _ Hin. unfold input_of, parents in Hin. destruct (owner h u) as [[n i]|]; [|by apply elem_of_nil in Hin].
    destruct (hn h n) as [nd|] eqn:Hn; [|by apply elem_of_nil in Hin]. eapply (wf_ins h); [apply Hg|exact Hn|exact Hin]. }
  assert (E2 : tbackward (get_transform tr h rv) (z rv) (args rv) = Some X2).
  { apply (step_components K other cval B tr lp nr h ts2 re rho2 h2 s2 y z args Hst2 Hlp Hg) with (i := i2) (vv := vv) (w := w2); try done.
    - intros v Hin. apply Hv. rewrite elem_of_app in Hin |- *. destruct Hin as [Hin|Hin]; [left|by right]. rewrite dvalues_snd in *. by rewrite Hperm.
    - intros v Hin. apply Hk. rewrite dkeys_fst in *. by rewrite Hperm.
    - intros rv' vv' Hin. rewrite <- Hperm in Hin. destruct (Hval rv' vv' Hin) as (x & Hx & Ha & Hf & Hz). exists x.
      split; [|split; [|done]].
      + apply Hold; [|done]. apply Hv, elem_of_app. left. exact (elem_of_list_fmap_1 snd _ _ Hin).
      + pose proof (targ_some tr h Hg rv') as Hs. clear -Ha Hold Hs. induction Ha as [|v w l k Hvw _ IH]; constructor.
        * apply Hold; [apply Hs; by left|done].
        * apply IH. intros u Hu. apply Hs. by right.
    - apply HK. by right. }
  split; [congruence|done].
Qed.
Print Assumptions C43_nuts_order.
Example C43_instance (rv vv w1 w2 : nat) (i1 i2 : nat) X1 X2 : nu_ord true !! i1 = Some (rv, vv) -> nu_ord false !! i2 = Some (rv, vv) ->
  ns_results (nu_ostep true).2 !! i1 = Some w1 -> ns_results (nu_ostep false).2 !! i2 = Some w2 ->
  evals (nuts_base to_zero nu_other) nu_cval (nu_ostep true).1 (nu_orho true) w1 X1 ->
  evals (nuts_base to_zero nu_other) nu_cval (nu_ostep false).1 (nu_orho false) w2 X2 -> X1 = X2.
Proof.
  destruct nu_transformed as (r1 & r2 & Ht).
  intros H1 H2 H3 H4 H5 H6.
  apply (C43_nuts_order to_zero nu_other nu_cval re_B aeppl_default nu_lp 1 (nu_h 4) nu_re (nu_orho true) (nu_orho false) (nu_ord true) (nu_ord false)
    (nu_ostep true).1 (nu_ostep true).2 (nu_ostep false).1 (nu_ostep false).2 (nu_y r1 r2) (fun _ => sc 0) nu_args) with (6 := nu_ovals true)
    (i1 := i1) (i2 := i2) (rv := rv) (vv := vv) (w1 := w1) (w2 := w2).
  - apply surjective_pairing.
  - apply surjective_pairing.
  - apply Permutation_swap.
  - apply nu_lp_ok.
  - apply nu_good. by left.
  - intros v Hv. cbn in Hv. apply elem_of_cons in Hv as [->|Hv]; [vm_compute; by eauto|]. apply elem_of_list_singleton in Hv as ->. vm_compute. by eauto.
  - intros u Hu. by rewrite !nu_oold.
  - apply nu_onew.
  - apply nu_onew.
  - intros rv' vv' Hin. destruct (Ht to_zero true rv' vv' Hin) as (x & Hx & Ha & Hf). exists x. split; [exact Hx|]. split; [exact Ha|].
    split; [exact Hf|]. split; [apply sc_ok|]. unfold nu_y. by case_decide.
  - intros ts [-> | ->] rest out Hout; injection Hout as <-; eexists; reflexivity.
  - exact H1. - exact H2. - exact H3. - exact H4. - exact H5. - exact H6.
Qed.

(** ** C50.  The entries of the inverse mass matrix, a parameter the caller supplies, belong
    to the variables in the order of the enumeration: with the same matrix and a kernel that
    treats all components alike (it moves each by its entry of the matrix) the two orders
    give different values. *)
Theorem C50_inverse_mass_matrix_order_refuted : let K := by_metric 1 in
  exists other cval B tr lp h re rho1 rho2 ts1 ts2 h1 s1 h2 s2 m,
  let ev := evals (nuts_base K other) cval in
  step B tr lp 1 h ts1 re = (h1, s1) /\ step B tr lp 1 h ts2 re = (h2, s2) /\ ts1 ≡ₚ ts2 /\
  lp_ok lp /\ good_heap h /\ (forall v, v ∈ dvalues ts1 ++ dvalues re -> is_Some (hv h v)) /\ returns_position K /\
  (forall u, is_Some (hv h u) -> rho2 u = rho1 u) /\
  (forall u, hv h u = None -> is_Some (owner h1 u) -> rho1 u = None) /\
  (forall u, hv h u = None -> is_Some (owner h2 u) -> rho2 u = None) /\
  rho1 (ns_params s1).1 = rho2 (ns_params s2).1 /\ rho1 (ns_params s1).2 = Some m /\ rho2 (ns_params s2).2 = Some m /\
  exists i1 i2 rv vv w1 w2 X1 X2, ts1 !! i1 = Some (rv, vv) /\ ts2 !! i2 = Some (rv, vv) /\
    ns_results s1 !! i1 = Some w1 /\ ns_results s2 !! i2 = Some w2 /\ ev h1 rho1 w1 X1 /\ ev h2 rho2 w2 X2 /\ X1 <> X2.
Proof.
  destruct nu_oruns as (r1 & r2 & Hr). specialize (Hr (by_metric 1) ltac:(intros q rest; by eexists)).
  exists nu_other, nu_cval, re_B, aeppl_default, nu_lp, (nu_h 4), nu_re, (nu_orho true), (nu_orho false), (nu_ord true), (nu_ord false),
    (nu_ostep true).1, (nu_ostep true).2, (nu_ostep false).1, (nu_ostep false).2, nu_imm.
  cbv zeta. split; [apply surjective_pairing|]. split; [apply surjective_pairing|]. split; [apply Permutation_swap|].
  split; [apply nu_lp_ok|]. split; [apply nu_good; by left|]. split; [apply nu_ovals|]. split; [apply by_metric_position|].
  split; [intros u Hu; by rewrite !nu_oold|]. split; [apply nu_onew|]. split; [apply nu_onew|].
  split. { rewrite (proj1 (nu_oparams true)), (proj1 (nu_oparams false)). reflexivity. }
  split; [apply (nu_oparams true)|]. split; [apply (nu_oparams false)|].
  destruct (nu_oresults true) as (w1 & u1 & Hw1). destruct (nu_oresults false) as (w2 & u2 & Hw2). cbn iota in Hw1, Hw2.
  set (Hb := or_introl (conj eq_refl eq_refl) : 4 = 4 /\ 4%R = 4%R \/ 4 = 9 /\ 4%R = 10%R).
  exists 0, 1, 9, 14, w1, w2, (sc (exp (r1 + 1))), (sc (exp (r1 + 2))).
  split; [reflexivity|]. split; [reflexivity|]. split; [by rewrite Hw1|]. split; [by rewrite Hw2|].
  destruct (Hr true) as (rest & out & Hout & Hm & Hfin). destruct (Hr false) as (rest' & out' & Hout' & Hm' & Hfin').
  unfold by_metric in Hout, Hout'. cbn [plus] in Hout, Hout'. rewrite Hm in Hout. rewrite Hm' in Hout'. injection Hout as <-. injection Hout' as <-.
  split; [|split].
  - eapply (Hfin 0 9 14 w1); [reflexivity|reflexivity|by rewrite Hw1|reflexivity|].
    rewrite (rv_of_transform _ _ _ _ _ (nu_rvS 4 4 Hb)). reflexivity.
  - eapply (Hfin' 1 9 14 w2); [reflexivity|reflexivity|by rewrite Hw2|reflexivity|].
    rewrite (rv_of_transform _ _ _ _ _ (nu_rvS 4 4 Hb)). reflexivity.
  - intros E. injection E as E. apply exp_inv in E. lra.
Qed.
Print Assumptions C50_inverse_mass_matrix_order_refuted.

(** ** C44.  [advances]: every update of the sampler assigns to a generator the next state
    of that same generator.  This is false of every NUTS sampler built, whatever the model:
    the generator of the momentum (and any shared variable the position depends on) is
    listed by [graph_inputs] before the generators of the trajectory, so the updates are
    shifted against the shared variables. *)
Theorem C44_nuts_updates_refuted B tr lp nr h ts re h' s kernel :
  step B tr lp nr h ts re = (h', s) -> lp_ok lp -> good_heap h -> (forall v, v ∈ dvalues ts ++ dvalues re -> is_Some (hv h v)) -> 0 < nr ->
  exists h2 k, nuts_construct h' ts s (graph_inputs h' (ns_results s ++ dvalues (ns_updates s)) []) kernel = Ok (h2, k) /\ ~ advances h2 s k.
Proof. intros Hst Hlp Hg Hv Hnr. eapply updates_wrong; [by eapply step_eq|done]. Qed.
Print Assumptions C44_nuts_updates_refuted.
(** ... for example *)
Example C44_instance : exists h2 k, nuts_construct (nu_step 4).1 nu_ts (nu_step 4).2
    (graph_inputs (nu_step 4).1 (ns_results (nu_step 4).2 ++ dvalues (ns_updates (nu_step 4).2)) []) 70 = Ok (h2, k) /\ ~ advances h2 (nu_step 4).2 k.
Proof.
  apply (C44_nuts_updates_refuted re_B aeppl_default nu_lp 1 (nu_h 4) nu_ts nu_re); [apply surjective_pairing|apply nu_lp_ok|apply nu_good; by left| |lia].
  intros v. apply nu_vals. by left.
Qed.

(** What does hold: there are as many updates as generators of the trajectory, their keys
    are different shared variables that the step depends on, and the new values are the next
    states of the generators of the trajectory, each used.  And one of these generators is
    never updated: its state stays the same from one step to the next. *)
Theorem C44_nuts_updates_partial B tr lp nr h ts re h' s kernel :
  step B tr lp nr h ts re = (h', s) -> lp_ok lp -> good_heap h -> (forall v, v ∈ dvalues ts ++ dvalues re -> is_Some (hv h v)) -> 0 < nr ->
  let outs := ns_results s ++ dvalues (ns_updates s) in
  exists h2 k, nuts_construct h' ts s (graph_inputs h' outs []) kernel = Ok (h2, k) /\
    NoDup (dkeys (nk_updates k)) /\ length (nk_updates k) = nr /\
    (forall r, r ∈ dkeys (nk_updates k) -> is_shared h' r = true /\ owner h' r = None /\ reachable h' outs r) /\
    (forall r o, (r, o) ∈ nk_updates k -> exists n j r0 r', owner h2 o = Some (n, j) /\ outs !! j = Some r' /\ (r0, r') ∈ ns_updates s) /\
    (forall r0 r', (r0, r') ∈ ns_updates s -> exists r o n j, (r, o) ∈ nk_updates k /\ owner h2 o = Some (n, j) /\ outs !! j = Some r') /\
    exists r, r ∈ dkeys (ns_updates s) /\ r ∉ dkeys (nk_updates k).
Proof. intros Hst Hlp Hg Hv Hnr. eapply updates_exact; [by eapply step_eq|done]. Qed.
Print Assumptions C44_nuts_updates_partial.
