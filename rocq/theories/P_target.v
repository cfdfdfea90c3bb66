(** C07: the log-density handed to NUTS. *)
From Verif Require Import L_target E_real.
From Coq Require Import Lra.

(** [nuts_call] gives the arguments of the call to NUTS, [nuts_logprob] the log-density
    NUTS moves in (up to the change of variables) as a function of the values [q] of the
    variables it updates; [joint] on the model before any rewriting of the samplers is the
    joint log-density of the model, and its differences in [q], the other variables [sigma]
    being fixed, are those of the full conditional. *)

(** ** The full claim is that the two have the same differences.  It is false: the graphs of
    the discovered samplers contain the model (they mention the observed variables), and
    the substitution of values rewrites it in place.  For
    s ~ normal(1, 1), p ~ beta(s, 1), Y ~ binomial(5, p), Z ~ normal(s, 1) with Y and Z
    observed, p gets its conjugate step and s is left to NUTS, whose log-density has lost
    the dependence of the prior of p on s. *)
Definition zbase (o : op) (xs : list Z) : option (list Z) :=
  match o with
  | OElem 0 => Some [foldr Z.add 0%Z xs]
  | OElem 2 => match xs with [a; b] => Some [(a - b)%Z] | _ => None end
  | _ => Some [0%Z; foldr Z.add 0%Z xs]
  end.
Definition zld (d : nat) (xs : list Z) (x : Z) : Z := (x * foldr Z.add 0 xs)%Z.

(** values of the leaves, of the realized variables, and two values of s *)
Definition zrho (h : heap) (v : vid) : option Z :=
  match hv h v with Some (Var _ _ (KConst _) _) => None | Some (Var _ _ _ None) => Some (Z.of_nat v) | _ => None end.
Definition zenv (a : vid) : vid -> option Z := zrho (st_heap (re_st0 a)).
Definition zvals (h : heap) (rho : vid -> option Z) (re : dict nat nat) (k : vid) : option Z :=
  w ← dget re k; eval zbase Z.of_nat h rho 30 w.
Definition zdefined (h : heap) (rho : vid -> option Z) (re : dict nat nat) : bool :=
  forallb (fun p => bool_decide (is_Some (eval zbase Z.of_nat h rho 30 p.2))) re.
Definition zq (x : Z) (u : vid) : option Z := if decide (u = 16) then Some x else None.

Lemma zvals_keys h rho re k : is_Some (zvals h rho re k) -> k ∈ dkeys re.
Proof. unfold zvals. intros [x Hx]. apply dget_in. destruct (dget re k); [by eauto|discriminate Hx]. Qed.
Lemma zvals_vals h rho re : zdefined h rho re = true ->
  forall k w, dget re k = Some w -> exists x, zvals h rho re k = Some x /\ evals zbase Z.of_nat h rho w x.
Proof.
  unfold zdefined. intros Hf k w Hw. rewrite forallb_forall in Hf.
  assert (Hin : In (k, w) re) by (by apply elem_of_list_In, dget_Some_in).
  specialize (Hf _ Hin). apply (bool_decide_eq_true_1 _) in Hf. destruct Hf as [x Hx]. cbn [snd] in Hx.
  exists x. split; [|by eapply eval_sound]. unfold zvals. rewrite Hw. exact Hx.
Qed.
Lemma zq_keys (ts : dict nat nat) x : dkeys ts = [16] -> forall u, is_Some (zq x u) <-> u ∈ dkeys ts.
Proof.
  intros -> u. unfold zq. rewrite elem_of_list_singleton. case_decide; split; try done; [by intros []..].
Qed.
Lemma zlogprob h rho ts re x ls : zdefined h rho re = true ->
  joint_eval zbase Z.of_nat zld h rho (over (zq x) (zvals h rho re)) (dkeys ts ++ dkeys re) = Some ls ->
  nuts_logprob zbase Z.of_nat (fun d xs x => IZR (zld d xs x)) h rho ts re (zq x) (IZR (foldr Z.add 0%Z ls)).
Proof.
  intros Hf Hj. exists (zvals h rho re). split; [apply zvals_keys|]. split; [by apply zvals_vals|]. by apply joint_eval_sound.
Qed.
Definition zsigma (a : vid) : vid -> option Z := zvals (st_heap (re_st a)) (zenv a) (nuts_call re_o (re_st a)).2.

Theorem C07_nuts_target_refuted :
  exists o h obs topo topo_rv s i outs inits st0 st to_sample realized
    (base : op -> list Z -> option (list Z)) cval ld rho sigma q q' l l' j j',
    contracts o /\ model_ok h obs /\ topo_order h (dkeys obs) topo /\ topo_order h (rv_outputs h topo) topo_rv /\
    construct_sampler o h obs topo topo_rv = Ok s /\
    sampler_init o h obs topo topo_rv = (i, outs, inits, st0) /\
    process_all (o_order o) (ir_obs i) st0 outs = Ok st /\
    nuts_call o st = (to_sample, realized) /\
    (forall u, is_Some (q u) <-> u ∈ dkeys to_sample) /\ (forall u, is_Some (q' u) <-> u ∈ dkeys to_sample) /\
    (forall k, is_Some (sigma k) -> k ∈ dkeys realized) /\
    (forall k w, dget realized k = Some w -> exists x, sigma k = Some x /\ evals base cval (st_heap st) rho w x) /\
    nuts_logprob base cval ld (st_heap st) rho to_sample realized q l /\
    nuts_logprob base cval ld (st_heap st) rho to_sample realized q' l' /\
    joint base cval ld (st_heap st0) rho (over q sigma) outs j /\
    joint base cval ld (st_heap st0) rho (over q' sigma) outs j' /\
    (l - l' <> j - j')%R.
Proof.
  destruct (okP_ex (construct_sampler re_o (re_h 6) re_obs re_topo re_topo) (fun _ => True)) as (s & Hs & _).
  { vm_compute. exact I. }
  exists re_o, (re_h 6), re_obs, re_topo, re_topo, s, (re_i 6), (re_outs 6), (re_inits 6), (re_st0 6), (re_st 6),
    (nuts_call re_o (re_st 6)).1, (nuts_call re_o (re_st 6)).2, zbase, Z.of_nat, (fun d xs x => IZR (zld d xs x)), (zenv 6), (zsigma 6),
    (zq 1), (zq 2).
  assert (Hf : zdefined (st_heap (re_st 6)) (zenv 6) (nuts_call re_o (re_st 6)).2 = true) by (vm_compute; reflexivity).
  assert (Hk : dkeys (nuts_call re_o (re_st 6)).1 = [16]) by (vm_compute; reflexivity).
  do 4 eexists.
  split; [exact re_contracts|]. split; [exact (re_model_ok 6 (or_intror eq_refl))|]. split; [exact (re_topo_ok 6 (or_intror eq_refl))|].
  split; [exact (re_topo_rv_ok 6 (or_intror eq_refl))|]. split; [exact Hs|]. split; [exact (re_init_eq 6)|].
  split; [apply re_loop_eq; vm_compute; exact I|]. split; [apply surjective_pairing|].
  split; [exact (zq_keys _ 1 Hk)|]. split; [exact (zq_keys _ 2 Hk)|]. split; [exact (zvals_keys _ _ _)|]. split; [exact (zvals_vals _ _ _ Hf)|].
  split; [apply zlogprob; [exact Hf|vm_compute; reflexivity]|]. split; [apply zlogprob; [exact Hf|vm_compute; reflexivity]|].
  split; [apply joint_eval_sound; vm_compute; reflexivity|]. split; [apply joint_eval_sound; vm_compute; reflexivity|].
  rewrite <- !minus_IZR. intros Hd%eq_IZR. discriminate Hd.
Qed.
Print Assumptions C07_nuts_target_refuted.

(** ** It holds when no node computing a term of the model that depends on a variable left to
    NUTS occurs in the graph of a discovered sampler. *)
Theorem C07_nuts_target_partial o h obs topo topo_rv i outs inits st0 st to_sample realized
    {D} (base : op -> list D -> option (list D)) cval (ld : nat -> list D -> D -> R) (rho : vid -> option D) :
  contracts o -> model_ok h obs -> topo_order h (dkeys obs) topo -> topo_order h (rv_outputs h topo) topo_rv ->
  sampler_init o h obs topo topo_rv = (i, outs, inits, st0) ->
  process_all (o_order o) (ir_obs i) st0 outs = Ok st ->
  nuts_call o st = (to_sample, realized) ->
  (forall rv r f n, rv ∈ outs -> involves (st_heap st0) outs (fun u => u ∈ dkeys to_sample) rv ->
     r ∈ outs -> r ∉ dkeys (ir_obs i) -> chosen (st_found st0) r = Some f ->
     factor_node (st_heap st0) outs rv n -> ~ node_reachable (st_heap st0) (roots_of f) n) ->
  (* NUTS updates the unobserved variables without sampler, conditionally on all the others *)
  (forall u, u ∈ dkeys to_sample <-> u ∈ outs /\ u ∉ dkeys (ir_obs i) /\ chosen (st_found st0) u = None) /\
  dkeys to_sample ++ dkeys realized ≡ₚ outs /\
  (* and its log-density has the differences of the model's *)
  forall sigma q q' l l' j j',
    (forall u, is_Some (q u) <-> u ∈ dkeys to_sample) -> (forall u, is_Some (q' u) <-> u ∈ dkeys to_sample) ->
    (forall k, is_Some (sigma k) -> k ∈ dkeys realized) ->
    (forall k w, dget realized k = Some w -> exists x, sigma k = Some x /\ evals base cval (st_heap st) rho w x) ->
    nuts_logprob base cval ld (st_heap st) rho to_sample realized q l ->
    nuts_logprob base cval ld (st_heap st) rho to_sample realized q' l' ->
    joint base cval ld (st_heap st0) rho (over q sigma) outs j ->
    joint base cval ld (st_heap st0) rho (over q' sigma) outs j' ->
    (l - l' = j - j')%R.
Proof.
  intros Hc Hm Ht Htr Hi Hp Hcall Hsep.
  destruct (target_facts o h obs topo topo_rv Hc Hm Ht Htr i outs inits st0 st Hi Hp to_sample realized Hcall)
    as (_ & _ & _ & _ & _ & _ & Htk & Hperm & _).
  split; [exact Htk|]. split; [exact Hperm|]. intros sigma q q' l l' j j'.
  apply (nuts_target o h obs topo topo_rv Hc Hm Ht Htr i outs inits st0 st Hi Hp to_sample realized Hcall base cval ld rho).
  intros rv r f n Hrv Hinv. apply Hsep; [done|]. destruct Hinv as [Hn|(u & Hn & Hu)]; [left; by apply Htk|right; exists u; split; [by apply Htk|done]].
Qed.
Print Assumptions C07_nuts_target_partial.

(** all its hypotheses hold for s ~ normal(1, 1), p ~ beta(1, 1), Y ~ binomial(5, p),
    Z ~ normal(s, 1), and the log-densities are defined: p (18) has its conjugate step, s (16)
    is left to NUTS.  The separation is checked by computing, for each variable, the nodes of
    its term. *)
Definition sep_check1 (h : heap) (V : list vid) (NV : list vid) (fs : list found) (rv : vid) : bool :=
  let l := cut_iter h V 20 (parents h rv) in
  forallb (fun r => bool_decide (r ∈ l)) (parents h rv) && cut_closed h V l &&
  ((bool_decide (rv ∉ NV) && forallb (fun u => bool_decide (u ∉ l)) NV) ||
   forallb (fun f => forallb (fun v =>
      match owner h v with Some (m, _) => bool_decide (m ∉ fg_nodes h (roots_of f)) | None => true end)
      (rv :: filter (fun v => v ∉ V) l)) fs).
Lemma sep_check1_spec h V NV fs rv f n : sep_check1 h V NV fs rv = true -> f ∈ fs ->
  involves h V (fun u => u ∈ NV) rv -> factor_node h V rv n -> ~ node_reachable h (roots_of f) n.
Proof.
  unfold sep_check1. rewrite !andb_true_iff, orb_true_iff, andb_true_iff. intros [[H1 H2] [[H3 H4]|H3]] Hf Hi Hn.
  - exfalso. apply bool_decide_eq_true in H3. destruct Hi as [Hi|(u & Hu & Hc)]; [done|].
    pose proof (cut_closed_spec _ _ _ _ _ H1 H2 Hc) as Hin. rewrite forallb_forall in H4. apply elem_of_list_In in Hu.
    specialize (H4 _ Hu). by apply bool_decide_eq_true in H4.
  - rewrite forallb_forall in H3. apply elem_of_list_In in Hf. specialize (H3 _ Hf). rewrite forallb_forall in H3.
    assert (Hv : exists v i, v ∈ rv :: filter (fun v => v ∉ V) (cut_iter h V 20 (parents h rv)) /\ owner h v = Some (n, i)).
    { destruct Hn as [[i Hi']|(v & i & Hc & HV & Hi')]; [exists rv, i; split; [by left|done]|]. exists v, i. split; [|done]. right.
      apply elem_of_list_filter. split; [done|]. by eapply cut_closed_spec. }
    destruct Hv as (v & i & Hv & Ho). apply elem_of_list_In in Hv. specialize (H3 _ Hv). rewrite Ho in H3.
    apply bool_decide_eq_true in H3. intros Hr. apply H3. by apply elem_of_fg_nodes.
Qed.
Lemma chosen_single k f r g : chosen [(k, [f])] r = Some g -> g ∈ [f].
Proof. unfold chosen. cbn [dget]. case_decide; cbn; [intros [= <-]; by left|done]. Qed.

Example C07_example :
  okP (construct_sampler re_o (re_h 3) re_obs re_topo re_topo) (fun _ => True) /\
  sampler_init re_o (re_h 3) re_obs re_topo re_topo = (re_i 3, re_outs 3, re_inits 3, re_st0 3) /\
  process_all (o_order re_o) (ir_obs (re_i 3)) (re_st0 3) (re_outs 3) = Ok (re_st 3) /\
  nuts_call re_o (re_st 3) = ((nuts_call re_o (re_st 3)).1, (nuts_call re_o (re_st 3)).2) /\
  dkeys (nuts_call re_o (re_st 3)).1 = [16] /\ dkeys (nuts_call re_o (re_st 3)).2 = [18; 20; 22] /\
  is_Some (chosen (st_found (re_st0 3)) 18) /\
  (forall rv r f n, rv ∈ re_outs 3 -> involves (st_heap (re_st0 3)) (re_outs 3) (fun u => u ∈ dkeys (nuts_call re_o (re_st 3)).1) rv ->
     r ∈ re_outs 3 -> r ∉ dkeys (ir_obs (re_i 3)) -> chosen (st_found (re_st0 3)) r = Some f ->
     factor_node (st_heap (re_st0 3)) (re_outs 3) rv n -> ~ node_reachable (st_heap (re_st0 3)) (roots_of f) n) /\
  exists l l', l <> l' /\
    nuts_logprob zbase Z.of_nat (fun d xs x => IZR (zld d xs x)) (st_heap (re_st 3)) (zenv 3)
      (nuts_call re_o (re_st 3)).1 (nuts_call re_o (re_st 3)).2 (zq 1) l /\
    nuts_logprob zbase Z.of_nat (fun d xs x => IZR (zld d xs x)) (st_heap (re_st 3)) (zenv 3)
      (nuts_call re_o (re_st 3)).1 (nuts_call re_o (re_st 3)).2 (zq 2) l'.
Proof.
  assert (Hf : zdefined (st_heap (re_st 3)) (zenv 3) (nuts_call re_o (re_st 3)).2 = true) by (vm_compute; reflexivity).
  split; [vm_compute; exact I|]. split; [exact (re_init_eq 3)|]. split; [apply re_loop_eq; vm_compute; exact I|].
  split; [apply surjective_pairing|]. split; [vm_compute; reflexivity|]. split; [vm_compute; reflexivity|].
  split; [vm_compute; eexists; reflexivity|]. split.
  - intros rv r f n Hrv Hi _ _ Hc Hn.
    assert (Hfs : st_found (re_st0 3) = [(18, [Found 3 28 []])]) by (vm_compute; reflexivity). rewrite Hfs in Hc.
    apply chosen_single in Hc.
    assert (Hchk : forallb (sep_check1 (st_heap (re_st0 3)) (re_outs 3) (dkeys (nuts_call re_o (re_st 3)).1) [Found 3 28 []]) (re_outs 3) = true)
      by (vm_compute; reflexivity).
    rewrite forallb_forall in Hchk. apply elem_of_list_In in Hrv. specialize (Hchk rv Hrv).
    exact (sep_check1_spec _ _ _ _ rv f n Hchk Hc Hi Hn).
  - do 2 eexists. split; [|split; (apply zlogprob; [exact Hf|vm_compute; reflexivity])]. intros Hd%eq_IZR. discriminate Hd.
Qed.
