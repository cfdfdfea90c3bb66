(** Lemmas for C61: one NUTS step leaves the conditional law of its variables invariant. *)
From Coq Require Import FunctionalExtensionality.
From Verif Require Import S_nuts_keeps L_nuts_inverse.

Section space.
  Context (s : value_space) (Hs : space_ok s).
  Notation t := (aeppl_default (vs_dist s)).
  Lemma args_bounds : arg_values (vs_params s) t = bound_values s.
  Proof using Hs. apply arg_values_bounds, Hs. Qed.
  Lemma original_backward z x : original s z x <-> tbackward t z (bound_values s) = Some x.
  Proof using. unfold original. destruct t as [[k pos]|]; [done|]. cbn. split; [by intros ->|by intros [= ->]]. Qed.
  Lemma original_det z x x' : original s z x -> original s z x' -> x = x'.
  Proof using. rewrite !original_backward. congruence. Qed.

  Lemma forward_shape x y : is_value s x -> tforward t x (bound_values s) = Some y -> forall u, free_shape s u <-> u = t_shape y.
  Proof using Hs.
    intros (Hok & Hsh & Hsup) Hy u. unfold free_shape. case_decide as Hd.
    - rewrite Hd in *. pose proof Hsup as (l & n & Hl & Hn & _). destruct n as [|n]; [lia|].
      unfold bound_values in Hy. rewrite Hd in Hy. cbn in Hy. unfold fwd_simplex in Hy. rewrite Hl, last_snoc, (on_rows_val _ _ _ _ _ Hl) in Hy.
      injection Hy as <-. cbn [t_shape]. cbn [Nat.sub]. rewrite Nat.sub_0_r. rewrite <- Hsh, Hl. split.
      + intros (l' & n' & E & ->). apply app_inj_tail in E as [<- [= <-]]. done.
      + intros ->. by exists l, n.
    - enough (E : t_shape y = t_shape x) by (by rewrite E, Hsh).
      destruct t as [[k pos]|] eqn:Ht; [|by injection Hy as <-].
      destruct (covered_kind _ k pos (vs_params s) Ht Hd (so_number _ Hs)) as (Hk & Hl & Hsub).
      pose proof args_bounds as Ha. rewrite Ht in Ha. rewrite Ha in Hl, Hsub.
      assert (Hbs : Forall (fits (t_shape x)) (bound_values s)).
      { apply Forall_forall. intros p Hp. rewrite Hsh. pose proof (so_fits _ Hs) as Hf. rewrite Forall_forall in Hf. by apply Hf, Hsub. }
      pose proof (support_elem _ (vs_params s) x k pos Ht Hd (so_number _ Hs) Hsup) as He. rewrite Ha in He.
      destruct (forward_support k x _ Hk Hok Hl Hbs He) as (y0 & Hy0 & _ & E & _). cbn in Hy. congruence.
  Qed.

  Lemma value_fits x : is_value s x -> Forall (fits (t_shape x)) (vs_params s).
  Proof using Hs. intros (_ & -> & _). apply Hs. Qed.
  Lemma point_value : is_value s (vs_point s).
  Proof using Hs. split; [apply Hs|]. split; [done|apply Hs]. Qed.

  Lemma value_free x : is_value s x -> exists z, tforward t x (bound_values s) = Some z /\ is_free s z /\ original s z x.
  Proof using Hs.
    intros Hx. pose proof Hx as (Hok & Hsh & Hsup).
    destruct (change_of_variables (vs_dist s) (vs_params s) x (so_number _ Hs) Hok (value_fits x Hx) Hsup) as (z & Hz & Hzok & Hzf & Hb & _).
    rewrite args_bounds in *. exists z. split; [done|]. split.
    - split; [done|]. split; [done|]. by apply (forward_shape x z Hx Hz).
    - by apply original_backward.
  Qed.
  Lemma free_value z : is_free s z -> exists x, original s z x /\ is_value s x.
  Proof using Hs.
    intros (Hzok & Hzf & Hzs).
    destruct (change_of_variables (vs_dist s) (vs_params s) _ (so_number _ Hs) (so_array _ Hs) (so_fits _ Hs) (so_support _ Hs)) as (y & Hy & _ & _ & _ & Hall).
    rewrite args_bounds in *. apply (forward_shape _ _ point_value Hy) in Hzs.
    destruct (Hall z Hzok Hzs Hzf) as (x & Hx & H1 & H2 & H3). exists x. split; [by apply original_backward|done].
  Qed.
  (** without angles, a value is the original of one transformed value only *)
  Lemma original_inj z z' x : vs_dist s <> RV_vonmises -> is_free s z -> is_free s z' -> original s z x -> original s z' x -> z = z'.
  Proof using Hs.
    intros Hv. assert (H : forall z, is_free s z -> original s z x -> tforward t x (bound_values s) = Some z).
    { intros u (Hzok & Hzf & Hzs) Hu.
      destruct (change_of_variables (vs_dist s) (vs_params s) _ (so_number _ Hs) (so_array _ Hs) (so_fits _ Hs) (so_support _ Hs)) as (y & Hy & _).
      rewrite args_bounds in *. apply (forward_shape _ _ point_value Hy) in Hzs.
      pose proof (change_back (vs_dist s) (vs_params s) _ y u (so_number _ Hs) (so_array _ Hs) (so_fits _ Hs) (so_support _ Hs) Hv) as Hc.
      cbn zeta in Hc. rewrite args_bounds in Hc. destruct (Hc Hy Hzok Hzs Hzf) as (x' & Hb & Hf).
      apply original_backward in Hb. by rewrite (original_det _ _ _ Hu Hb). }
    intros H1 H2 H3 H4. pose proof (H z H1 H3). pose proof (H z' H2 H4). congruence.
  Qed.
End space.

Lemma put_in {D} V (y x : vid -> D) u : u ∈ V -> put V y x u = y u.
Proof. intros H. unfold put. by rewrite decide_True. Qed.
Lemma put_put {D} V (a b y x : vid -> D) : (forall u, u ∈ V -> a u = b u) -> put V a (put V y x) = put V b x.
Proof. intros H. apply functional_extensionality. intros u. unfold put. case_decide as Hu; [by apply H|done]. Qed.

Section keeps.
  Context (K : list (tensor num) -> option (list (tensor num))) (other : op -> list (tensor num) -> option (list (tensor num))).
  Context (cval : nat -> tensor num) (B : builder) (lp : heap -> dict nat nat -> dict nat nat -> heap * list vid) (nr : nat).
  Context (h : heap) (ts re : dict nat nat) (h' : heap) (s : nuts_step).
  Notation ev := (evals (nuts_base K other) cval).
  Notation V := (dkeys ts).
  Context (env : (vid -> tensor num) -> (vid -> tensor num) -> vid -> option (tensor num)).
  Context (space : (vid -> tensor num) -> vid -> value_space).
  Hypothesis Hst : step B aeppl_default lp nr h ts re = (h', s).
  Hypothesis Hlp : lp_ok lp.
  Hypothesis Hg : good_heap h.
  Hypothesis Hv : forall v, v ∈ dvalues ts ++ dvalues re -> is_Some (hv h v).
  Hypothesis Hi : nuts_inputs K other cval h ts h' env space.

  (** the value computed for [rv]: the original of the component of [rv] after the move *)
  Lemma step_moves move x y e i rv v val :
    nuts_moves K other cval h ts h' env space move ->
    (forall r, r ∈ V -> is_value (space x r) (y r)) ->
    V !! i = Some rv -> ns_results s !! i = Some v -> ev h' (env (put V y x) e) v val ->
    exists z, free ts space x z /\ (forall r, r ∈ V -> original (space x r) (z r) (y r)) /\
      original (space x rv) (move x e z rv) val.
  Proof using Hst Hlp Hg Hv Hi.
    intros Hm Hy Hk Hr Hval. set (X := put V y x) in *.
    assert (HX : forall r, r ∈ V -> X r = y r) by (intros r Hr'; by apply put_in).
    set (z := fun r => default (Tensor [] []) (tforward (aeppl_default (vs_dist (space x r))) (y r) (bound_values (space x r)))).
    assert (Hz : forall r, r ∈ V -> tforward (aeppl_default (vs_dist (space x r))) (y r) (bound_values (space x r)) = Some (z r) /\
      is_free (space x r) (z r) /\ original (space x r) (z r) (y r)).
    { intros r Hr'. destruct (value_free (space x r) (ni_space _ _ _ _ _ _ _ _ Hi x r Hr') (y r) (Hy r Hr')) as (u & Hu & H1 & H2).
      unfold z. rewrite Hu. done. }
    assert (Hzf : free ts space x z) by (intros r Hr'; by apply Hz).
    exists z. split; [done|]. split; [intros r Hr'; by apply Hz|].
    pose proof (step_eq _ _ _ _ _ _ _ _ _ Hst Hlp Hg Hv) as Hsg.
    set (kf := fun i => default 0 (V !! i)).
    assert (Hkf : forall j rv' vv', ts !! j = Some (rv', vv') -> kf j = rv').
    { intros j rv' vv' Hj. unfold kf. by rewrite (dkeys_lookup ts j rv' vv' Hj). }
    assert (Hseq : forall f : vid -> tensor num, (fun j => f (kf j)) <$> seq 0 (length ts) = f <$> V).
    { intros f. apply list_eq. intros j. rewrite !list_lookup_fmap. destruct (ts !! j) as [[rv' vv']|] eqn:Hj;
        [rewrite (dkeys_lookup ts j rv' vv' Hj)|rewrite (lookup_ge_None_2 V) by (rewrite dkeys_length; by apply lookup_ge_None)].
      - rewrite lookup_seq_lt by (by eapply lookup_lt_Some). cbn. rewrite (Hkf j rv' vv' Hj). done.
      - rewrite lookup_seq_ge by (by apply lookup_ge_None). done. }
    assert (Htr : forall r, r ∈ V -> get_transform aeppl_default h r = aeppl_default (vs_dist (space x r)) /\
      is_Some (hv h r) /\ Forall2 (ev h (env X e)) (targ_vars aeppl_default h r) (bound_values (space x r))).
    { intros r Hr'. destruct (ni_bounds _ _ _ _ _ _ _ _ Hi X e r Hr') as (params & Hrv & Hl & Hb). unfold X in Hrv, Hl, Hb.
      rewrite (ni_own _ _ _ _ _ _ _ _ Hi x y r Hr') in Hrv, Hl, Hb. fold X in Hb.
      split; [by eapply rv_of_transform|]. split; [by eapply rv_of_some|].
      erewrite rv_of_targs; [exact Hb|exact Hrv|]. rewrite Hl. apply (ni_space _ _ _ _ _ _ _ _ Hi x r Hr'). }
    destruct (step_value_node K other cval B aeppl_default nr h ts _ h' s Hsg Hg (env X e) (ni_new _ _ _ _ _ _ _ _ Hi X e)
      (fun j => y (kf j)) (fun j => z (kf j)) (fun j => bound_values (space x (kf j)))) as (newq & p & mr & rngs & rngs' & Hsv).
    { intros j rv' vv' Hj. rewrite (Hkf j rv' vv' Hj).
      assert (Hin : (rv', vv') ∈ ts) by (by eapply elem_of_list_lookup_2).
      assert (HinV : rv' ∈ V) by (rewrite dkeys_fst; exact (elem_of_list_fmap_1 fst _ _ Hin)).
      destruct (Htr rv' HinV) as (H1 & H2 & H3). split; [done|].
      split; [apply Hv, elem_of_app; left; rewrite dvalues_snd; exact (elem_of_list_fmap_1 snd _ _ Hin)|].
      split; [|split; [done|rewrite H1; by apply Hz]].
      rewrite <- (HX rv' HinV). apply (ni_value _ _ _ _ _ _ _ _ Hi X e rv' vv' Hin). }
    cbn zeta in Hsv. destruct Hsv as (Hnew & (q & n & nd & Ho & Hn & Hop & Hin) & _ & _ & _ & _ & _ & _ & _ & _ & _ & _ & Hnq & _ & Hres).
    assert (Hts : exists vv, ts !! i = Some (rv, vv)).
    { destruct (lookup_lt_is_Some_2 ts i) as [[rv' vv] Hj]; [rewrite <- (dkeys_length ts); by eapply lookup_lt_Some|].
      pose proof (dkeys_lookup ts i rv' vv Hj) as Hk'. exists vv. refine (eq_trans Hj _). congruence. }
    destruct Hts as [vv Hts]. assert (HrvV : rv ∈ V) by (by eapply elem_of_list_lookup_2).
    apply (Hres i rv vv v val Hts Hr) in Hval as (Q & u & HQ & Hun & Hbk). rewrite (Hkf i rv vv Hts) in Hbk.
    apply (Hnq 0 newq Q eq_refl) in HQ as (rest & out & Hrest & HKq & Hout). rewrite Hseq in HKq, Hun.
    destruct (nm_kernel _ _ _ _ _ _ _ _ _ Hm x y e z newq n nd q _ rest Hzf Hnew Ho Hn Hop Hin Hrest) as [out' HK].
    rewrite HK in HKq. injection HKq as <-. cbn in Hout. injection Hout as <-.
    pose proof (nm_free _ _ _ _ _ _ _ _ _ Hm x e z Hzf) as Hmf.
    assert (Hshape : forall r, r ∈ V -> t_shape (move x e z r) = t_shape (z r)).
    { intros r Hr'. pose proof (ni_space _ _ _ _ _ _ _ _ Hi x r Hr') as Hsp. destruct (Hz r Hr') as (Hf & _ & _).
      apply (forward_shape (space x r) Hsp (y r) (z r) (Hy r Hr') Hf), (Hmf r Hr'). }
    rewrite (unravel_ravel i (move x e z <$> V) (z <$> V) (move x e z rv)) in Hun; [injection Hun as <-| | |].
    - apply original_backward. destruct (Htr rv HrvV) as (H1 & _ & _). by rewrite <- H1.
    - rewrite <- !list_fmap_compose. apply list_fmap_ext. intros j r Hj. cbn. apply Hshape. by eapply elem_of_list_lookup_2.
    - apply Forall_fmap, Forall_forall. intros r Hr'. by apply (Hmf r Hr').
    - by rewrite list_lookup_fmap, Hk.
  Qed.

  Lemma nuts_keeps N test w orig move nu :
    nuts_moves K other cval h ts h' env space move ->
    nuts_target ts space test w (b_own N) orig nu ->
    kernel_keeps ts test (b_seed N) orig move nu ->
    step_computes K other cval ts h' s env space (b_step N) ->
    b_vars N = V -> (forall g, test g -> test (fun x => kernel N x g)) ->
    (forall x e z z', free ts space x z -> free ts space x z' -> (forall r, r ∈ V -> orig x z r = orig x z' r) ->
      forall r, r ∈ V -> orig x (move x e z) r = orig x (move x e z') r) ->
    keeps_conditional test w N.
  Proof using Hst Hlp Hg Hv Hi.
    intros Hm Ht Hkk Hc HV Htest Hper x g Hgt. rewrite HV.
    rewrite (nt_change _ _ _ _ _ _ _ Ht x (fun x => kernel N x g) (Htest g Hgt)), (nt_change _ _ _ _ _ _ _ Ht x g Hgt), <- (Hkk x g Hgt).
    apply (nt_free _ _ _ _ _ _ _ Ht). intros z Hz. unfold kernel. rewrite HV. f_equal. apply functional_extensionality. intros e. f_equal.
    set (y := orig x z).
    assert (Hy : forall r, r ∈ V -> original (space x r) (z r) (y r)) by (by apply (nt_orig _ _ _ _ _ _ _ Ht)).
    assert (Hyv : forall r, r ∈ V -> is_value (space x r) (y r)).
    { intros r Hr. destruct (free_value (space x r) (ni_space _ _ _ _ _ _ _ _ Hi x r Hr) (z r) (Hz r Hr)) as (u & Hu & Hval).
      by rewrite (original_det _ _ _ _ (Hy r Hr) Hu). }
    apply put_put. intros rv Hrv. apply elem_of_list_lookup in Hrv as [i Hk].
    assert (Hlen : length (ns_results s) = length ts).
    { pose proof (step_eq _ _ _ _ _ _ _ _ _ Hst Hlp Hg Hv) as Hsg. destruct (sg_body _ _ _ _ _ _ _ _ Hsg) as (? & ? & ? & ? & ? & ? & ? & Hb).
      destruct (ns_params s). apply Hb. }
    assert (Hw : exists v, ns_results s !! i = Some v).
    { apply lookup_lt_is_Some. rewrite Hlen, <- (dkeys_length ts). by eapply lookup_lt_Some. }
    destruct Hw as [v Hw].
    assert (Hval : ev h' (env (put V y x) e) v (b_step N (put V y x) e rv)).
    { apply (Hc (put V y x) e i rv v); [|done|done]. intros r Hr. rewrite (ni_own _ _ _ _ _ _ _ _ Hi x y r Hr), (put_in V y x r Hr). by apply Hyv. }
    destruct (step_moves move x y e i rv v _ Hm Hyv Hk Hw Hval) as (z' & Hz' & Ho & Hres).
    pose proof (nm_free _ _ _ _ _ _ _ _ _ Hm x e z' Hz') as Hmf. assert (HrvV : rv ∈ V) by (by eapply elem_of_list_lookup_2).
    rewrite (original_det _ _ _ _ Hres (nt_orig _ _ _ _ _ _ _ Ht x _ Hmf rv HrvV)).
    apply (Hper x e z' z Hz' Hz); [|done]. intros r Hr.
    by rewrite (original_det _ _ _ _ (nt_orig _ _ _ _ _ _ _ Ht x _ Hz' r Hr) (Ho r Hr)).
  Qed.
  Lemma no_angles orig move :
    nuts_moves K other cval h ts h' env space move ->
    (forall x rv, rv ∈ V -> vs_dist (space x rv) <> RV_vonmises) ->
    (forall x z, free ts space x z -> originals ts space x z (orig x z)) ->
    forall x e z z', free ts space x z -> free ts space x z' -> (forall r, r ∈ V -> orig x z r = orig x z' r) ->
      forall r, r ∈ V -> orig x (move x e z) r = orig x (move x e z') r.
  Proof using Hi.
    intros Hm Hno Ho x e z z' Hz Hz' He r Hr.
    assert (E : forall u, u ∈ V -> z u = z' u).
    { intros u Hu. apply (original_inj (space x u) (ni_space _ _ _ _ _ _ _ _ Hi x u Hu) (z u) (z' u) (orig x z u)); [by apply Hno|by apply Hz|by apply Hz'|by apply Ho|].
      rewrite (He u Hu). by apply Ho. }
    pose proof (Ho x (move x e z) (nm_free _ _ _ _ _ _ _ _ _ Hm x e z Hz) r Hr) as H1.
    rewrite (nm_own _ _ _ _ _ _ _ _ _ Hm x e z z' r E Hr) in H1.
    exact (original_det _ _ _ _ H1 (Ho x (move x e z') (nm_free _ _ _ _ _ _ _ _ _ Hm x e z' Hz') r Hr)).
  Qed.
End keeps.
