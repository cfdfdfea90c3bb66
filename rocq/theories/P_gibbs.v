(** C35, C39, C48, C49: the finders of gibbs.py and the registered finders. *)
From Verif Require Import S_gibbs L_gibbs L_match_fun L_discover E_real.

(** ** C35: on every graph, normal_horseshoe_finder builds its two steps exactly for a normal
    whose scale is a product of two half-Cauchy variables, one of them with one element,
    and finds nothing otherwise.  Missing: the mean and the parameters of the half-Cauchy
    variables are not looked at, see the refutation. *)
Theorem C35_horseshoe_finder_partial (B : builder) h n nd y :
  good_heap h -> (forall v, shared_var h v -> owner h v = None) ->
  hn h n = Some nd -> n_outs nd !! 1 = Some y ->
  (forall lam tau, documented_horseshoe B h y lam tau ->
     exists h' lam' tau', normal_horseshoe_finder B h n = (h', Ok [(lam, lam', []); (tau, tau', [])]) /\
       extends h h' /\ hv h lam' = None /\ hv h tau' = None /\ lam' <> tau') /\
  (forall h' es, normal_horseshoe_finder B h n = (h', Ok es) -> es <> [] ->
     exists lam tau lam' tau' mu scale, es = [(lam, lam', []); (tau, tau', [])] /\
       rv_node h y RV_normal [mu; scale] /\ half_cauchy h lam /\ half_cauchy h tau /\ one_element B h tau /\
       (applied h scale (OElem E_mul) [lam; tau] \/ applied h scale (OElem E_mul) [tau; lam])).
Proof.
  intros Hg Hl Hn Hy. split.
  - intros lam tau [Hhp _]. destruct (horseshoe_built B h Hg n nd y Hn Hy (fun v _ => Hl v) lam tau) as (h' & l' & t' & H1 & H2 & _ & H3).
    { apply horseshoe_match_iff. destruct Hhp as (mu & sc & a & b & H1 & (m & k & md & Ho & Hm & Hi & Hop) & H3). exists mu, sc, a, b.
      split; [done|]. split; [|done]. exists m, k, md. split; [done|]. split; [done|]. split; [|done].
      destruct Hop as [->|(args & -> & _)]; done. }
    exists h', l', t'. done.
  - intros h' es He Hne. destruct (horseshoe_match B h y) as [[lam tau]|e] eqn:Hm.
    + destruct (horseshoe_built B h Hg n nd y Hn Hy (fun v _ => Hl v) lam tau Hm) as (h1 & l' & t' & H1 & _). rewrite He in H1. injection H1 as _ ->.
      apply horseshoe_match_iff in Hm as (mu & sc & a & b & Hrv & Hap & Ha & Hb & Hlt). exists lam, tau, l', t', mu, sc.
      destruct Hlt as [(H1 & -> & ->)|(_ & H1 & -> & ->)]; split_and!; try done; [by right|by left].
    + rewrite (horseshoe_nothing B h n nd y Hn Hy) in He; [by injection He as _ <-|]. intros lam tau. congruence.
Qed.
Print Assumptions C35_horseshoe_finder_partial.

(** beta (12) with mean 5 and scale tau * lambda, tau half-Cauchy(0, [sc]) and lambda a
    half-Cauchy(0, 1) vector *)
Definition gb_ty (k : nat) : vtype := VType false k.
Definition gb_T : typing := Typing ty_tag (fun ty => replicate (ty_tag ty) None)
  (fun c => match c with 5 => NScalar 5 | 6 => NScalar 1 | 7 => NList [NScalar (-1)] | _ => NScalar 0 end).
Definition gb_B : builder := Builder gb_T
  (fun _ tys => gb_ty (foldr Nat.max 0 (ty_tag <$> tys))) (fun o _ => gb_ty (length o)) (fun _ _ => gb_ty 1) (VType true 20)
  (fun _ _ _ => gb_ty 0)
  (fun z => (8, gb_ty 0)) (fun z => (9, gb_ty 0)) (10, gb_ty 0) (11, gb_ty 1) (12, gb_ty 0).
Lemma gb_builder : builder_ok gb_B.
Proof. constructor; done. Qed.
Definition hs_h (mean sc : nat) : heap :=
  Heap (list_to_map [(0, Var None (VType true 20) (KShared None) None); (1, Var None (gb_ty 1) (KConst 3) None);
                     (2, Var None (gb_ty 0) (KConst 4) None); (3, Var None (gb_ty 0) (KConst 0) None);
                     (4, Var None (gb_ty 0) (KConst sc) None);
                     (5, Var None (VType true 20) KPlain (Some (10, 0))); (6, Var (Some "tau"%string) (gb_ty 0) KPlain (Some (10, 1)));
                     (7, Var None (VType true 20) KPlain (Some (11, 0))); (8, Var (Some "lambda"%string) (gb_ty 1) KPlain (Some (11, 1)));
                     (9, Var None (gb_ty 1) KPlain (Some (12, 0))); (10, Var None (gb_ty 0) (KConst mean) None);
                     (11, Var None (VType true 20) KPlain (Some (14, 0))); (12, Var (Some "beta"%string) (gb_ty 1) KPlain (Some (14, 1)))])
       (list_to_map [(10, Node (ORV RV_halfcauchy) [0; 1; 2; 3; 4] [5; 6]);
                     (11, Node (ORV RV_halfcauchy) [0; 1; 2; 3; 4] [7; 8]);
                     (12, Node (OElem E_mul) [6; 8] [9]);
                     (14, Node (ORV RV_normal) [0; 1; 2; 10; 9] [11; 12])]).
Lemma hs_good mean sc : good_heap (hs_h mean sc).
Proof. apply heap_check_good. vm_compute. reflexivity. Qed.
Lemma hs_leaf mean sc v : shared_var (hs_h mean sc) v -> owner (hs_h mean sc) v = None.
Proof. apply leaf_check_ok. vm_compute. reflexivity. Qed.
Lemma hs_match mean sc : horseshoe_match gb_B (hs_h mean sc) 12 = Ok (8, 6).
Proof. vm_compute. reflexivity. Qed.

Theorem C35_horseshoe_finder_refuted :
  exists (B : builder) h n y h' lam tau lam' tau' mu scale loc sc,
    good_heap h /\ (forall v, shared_var h v -> owner h v = None) /\
    owner h y = Some (n, 1) /\ rv_node h y RV_normal [mu; scale] /\ constant_number B h mu 5 /\
    rv_node h tau RV_halfcauchy [loc; sc] /\ constant_number B h sc 5 /\
    ~ documented_horseshoe B h y lam tau /\
    normal_horseshoe_finder B h n = (h', Ok [(lam, lam', []); (tau, tau', [])]).
Proof.
  destruct (horseshoe_built gb_B (hs_h 5 5) (hs_good 5 5) 14 _ 12 eq_refl eq_refl (fun v _ => hs_leaf 5 5 v) 8 6 (hs_match 5 5))
    as (h' & l' & t' & H & _).
  exists gb_B, (hs_h 5 5), 14, 12, h', 8, 6, l', t', 10, 9, 3, 4.
  split; [apply hs_good|]. split; [apply hs_leaf|]. split; [reflexivity|].
  assert (Hrv : rv_node (hs_h 5 5) 12 RV_normal [10; 9]) by (do 6 eexists; split_and!; reflexivity).
  split; [done|]. split; [exists 5; split; [do 2 eexists; reflexivity|reflexivity]|].
  split; [do 6 eexists; split_and!; reflexivity|]. split; [exists 5; split; [do 2 eexists; reflexivity|reflexivity]|].
  split; [|exact H]. intros (_ & (mu & sc & Hrv' & c & (nm & ty & Hc) & Hd) & _).
  destruct Hrv' as (a1 & a2 & a3 & a4 & a5 & a6 & A1 & A2 & A3 & A4). vm_compute in A1. injection A1 as <- <-.
  vm_compute in A2. injection A2 as <-. cbn in A4. injection A4 as <- <- <- <- <-. vm_compute in Hc. injection Hc as <- <- <-. vm_compute in Hd. done.
Qed.
Print Assumptions C35_horseshoe_finder_refuted.
(** the documented prior *)
Example C35_example : documented_horseshoe gb_B (hs_h 0 6) 12 8 6.
Proof.
  split; [|split; [|split]].
  - exists 10, 9, 6, 8. split_and!; [do 6 eexists; split_and!; reflexivity| |do 3 eexists; split_and!; reflexivity|do 3 eexists; split_and!; reflexivity|].
    + do 3 eexists. split_and!; [reflexivity..|by left].
    + left. split; [|done]. exists (gb_ty 0). split; [reflexivity|by left].
  - exists 10, 9. split; [do 6 eexists; split_and!; reflexivity|]. exists 0. split; [do 2 eexists; reflexivity|reflexivity].
  - exists 3, 4. split; [do 6 eexists; split_and!; reflexivity|]. split; [exists 0|exists 6]; (split; [do 2 eexists; reflexivity|reflexivity]).
  - exists 3, 4. split; [do 6 eexists; split_and!; reflexivity|]. split; [exists 0|exists 6]; (split; [do 2 eexists; reflexivity|reflexivity]).
Qed.

(** ** C39: the horseshoe finder and the three conjugate finders never raise *)
Theorem C39_no_exception_partial (B : builder) h n nd y :
  good_heap h -> (forall v, shared_var h v -> owner h v = None) ->
  hn h n = Some nd -> n_outs nd !! 1 = Some y ->
  forall f, f ∈ [normal_horseshoe_finder B; local_gamma_poisson_posterior B; local_beta_binomial_posterior B;
                 local_beta_negative_binomial_posterior B] ->
  exists h' es, f h n = (h', Ok es).
Proof.
  intros Hg Hl Hn Hy f Hf. repeat (apply elem_of_cons in Hf as [->|Hf]); [| | | |by apply elem_of_nil in Hf].
  - destruct (horseshoe_match B h y) as [[lam tau]|e] eqn:Hm.
    + destruct (horseshoe_built B h Hg n nd y Hn Hy (fun v _ => Hl v) lam tau Hm) as (h1 & l' & t' & H1 & _). eauto.
    + rewrite (horseshoe_nothing B h n nd y Hn Hy); [eauto|]. intros lam tau. congruence.
  - exact (gamma_poisson_returns B h Hg n nd y Hn Hy).
  - exact (beta_binomial_returns B h Hg n nd y Hn Hy).
  - exact (beta_nb_returns B h Hg n nd y Hn Hy).
Qed.
Print Assumptions C39_no_exception_partial.

(** The regression finders raise exactly when the observation has the form they look for,
    and either the factor in front of the dot product cannot be compared with -1, or it
    passes the test and then the coefficients do not come from a node with five inputs,
    their prior scale is a scalar, the design is a vector, or some argument of the step is a
    shared variable. *)
Theorem C39_bernoulli_raises_iff (B : builder) h n nd y :
  good_heap h -> (forall v, shared_var h v -> owner h v = None) ->
  hn h n = Some nd -> n_outs nd !! 1 = Some y ->
  ((exists h' e, bern_logistic_finder B h n = (h', Raise e)) <->
   exists c X beta, bern_form h y c X beta /\
     (untestable B h c \/ (passes B h c /\ ~ buildable B h beta X [y]))).
Proof.
  intros Hg Hl Hn Hy. split.
  - intros (h' & e & He). destruct (bern_matched_dec h y) as [(p & c & X & beta & H1 & H2)|Hno].
    + exists c, X, beta. assert (Hf : bern_form h y c X beta) by (exists p; done). split; [done|].
      destruct (bern_cases B h Hg n nd y Hn Hy (fun v _ => Hl v) c X beta Hf) as [(? & _)|[(_ & _ & H)|[(_ & ? & ? & _)|(_ & _ & _ & h2 & b' & H & _)]]].
      * by left. * rewrite H in He. done. * by right. * rewrite H in He. done.
    + rewrite (bern_nothing B h n nd y Hn Hy) in He; [done|]. intros (c & X & beta & p & H). apply Hno. exists p, c, X, beta. done.
  - intros (c & X & beta & Hf & Hc).
    destruct (bern_cases B h Hg n nd y Hn Hy (fun v _ => Hl v) c X beta Hf) as [(_ & _ & e & H)|[(N1 & N2 & H)|[(_ & _ & _ & h' & e & H)|(N1 & N2 & N3 & _)]]]; [eauto| |eauto|].
    + destruct Hc as [?|[? _]]; done.
    + destruct Hc as [?|[_ ?]]; done.
Qed.
Print Assumptions C39_bernoulli_raises_iff.

Theorem C39_nbinom_raises_iff (B : builder) h n nd y :
  good_heap h -> (forall v, shared_var h v -> owner h v = None) ->
  hn h n = Some nd -> n_outs nd !! 1 = Some y ->
  ((exists h' e, nbinom_logistic_finder B h n = (h', Raise e)) <->
   exists hh c X beta, nbinom_form h y hh c X beta /\
     (untestable B h c \/ (passes B h c /\ ~ (buildable B h beta X [hh; y] /\ gamma_params_plain h hh)))).
Proof.
  intros Hg Hl Hn Hy. split.
  - intros (h' & e & He). destruct (nbinom_matched_dec h y) as [(hh & p & c & X & beta & H1 & H2)|Hno].
    + exists hh, c, X, beta. assert (Hf : nbinom_form h y hh c X beta) by (exists p; done). split; [done|].
      destruct (nbinom_cases B h Hg n nd y Hn Hy (fun v _ => Hl v) hh c X beta Hf) as [(? & _)|[(_ & _ & H)|[(_ & ? & ? & _)|[H|H]]]].
      * by left. * rewrite H in He. done. * by right.
      * destruct H as (_ & _ & _ & _ & h2 & ? & ? & ? & ? & ? & ? & ? & ? & ? & ? & ? & ? & ? & H & _). rewrite H in He. done.
      * destruct H as (_ & _ & _ & _ & h2 & ? & H & _). rewrite H in He. done.
    + rewrite (nbinom_nothing B h n nd y Hn Hy) in He; [done|]. intros (hh & c & X & beta & p & H). apply Hno. exists hh, p, c, X, beta. done.
  - intros (hh & c & X & beta & Hf & Hc).
    destruct (nbinom_cases B h Hg n nd y Hn Hy (fun v _ => Hl v) hh c X beta Hf) as [(_ & _ & e & H)|[(N1 & N2 & H)|[(_ & _ & _ & h' & e & H)|[(N1 & N2 & N3 & _)|(N1 & N2 & N3 & _)]]]]; [eauto| |eauto| |].
    + destruct Hc as [?|[? _]]; done.
    + destruct Hc as [?|[_ Hc]]; [done|]. by destruct Hc.
    + destruct Hc as [?|[_ Hc]]; [done|]. by destruct Hc.
Qed.
Print Assumptions C39_nbinom_raises_iff.

(** A regression: beta (9) is normal with scale 6, 10 = dot(X, beta), 11 = c * 10,
    12 = sigmoid(11), the dispersion is gamma (14), and the observation (16) is negative-binomial
    with probability 12; the design matrix 5 is of kind [kX], the prior scale has [r] dimensions *)
Definition rr_h (kX : kind) (r : nat) : heap :=
  Heap (list_to_map [(0, Var None (VType true 20) (KShared None) None); (1, Var None (gb_ty 1) (KConst 3) None);
                     (2, Var None (gb_ty 0) (KConst 4) None); (3, Var None (gb_ty 0) (KConst 0) None);
                     (4, Var None (gb_ty 1) (KConst 7) None); (5, Var None (gb_ty 2) kX None);
                     (6, Var None (gb_ty r) KPlain None); (7, Var None (gb_ty 0) KPlain None);
                     (8, Var None (VType true 20) KPlain (Some (20, 0))); (9, Var (Some "beta"%string) (gb_ty 1) KPlain (Some (20, 1)));
                     (10, Var None (gb_ty 1) KPlain (Some (21, 0))); (11, Var None (gb_ty 1) KPlain (Some (22, 0)));
                     (12, Var None (gb_ty 1) KPlain (Some (23, 0)));
                     (13, Var None (VType true 20) KPlain (Some (24, 0))); (14, Var (Some "h"%string) (gb_ty 0) KPlain (Some (24, 1)));
                     (15, Var None (VType true 20) KPlain (Some (25, 0))); (16, Var None (gb_ty 1) KPlain (Some (25, 1)))])
       (list_to_map [(20, Node (ORV RV_normal) [0; 1; 2; 3; 6] [8; 9]);
                     (21, Node (OOther K_dot) [5; 9] [10]);
                     (22, Node (OElem E_mul) [4; 10] [11]);
                     (23, Node (OElem E_sigmoid) [11] [12]);
                     (24, Node (ORV RV_gamma) [0; 1; 2; 3; 7] [13; 14]);
                     (25, Node (ORV RV_nbinom) [0; 1; 2; 14; 12] [15; 16])]).
Lemma rr_good kX r : good_heap (rr_h kX r).
Proof. apply heap_check_good. vm_compute. reflexivity. Qed.
Lemma rr_leaf kX r v : shared_var (rr_h kX r) v -> owner (rr_h kX r) v = None.
Proof. apply leaf_check_ok. vm_compute. destruct kX; reflexivity. Qed.
Lemma rr_form kX r : nbinom_form (rr_h kX r) 16 14 4 5 9.
Proof.
  exists 12. split; [do 6 eexists; split_and!; reflexivity|]. exists 11, 10. split_and!; do 3 eexists; split_and!; reflexivity.
Qed.
Lemma rr_passes kX r : passes gb_B (rr_h kX r) 4.
Proof. exists 7, [], (NScalar (-1)), []. split; [do 2 eexists; reflexivity|]. split; [reflexivity|]. split; [constructor|by right]. Qed.

(** the design matrix is a shared variable: the finder raises *)
Theorem C39_no_exception_refuted :
  exists (B : builder) h n nd y h' e,
    good_heap h /\ (forall v, shared_var h v -> owner h v = None) /\
    hn h n = Some nd /\ n_op nd = ORV RV_nbinom /\ n_outs nd !! 1 = Some y /\
    (exists hh c X beta, nbinom_form h y hh c X beta /\ shared_var h X) /\
    nbinom_logistic_finder B h n = (h', Raise e).
Proof.
  set (h := rr_h (KShared None) 1).
  destruct (proj2 (C39_nbinom_raises_iff gb_B h 25 _ 16 (rr_good _ _) (rr_leaf _ _) eq_refl eq_refl)) as (h' & e & H).
  { exists 14, 4, 5, 9. split; [apply rr_form|]. right. split; [apply rr_passes|]. intros ((std & _ & _ & _ & Hno) & _).
    apply (Hno 5); [set_solver|]. do 4 eexists. reflexivity. }
  exists gb_B, h. do 3 eexists. exists h', e. split; [apply rr_good|]. split; [apply rr_leaf|].
  split; [|split; [|split; [|split; [|exact H]]]]; [reflexivity|reflexivity|reflexivity|].
  exists 14, 4, 5, 9. split; [apply rr_form|]. do 4 eexists. reflexivity.
Qed.
Print Assumptions C39_no_exception_refuted.
(** ... and so it does in a graph without any shared variable but the generator, when the prior
    scale of the coefficients is a scalar *)
Theorem C39_scalar_scale_refuted :
  exists (B : builder) h n nd y h' e,
    good_heap h /\ (forall v, shared_var h v -> owner h v = None) /\
    hn h n = Some nd /\ n_op nd = ORV RV_nbinom /\ n_outs nd !! 1 = Some y /\
    (exists hh c X beta std, nbinom_form h y hh c X beta /\ passes B h c /\ fifth_input h beta std /\
       a_ndim B (ty_def h std) = 0 /\ has_dims B h X 2 /\
       forall v, v ∈ [beta; std; X; hh; y] -> ~ shared_var h v) /\
    nbinom_logistic_finder B h n = (h', Raise e).
Proof.
  set (h := rr_h KPlain 0).
  destruct (proj2 (C39_nbinom_raises_iff gb_B h 25 _ 16 (rr_good _ _) (rr_leaf _ _) eq_refl eq_refl)) as (h' & e & H).
  { exists 14, 4, 5, 9. split; [apply rr_form|]. right. split; [apply rr_passes|]. intros ((std & (m & k & md & Ho & Hm & Hi) & (ty & Hd & Hle) & _) & _).
    vm_compute in Ho. injection Ho as <- <-. vm_compute in Hm. injection Hm as <-. cbn in Hi. injection Hi as <-.
    vm_compute in Hd. injection Hd as <-. cbn in Hle. lia. }
  exists gb_B, h. do 3 eexists. exists h', e. split; [apply rr_good|]. split; [apply rr_leaf|].
  split; [|split; [|split; [|split; [|exact H]]]]; [reflexivity|reflexivity|reflexivity|].
  exists 14, 4, 5, 9, 6. split; [apply rr_form|]. split; [apply rr_passes|]. split; [do 3 eexists; split_and!; reflexivity|].
  split; [reflexivity|]. split; [eexists; split; [reflexivity|cbn; lia]|].
  intros v Hv (nm & ty & u & ow & Hs). repeat (apply elem_of_cons in Hv as [->|Hv]; [vm_compute in Hs; done|]). by apply elem_of_nil in Hv.
Qed.
Print Assumptions C39_scalar_scale_refuted.

(** ** C48: the updates of the dispersion step.  Whenever the finder builds a step for the
    dispersion, the step is the first output of a kernel that draws with two new generators:
    the one of the gamma draw and the one of the scan.  The updates give to the generator of the
    scan the next state of the generator of the gamma draw, and the other way round.
    Missing: that each generator gets its own next state.  That is false (see below). *)
Theorem C48_dispersion_updates_partial (B : builder) h n nd y hh c X beta h' es :
  good_heap h -> (forall v, shared_var h v -> owner h v = None) -> constant_leaves h ->
  hn h n = Some nd -> n_outs nd !! 1 = Some y -> nbinom_form h y hh c X beta ->
  nbinom_logistic_finder B h n = (h', Ok es) -> (exists a b, rv_node h hh RV_gamma [a; b]) -> es <> [] ->
  exists beta' hh' u1 u2 scan_rng gamma_rng k ins sample gamma_next scan_next,
    es = [(beta, beta', []); (hh, hh', [(scan_rng, u1); (gamma_rng, u2)])] /\
    hv h scan_rng = None /\ hv h gamma_rng = None /\ NoDup [hh'; u1; u2] /\
    kernel_node h' k ins [sample; gamma_next; scan_next] [hh'; u1; u2] /\
    dispersion_graph_ok h' scan_rng gamma_rng sample gamma_next scan_next.
Proof.
  intros Hg Hl Hc Hn Hy Hf He Hab Hne.
  destruct (nbinom_cases B h Hg n nd y Hn Hy (fun v _ => Hl v) hh c X beta Hf) as [(_ & _ & e & H)|[(_ & _ & H)|[(_ & _ & _ & h2 & e & H)|[H|(_ & _ & _ & Hng & _)]]]];
    [by rewrite H in He|rewrite H in He; by injection He as <- <-|by rewrite H in He| |done].
  destruct H as (_ & _ & _ & _ & h2 & b' & hh' & u1 & u2 & rs & rg & r1 & r2 & m & ins & x & gn & sn & H & _ & _ & _ & F1 & F2 & Hk & Hd & Hnd & Hord).
  destruct (Hord Hc) as [-> ->]. rewrite H in He. injection He as -> <-.
  exists b', hh', u1, u2, rs, rg, m, ins, x, gn, sn. done.
Qed.
Print Assumptions C48_dispersion_updates_partial.
(** so that the updates are wrong whenever there are any *)
Lemma crossed_updates h inner0 inner1 inner2 o0 o1 o2 rs rg :
  NoDup [o0; o1; o2] -> dispersion_graph_ok h rs rg inner0 inner1 inner2 ->
  ~ updates_own h [inner0; inner1; inner2] [o0; o1; o2] [(rs, o1); (rg, o2)].
Proof.
  intros Hnd (Hne & _ & _ & (n & sz & dt & sh & sc & W & _ & N & Hni) & _) H.
  destruct (H rs o1) as (i & s & Hi & Hs & _ & n' & k & nd & W' & N' & Hin).
  { cbn. by rewrite decide_True. }
  assert (i = 1) as -> by exact (NoDup_lookup _ i 1 o1 Hnd Hi eq_refl). cbn in Hs. injection Hs as <-. rewrite W in W'. injection W' as <- <-.
  rewrite N in N'. injection N' as <-. cbn in Hin. apply elem_of_cons in Hin as [->|Hin]; done.
Qed.
Theorem C48_dispersion_updates_refuted (B : builder) h n nd y hh c X beta h' es :
  good_heap h -> (forall v, shared_var h v -> owner h v = None) -> constant_leaves h ->
  hn h n = Some nd -> n_outs nd !! 1 = Some y -> nbinom_form h y hh c X beta ->
  nbinom_logistic_finder B h n = (h', Ok es) -> (exists a b, rv_node h hh RV_gamma [a; b]) -> es <> [] ->
  exists hh' ups k ins inner outs, (hh, hh', ups) ∈ es /\ kernel_node h' k ins inner outs /\ outs !! 0 = Some hh' /\
    dvalues ups = drop 1 outs /\ length ups = 2 /\ ~ updates_own h' inner outs ups.
Proof.
  intros Hg Hl Hc Hn Hy Hf He Hab Hne.
  destruct (C48_dispersion_updates_partial B h n nd y hh c X beta h' es Hg Hl Hc Hn Hy Hf He Hab Hne)
    as (b' & hh' & u1 & u2 & rs & rg & k & ins & x & gn & sn & -> & _ & _ & Hnd & Hk & Hd).
  exists hh', [(rs, u1); (rg, u2)], k, ins, [x; gn; sn], [hh'; u1; u2]. split; [right; by left|]. split; [done|]. split; [done|]. split; [done|].
  split; [done|]. by apply crossed_updates.
Qed.
Print Assumptions C48_dispersion_updates_refuted.
(** the finder builds both steps *)
Example C48_instance : exists h' es, good_heap (rr_h KPlain 1) /\
  (forall v, shared_var (rr_h KPlain 1) v -> owner (rr_h KPlain 1) v = None) /\ constant_leaves (rr_h KPlain 1) /\
  nbinom_form (rr_h KPlain 1) 16 14 4 5 9 /\ nbinom_logistic_finder gb_B (rr_h KPlain 1) 25 = (h', Ok es) /\
  (exists a b, rv_node (rr_h KPlain 1) 14 RV_gamma [a; b]) /\ es <> [].
Proof.
  set (h := rr_h KPlain 1).
  assert (Hcl : constant_leaves h).
  { intros v nm ty c ow Hv. unfold hv in Hv. apply elem_of_map_to_list in Hv. revert Hv.
    assert (Hf : Forall (fun p => match p.2 with Var _ _ (KConst _) o => o = None | _ => True end) (map_to_list (h_vars h))).
    { apply Forall_forall. intros p Hp. vm_compute in Hp.
      repeat (apply elem_of_cons in Hp as [->|Hp]; [cbn; exact I || reflexivity|]). by apply elem_of_nil in Hp. }
    intros Hv. rewrite Forall_forall in Hf. exact (Hf _ Hv). }
  destruct (nbinom_cases gb_B h (rr_good _ _) 25 _ 16 eq_refl eq_refl (fun v _ => rr_leaf _ _ v) 14 4 5 9 (rr_form _ _))
    as [(H & _)|[(_ & H & _)|[(_ & _ & H & _)|[H|(_ & _ & _ & H & _)]]]].
  - exfalso. destruct H as [H|(k & z & (nm & ty & H) & Hz)].
    + apply H. exists 7, None, (gb_ty 1). reflexivity.
    + vm_compute in H. injection H as <- <- <-. vm_compute in Hz. done.
  - exfalso. apply H. apply rr_passes.
  - exfalso. apply H. split.
    + exists 6. split; [do 3 eexists; split_and!; reflexivity|]. split; [eexists; split; [reflexivity|cbn; lia]|].
      split; [eexists; split; [reflexivity|cbn; lia]|]. intros v Hv (nm & ty & u & ow & Hs).
      repeat (apply elem_of_cons in Hv as [->|Hv]; [vm_compute in Hs; discriminate Hs|]). by apply elem_of_nil in Hv.
    + intros a b (m & k & md & r & sz & dt & H1 & H2 & _ & H3). vm_compute in H1. injection H1 as <- <-. vm_compute in H2. injection H2 as <-.
      cbn in H3. injection H3 as <- <- <- <- <-. split; intros (nm & ty & u & ow & Hs); vm_compute in Hs; discriminate Hs.
  - destruct H as (_ & _ & _ & Hab & h2 & b' & hh' & u1 & u2 & rs & rg & r1 & r2 & m & ins & x & gn & sn & H & _).
    do 2 eexists. split; [apply rr_good|]. split; [apply rr_leaf|]. split; [exact Hcl|]. split; [apply rr_form|].
    split; [exact H|]. split; [exact Hab|]. discriminate.
  - exfalso. apply H. exists 3, 7. do 6 eexists. split_and!; reflexivity.
Qed.

(** ** C49: whatever nodes of the function graph the registered finders are called on, in
    whatever order, the discovery of samplers changes nothing that exists (so the model is
    untouched), every discovered step is built from variables of the function graph and new variables, and its updates are keyed by different variables without owner. *)
Theorem C49_discovery_only_adds (B : builder) sched h outs :
  sched_ok sched -> good_heap h -> (forall r, r ∈ outs -> is_Some (hv h r)) ->
  let h' := (discover B sched h outs).1 in
  (forall v x, hv h v = Some x -> hv h' v = Some x) /\ (forall n nd, hn h n = Some nd -> hn h' n = Some nd) /\ good_heap h' /\
  forall rv fs f, dget (discover B sched h outs).2 rv = Some fs -> f ∈ fs ->
    (forall v, v ∈ roots_of f -> is_Some (hv h' v)) /\ NoDup (dkeys (f_updates f)) /\
    (forall k, k ∈ dkeys (f_updates f) -> owner h' k = None) /\
    (forall u, reachable h' (roots_of f) u -> reachable h outs u \/ hv h u = None).
Proof.
  intros Hs Hg Ho. destruct (discover_contract B sched h outs Hs Hg Ho) as ([E1 E2] & G & H).
  split; [exact E1|]. split; [exact E2|]. split; [exact G|exact H].
Qed.
Print Assumptions C49_discovery_only_adds.

Example C49_example : exists f,
  dget (discover gb_B out_calls (hs_h 5 5) [12]).2 8 = Some [f] /\ hv (hs_h 5 5) (f_step f) = None /\
  dkeys (discover gb_B out_calls (hs_h 5 5) [12]).2 = [8; 6].
Proof. eexists. split; [vm_compute; reflexivity|]. split; vm_compute; reflexivity. Qed.
