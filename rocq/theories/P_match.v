(** Properties C34, C38 and C45: matching (/repo/aemcmc/gibbs.py, rewriting.py) *)
From Verif Require Import S_match S_subsume M_subsume L_match L_match_fun E_basic E_scan.

(** ** C45 *)

(** Whatever a pattern is unified with, the substitution binds exactly the logic variables
    of the pattern, and the expression is the pattern instantiated by it. *)
Theorem C45_unification_sound h p v s :
  NoDup (pat_lvs p) -> umatch h p v [] = Some s ->
  dkeys s = pat_lvs p /\ instance h (dget s) p v.
Proof. exact (umatch_top h p v s). Qed.
Print Assumptions C45_unification_sound.

(** Every instance is found, with the only possible substitution. *)
Theorem C45_unification_complete h p v sigma :
  NoDup (pat_lvs p) -> instance h sigma p v ->
  exists s, umatch h p v [] = Some s /\ forall i, i ∈ pat_lvs p -> dget s i = sigma i.
Proof.
  intros Hnd Hi. destruct (umatch_complete h sigma p v [] Hi) as [s Hs]. exists s. split; [exact Hs|].
  destruct (umatch_top h p v s Hnd Hs) as [_ Hi']. exact (instance_unique h _ _ p v Hi' Hi).
Qed.
Print Assumptions C45_unification_complete.

(** A SubsumingElemwise unifies with the Elemwise it was made from as if its inputs were
    all the arguments.  When they are, the matched expression has the value of the
    instantiated pattern.  (Missing: nodes that are not [faithful], for which this is
    false, see below.)  [rho] gives values to any variables that are not themselves
    matched against an operator; Elemwise nodes have one output; and values have the rank
    that their type says. *)
Theorem C45_unification_value_partial {A} scalar other (cval : nat -> tensor A) (T : typing) h p v s
    (rho : vid -> option (tensor A)) x :
  NoDup (pat_lvs p) -> umatch h p v [] = Some s ->
  (forall u ty y, ty_of h u = Some ty -> evals (tensor_base scalar other) cval h rho u y -> rank y = a_ndim T ty) ->
  (forall u, matched_at h p v u -> rho u = None) ->
  (forall u n k nd e, matched_at h p v u -> owner h u = Some (n, k) -> hn h n = Some nd ->
     stands_for (n_op nd) (OElem e) -> k = 0) ->
  (forall u n k nd e args, matched_at h p v u -> owner h u = Some (n, k) -> hn h n = Some nd ->
     n_op nd = OSubsume e args -> faithful T h (n_ins nd) args) ->
  evals (tensor_base scalar other) cval h rho v x ->
  pat_value scalar other cval h rho (dget s) p x.
Proof.
  intros Hnd Hs Hr Hn Hk Hf He. destruct (umatch_top h p v s Hnd Hs) as [_ Hi].
  apply (instance_value scalar other T cval h rho Hr (dget s) p v Hi x Hn Hf); [|exact He].
  intros u n k nd Hu Ho Hnd' e. exact (Hk u n k nd e Hu Ho Hnd').
Qed.
Print Assumptions C45_unification_value_partial.

(** ** A model: tau (6) and lambda (8) half-Cauchy, tau a scalar and lambda a vector; 9 is
    tau with a new dimension, 10 the product of 9 and 8, 12 a normal with scale 10; 14 is
    the constant 2 (13) with a new dimension, 15 the product of 14, 9 and 8, and 17 a
    normal with scale 15. *)
Definition mt_rk (n : nat) : vtype := VType false n.
Definition mt_A : typing := Typing ty_tag (fun ty => replicate (ty_tag ty) None)
  (fun c => match c with 2 => NScalar 2 | _ => NScalar 0 end).
Definition mt_T : tyops := TyOps ty_tag (fun _ o => VType false (length o)).
Definition mt_h : heap :=
  Heap (list_to_map [(0, Var None (VType true 20) (KShared None) None); (1, Var None (mt_rk 1) (KConst 3) None);
                     (2, Var None (mt_rk 0) (KConst 4) None); (3, Var None (mt_rk 0) (KConst 0) None);
                     (4, Var None (mt_rk 0) (KConst 1) None);
                     (5, Var None (VType true 20) KPlain (Some (10, 0))); (6, Var (Some "tau"%string) (mt_rk 0) KPlain (Some (10, 1)));
                     (7, Var None (VType true 20) KPlain (Some (11, 0))); (8, Var (Some "lambda"%string) (mt_rk 1) KPlain (Some (11, 1)));
                     (9, Var None (mt_rk 1) KPlain (Some (12, 0))); (10, Var None (mt_rk 1) KPlain (Some (13, 0)));
                     (11, Var None (VType true 20) KPlain (Some (14, 0))); (12, Var (Some "beta"%string) (mt_rk 1) KPlain (Some (14, 1)));
                     (13, Var None (mt_rk 0) (KConst 2) None); (14, Var None (mt_rk 1) KPlain (Some (15, 0)));
                     (15, Var None (mt_rk 1) KPlain (Some (16, 0)));
                     (16, Var None (VType true 20) KPlain (Some (17, 0))); (17, Var None (mt_rk 1) KPlain (Some (17, 1)))])
       (list_to_map [(10, Node (ORV RV_halfcauchy) [0; 1; 2; 3; 4] [5; 6]);
                     (11, Node (ORV RV_halfcauchy) [0; 1; 2; 3; 4] [7; 8]);
                     (12, Node (ODimShuffle [None]) [6] [9]);
                     (13, Node (OElem E_mul) [9; 8] [10]);
                     (14, Node (ORV RV_normal) [0; 1; 2; 3; 10] [11; 12]);
                     (15, Node (ODimShuffle [None]) [13] [14]);
                     (16, Node (OElem E_mul) [14; 9; 8] [15]);
                     (17, Node (ORV RV_normal) [0; 1; 2; 3; 15] [16; 17])]).
Lemma mt_good : good_heap mt_h.
Proof. apply heap_check_good. vm_compute. reflexivity. Qed.
Lemma mt_shuffles : shuffles_ok mt_h.
Proof.
  split.
  - intros n nd o Hn. assert (H : map_Forall (fun (_ : nat) nd => n_op nd = ODimShuffle o -> (exists x, n_ins nd = [x]) /\ (exists v, n_outs nd = [v])) (h_nodes mt_h)).
    { repeat (apply map_Forall_insert_2; [cbn; eauto; intros ?; discriminate|]). apply map_Forall_empty. }
    exact (H n nd Hn).
  - intros v x c Hv. assert (H : map_Forall (fun (_ : nat) x => v_kind x = KConst c -> v_owner x = None) (h_vars mt_h)).
    { repeat (apply map_Forall_insert_2; [cbn; try discriminate; reflexivity|]). apply map_Forall_empty. }
    exact (H v x Hv).
Qed.

(** the graph that the finders see: node [n] subsumed, and its output replaced in the
    graph computing [root] *)
Definition mt_pass (n : nid) : heap * vid * vid :=
  match subsume_node mt_T mt_h n with Ok (Some r) => r | _ => (mt_h, 0, 0) end.
Definition mt_subsumed (n : nid) (root : vid) : heap :=
  (replace (mt_pass n).1.1 [root] (mt_pass n).1.2 (mt_pass n).2).1.

Definition nat_scalar (s : nat) (xs : list nat) : option nat :=
  if decide (s = E_mul) then Some (foldr Nat.mul 1 xs) else Some (foldr Nat.add 0 xs).
Definition mt_rho (v : vid) : option (tensor nat) :=
  match v with 6 => Some (Tensor [] [3]) | 8 => Some (Tensor [2] [5; 7]) | _ => None end.
Definition mt_cval (c : nat) : tensor nat := Tensor [] [c].
Definition mul_pattern : pat := PEt (OElem E_mul) [PLv 0; PLv 1].

(** The pattern [mul(x, y)] unifies with the expression that stands for [mul(2, tau, lambda)]
    after the constant has been moved into the SubsumingElemwise; the two have different
    values. *)
Theorem C45_unification_value_refuted :
  exists T h n h2 old new s x,
    good_heap h /\ shuffles_ok h /\ subsume_node T h n = Ok (Some (h2, old, new)) /\
    NoDup (pat_lvs mul_pattern) /\ umatch h2 mul_pattern new [] = Some s /\
    evals (tensor_base nat_scalar (fun _ _ => None)) mt_cval h2 mt_rho new x /\
    ~ pat_value nat_scalar (fun _ _ => None) mt_cval h2 mt_rho (dget s) mul_pattern x.
Proof.
  exists mt_T, mt_h, 16, (mt_pass 16).1.1, (mt_pass 16).1.2, (mt_pass 16).2, [(0, 6); (1, 8)], (Tensor [2] [30; 42]).
  split; [exact mt_good|]. split; [exact mt_shuffles|]. split; [vm_compute; reflexivity|].
  split; [repeat constructor; set_solver|]. split; [vm_compute; reflexivity|]. split.
  - eapply eval_sound with (fuel := 5). vm_compute. reflexivity.
  - intros Hv. inversion Hv as [| |s ps xs x Hps He|o ps xs ys k x Hno]; subst; [|by apply (Hno E_mul)].
    inversion Hps as [|p ps y ys Hy Hys]; subst. inversion Hys as [|p ps z zs Hz Hzs]; subst. inversion Hzs; subst.
    inversion Hy as [i v w Hv1 Hy1| | |]; subst. inversion Hz as [i v' w Hv2 Hz1| | |]; subst.
    vm_compute in Hv1. injection Hv1 as <-. vm_compute in Hv2. injection Hv2 as <-.
    inversion Hy1 as [? ? Hr1|? ? ? Hr1|? ? ? ? ? ? ? Hr1]; subst; try discriminate Hr1. injection Hr1 as <-.
    inversion Hz1 as [? ? Hr2|? ? ? Hr2|? ? ? ? ? ? ? Hr2]; subst; try discriminate Hr2. injection Hr2 as <-.
    vm_compute in He. discriminate He.
Qed.
Print Assumptions C45_unification_value_refuted.

(** The other product is faithful, so the partial theorem applies to it. *)
Lemma mt_faithful : faithful mt_A (mt_subsumed 13 12) [6; 8] [SIn 0 (Some [None]); SIn 1 None].
Proof.
  split; [reflexivity|]. split.
  - intros [|[|i]] a Ha; cbn in Ha; [injection Ha as <-|injection Ha as <-|discriminate].
    + exists 0, (Some [None]), 6, (mt_rk 0). repeat split; try (vm_compute; reflexivity).
      right. exists 1. split; [lia|]. reflexivity.
    + exists 1, None, 8, (mt_rk 1). repeat split; try (vm_compute; reflexivity). left. reflexivity.
  - exists 1, 1. reflexivity.
Qed.
Example C45_example :
  exists w, owner_op (mt_subsumed 13 12) w = Some (OSubsume E_mul [SIn 0 (Some [None]); SIn 1 None]) /\
    umatch (mt_subsumed 13 12) mul_pattern w [] = Some [(0, 6); (1, 8)] /\
    umatch (mt_subsumed 13 12) (PEt (ORV RV_normal) [PAny; PAny; PAny; PLv 2; mul_pattern]) 12 [] =
      Some [(2, 3); (0, 6); (1, 8)] /\
    evals (tensor_base nat_scalar (fun _ _ => None)) mt_cval (mt_subsumed 13 12) mt_rho w (Tensor [2] [15; 21]) /\
    pat_value nat_scalar (fun _ _ => None) mt_cval (mt_subsumed 13 12) mt_rho (dget [(0, 6); (1, 8)]) mul_pattern
      (Tensor [2] [15; 21]).
Proof.
  exists 18. split; [vm_compute; reflexivity|]. split; [vm_compute; reflexivity|]. split; [vm_compute; reflexivity|].
  split; [eapply eval_sound with (fuel := 5); vm_compute; reflexivity|].
  unfold mul_pattern. eapply (pv_elem _ _ _ _ _ _ _ _ [Tensor [] [3]; Tensor [2] [5; 7]]); [|vm_compute; reflexivity].
  repeat constructor; (econstructor; [reflexivity|apply ev_given; reflexivity]).
Qed.

(** ** C34 *)

(** horseshoe_match recognises exactly the normals whose scale is a product of two
    half-Cauchy variables of which one has one element, and raises ValueError on
    everything else.  (Missing: products in a SubsumingElemwise that is not faithful, see
    below.)  The hypothesis is about the node computing the scale only. *)
Theorem C34_horseshoe_match_partial (T : typing) h v :
  (forall mu scale n k nd args, rv_node h v RV_normal [mu; scale] -> owner h scale = Some (n, k) -> hn h n = Some nd ->
     n_op nd = OSubsume E_mul args -> faithful T h (n_ins nd) args) ->
  (forall lam tau, horseshoe_match T h v = Ok (lam, tau) <-> horseshoe_prior T h v lam tau) /\
  ((~ exists lam tau, horseshoe_prior T h v lam tau) -> horseshoe_match T h v = Raise ValueError).
Proof.
  intros Hf.
  assert (Hiff : forall lam tau, horseshoe_match T h v = Ok (lam, tau) <-> horseshoe_prior T h v lam tau).
  { intros lam tau. rewrite horseshoe_match_iff. unfold horseshoe_prior. split.
    - intros (mu & scale & a & b & Hrv & (n & k & nd & Ho & Hn & Hop & Hi) & Hrest).
      exists mu, scale, a, b. split; [exact Hrv|]. split; [|exact Hrest]. exists n, k, nd. split_and!; try assumption.
      unfold stands_for in Hop. destruct (n_op nd) as [d|s|o|s args|c|gk gi go] eqn:Hnop; try discriminate Hop; injection Hop as <-.
      + left. reflexivity.
      + right. exists args. split; [reflexivity|]. rewrite <- Hi. exact (Hf mu scale n k nd args Hrv Ho Hn Hnop).
    - intros (mu & scale & a & b & Hrv & (n & k & nd & Ho & Hn & Hi & Hop) & Hrest).
      exists mu, scale, a, b. split; [exact Hrv|]. split; [|exact Hrest]. exists n, k, nd. split_and!; try assumption.
      destruct Hop as [->|(args & -> & _)]; reflexivity. }
  split; [exact Hiff|]. intros Hno. destruct (horseshoe_match T h v) as [[lam tau]|e] eqn:Hm.
  - exfalso. apply Hno. exists lam, tau. apply Hiff. reflexivity.
  - rewrite (horseshoe_match_exn T h v e Hm). reflexivity.
Qed.
Print Assumptions C34_horseshoe_match_partial.

(** A normal whose scale is [2 * tau * lambda] is taken for a horseshoe prior: after the
    product has been subsumed, the constant no longer shows. *)
Theorem C34_horseshoe_match_refuted :
  exists (T : typing) Ty h n h2 old new h3,
    good_heap h /\ shuffles_ok h /\ rv_node h 17 RV_normal [3; old] /\ applied h old (OElem E_mul) [14; 9; 8] /\
    shuffle_of h 14 [None] 13 /\ constant_of h 13 2 /\ a_data T 2 = NScalar 2 /\
    subsume_node Ty h n = Ok (Some (h2, old, new)) /\ h3 = (replace h2 [17] old new).1 /\
    horseshoe_match T h3 17 = Ok (8, 6) /\ ~ exists lam tau, horseshoe_prior T h3 17 lam tau.
Proof.
  exists mt_A, mt_T, mt_h, 16, (mt_pass 16).1.1, 15, (mt_pass 16).2, (mt_subsumed 16 17).
  split; [exact mt_good|]. split; [exact mt_shuffles|].
  split. { exists 17, 1, (Node (ORV RV_normal) [0; 1; 2; 3; 15] [16; 17]), 0, 1, 2. repeat split; vm_compute; reflexivity. }
  split. { exists 16, 0, (Node (OElem E_mul) [14; 9; 8] [15]). repeat split; vm_compute; reflexivity. }
  split. { exists 15. split; vm_compute; reflexivity. }
  split. { exists None, (mt_rk 0). vm_compute. reflexivity. }
  split; [reflexivity|]. split; [vm_compute; reflexivity|]. split; [unfold mt_subsumed; f_equal; f_equal; vm_compute; reflexivity|]. split; [vm_compute; reflexivity|].
  intros (lam & tau & mu & scale & a & b & (n & k & nd & r & sz & dt & Ho & Hn & _ & Hi) & (n2 & k2 & nd2 & Ho2 & Hn2 & _ & Hop) & _).
  vm_compute in Ho. injection Ho as <- <-. vm_compute in Hn. injection Hn as <-. injection Hi as <- <- <- <- <-.
  vm_compute in Ho2. injection Ho2 as <- <-. vm_compute in Hn2. injection Hn2 as <-.
  destruct Hop as [Hop|(args & Hop & Hf)]; [discriminate Hop|]. injection Hop as <-.
  destruct Hf as (Hlen & _). discriminate Hlen.
Qed.
Print Assumptions C34_horseshoe_match_refuted.

(** the prior with scale [tau * lambda], before and after its product has been subsumed;
    [tau * tau] has two global candidates and the first is taken *)
Example C34_example :
  horseshoe_match mt_A (mt_subsumed 13 12) 12 = Ok (8, 6) /\
  horseshoe_prior mt_A (mt_subsumed 13 12) 12 8 6 /\
  (forall mu scale n k nd args, rv_node (mt_subsumed 13 12) 12 RV_normal [mu; scale] ->
     owner (mt_subsumed 13 12) scale = Some (n, k) -> hn (mt_subsumed 13 12) n = Some nd ->
     n_op nd = OSubsume E_mul args -> faithful mt_A (mt_subsumed 13 12) (n_ins nd) args) /\
  horseshoe_match mt_A mt_h 12 = Raise ValueError /\ horseshoe_match mt_A mt_h 8 = Raise ValueError.
Proof.
  assert (Hf : forall mu scale n k nd args, rv_node (mt_subsumed 13 12) 12 RV_normal [mu; scale] ->
     owner (mt_subsumed 13 12) scale = Some (n, k) -> hn (mt_subsumed 13 12) n = Some nd ->
     n_op nd = OSubsume E_mul args -> faithful mt_A (mt_subsumed 13 12) (n_ins nd) args).
  { intros mu scale n k nd args (n1 & k1 & nd1 & r & sz & dt & Ho & Hn & _ & Hi) Ho2 Hn2 Hop.
    vm_compute in Ho. injection Ho as <- <-. vm_compute in Hn. injection Hn as <-. injection Hi as <- <- <- <- <-.
    vm_compute in Ho2. injection Ho2 as <- <-. vm_compute in Hn2. injection Hn2 as <-. injection Hop as <-. exact mt_faithful. }
  assert (Hm : horseshoe_match mt_A (mt_subsumed 13 12) 12 = Ok (8, 6)) by (vm_compute; reflexivity).
  split; [exact Hm|]. split; [apply (C34_horseshoe_match_partial _ _ _ Hf); exact Hm|].
  split; [exact Hf|]. split; vm_compute; reflexivity.
Qed.

(** ** C38 *)

(** What the two functions do on any expression: without the form
    [sigmoid(c * dot(X, beta))] they raise ValueError; with it, the result depends on the
    test [all(c.data != -1)]. *)
Theorem C38_match_form (T : typing) h v :
  ((~ exists hh p c X beta, rv_node h v RV_nbinom [hh; p] /\ sigmoid_dot h p c X beta) ->
     nbinom_sigmoid_dot_match T h v = Raise ValueError) /\
  ((~ exists p c X beta, rv_node h v RV_bernoulli [p] /\ sigmoid_dot h p c X beta) ->
     bern_sigmoid_dot_match T h v = Raise ValueError) /\
  (forall X hh beta, nbinom_sigmoid_dot_match T h v = Ok (X, hh, beta) ->
     exists p c k, rv_node h v RV_nbinom [hh; p] /\ sigmoid_dot h p c X beta /\ constant_of h c k) /\
  (forall X beta, bern_sigmoid_dot_match T h v = Ok (X, beta) ->
     exists p c k, rv_node h v RV_bernoulli [p] /\ sigmoid_dot h p c X beta /\ constant_of h c k).
Proof.
  split; [exact (nbinom_match_other T h v)|]. split; [exact (bern_match_other T h v)|].
  assert (Hc : forall c, neg_one_check T h c = Ok tt -> exists k, constant_of h c k).
  { intros c Hk. unfold neg_one_check in Hk. destruct (data_of T h c) as [x|e] eqn:Hd; [|discriminate Hk].
    apply data_of_spec in Hd as (k & Hk' & _). exists k. exact Hk'. }
  split.
  - intros X hh beta Hm. destruct (nbinom_matched_dec h v) as [(hh' & p & c & X' & beta' & H1 & H2)|Hno].
    + rewrite (nbinom_match_matched T h v _ _ _ _ _ H1 H2) in Hm.
      destruct (neg_one_check T h c) as [[]|e] eqn:Hk; [|discriminate Hm]. injection Hm as -> -> ->.
      destruct (Hc c Hk) as [k Hk']. exists p, c, k. auto.
    + rewrite (nbinom_match_other T h v Hno) in Hm. discriminate Hm.
  - intros X beta Hm. destruct (bern_matched_dec h v) as [(p & c & X' & beta' & H1 & H2)|Hno].
    + rewrite (bern_match_matched T h v _ _ _ _ H1 H2) in Hm.
      destruct (neg_one_check T h c) as [[]|e] eqn:Hk; [|discriminate Hm]. injection Hm as -> ->.
      destruct (Hc c Hk) as [k Hk']. exists p, c, k. auto.
    + rewrite (bern_match_other T h v Hno) in Hm. discriminate Hm.
Qed.
Print Assumptions C38_match_form.

(** The functions do what they should when [c] is a constant vector of equal numbers.
    (Missing: constants of other ranks, vectors of unequal numbers and variables, for
    which the claim is false, see below.) *)
Theorem C38_match_partial (T : typing) h v c k z m p X beta :
  constant_of h c k -> a_data T k = NList (replicate (S m) (NScalar z)) -> sigmoid_dot h p c X beta ->
  (forall hh, rv_node h v RV_nbinom [hh; p] ->
     nbinom_sigmoid_dot_match T h v =
       if decide (z = (-1)%Z) then Ok (X, hh, beta) else Raise ValueError) /\
  (rv_node h v RV_bernoulli [p] ->
     bern_sigmoid_dot_match T h v = if decide (z = (-1)%Z) then Ok (X, beta) else Raise ValueError).
Proof.
  intros Hc Hz Hs.
  assert (Hk : neg_one_check T h c = if decide (z = (-1)%Z) then Ok tt else Raise ValueError).
  { unfold neg_one_check. assert (data_of T h c = Ok (a_data T k)) as -> by (apply data_of_spec; eauto).
    cbn [rbind]. rewrite Hz. cbn [all_ne_minus1].
    assert (replicate (S m) (NScalar z) = NScalar <$> replicate (S m) z) as -> by (symmetry; apply fmap_replicate).
    rewrite py_all_vector. cbn [rbind]. case_decide as Hd.
    - subst z. rewrite bool_decide_true by (by left). reflexivity.
    - rewrite bool_decide_false; [reflexivity|]. intros Hin%elem_of_replicate. apply Hd. symmetry. apply Hin. }
  split.
  - intros hh Hrv. rewrite (nbinom_match_matched T h v hh p c X beta Hrv Hs), Hk. case_decide; reflexivity.
  - intros Hrv. rewrite (bern_match_matched T h v p c X beta Hrv Hs), Hk. case_decide; reflexivity.
Qed.
Print Assumptions C38_match_partial.

(** In general one -1 in a constant vector is enough to be accepted ... *)
Theorem C38_mixed_vector_accepted (T : typing) h v c k zs hh p X beta :
  constant_of h c k -> a_data T k = NList (NScalar <$> zs) -> (-1)%Z ∈ zs -> sigmoid_dot h p c X beta ->
  rv_node h v RV_nbinom [hh; p] -> nbinom_sigmoid_dot_match T h v = Ok (X, hh, beta).
Proof.
  intros Hc Hz Hin Hs Hrv. rewrite (nbinom_match_matched T h v hh p c X beta Hrv Hs). unfold neg_one_check.
  assert (data_of T h c = Ok (a_data T k)) as -> by (apply data_of_spec; eauto). cbn [rbind]. rewrite Hz. cbn [all_ne_minus1].
  rewrite py_all_vector, bool_decide_true by exact Hin. reflexivity.
Qed.
Print Assumptions C38_mixed_vector_accepted.

(** ... and other exceptions than ValueError are raised: for a variable that is not a
    constant, and for a constant of rank 0. *)
Theorem C38_other_exceptions (T : typing) h v c hh p X beta :
  rv_node h v RV_nbinom [hh; p] -> sigmoid_dot h p c X beta ->
  ((~ exists k, constant_of h c k) -> nbinom_sigmoid_dot_match T h v = Raise AttributeError) /\
  (forall k z, constant_of h c k -> a_data T k = NScalar z -> nbinom_sigmoid_dot_match T h v = Raise TypeError).
Proof.
  intros Hrv Hs. rewrite (nbinom_match_matched T h v hh p c X beta Hrv Hs). unfold neg_one_check. split.
  - intros Hno. destruct (data_of T h c) as [x|e] eqn:Hd.
    + apply data_of_spec in Hd as (k & Hk & _). exfalso. apply Hno. exists k. exact Hk.
    + apply data_of_exn in Hd as [-> _]. reflexivity.
  - intros k z Hk Hz. assert (data_of T h c = Ok (a_data T k)) as -> by (apply data_of_spec; eauto). cbn [rbind].
    rewrite Hz. reflexivity.
Qed.
Print Assumptions C38_other_exceptions.

(** ** A regression: Y (9) negative binomial with dispersion h (4) and probability 8 =
    sigmoid(7), 7 = mul(c, dot(X, beta)), with [c] (5) the constant [k] *)
Definition rg_h (k : kind) : heap :=
  Heap (list_to_map [(0, Var None (VType true 20) (KShared None) None); (1, Var None (mt_rk 1) (KConst 3) None);
                     (2, Var None (mt_rk 2) KPlain None); (3, Var None (mt_rk 1) KPlain None);
                     (4, Var None (mt_rk 0) KPlain None); (5, Var None (mt_rk 1) k None);
                     (6, Var None (mt_rk 1) KPlain (Some (10, 0))); (7, Var None (mt_rk 1) KPlain (Some (11, 0)));
                     (8, Var None (mt_rk 1) KPlain (Some (12, 0))); (9, Var None (mt_rk 1) KPlain (Some (13, 1)));
                     (10, Var None (VType true 20) KPlain (Some (13, 0)))])
       (list_to_map [(10, Node (OOther K_dot) [2; 3] [6]); (11, Node (OElem E_mul) [5; 6] [7]);
                     (12, Node (OElem E_sigmoid) [7] [8]); (13, Node (ORV RV_nbinom) [0; 1; 1; 4; 8] [10; 9])]).
Definition rg_A : typing := Typing ty_tag (fun ty => replicate (ty_tag ty) None)
  (fun c => match c with
            | 0 => NList [NScalar (-1)]
            | 1 => NList [NScalar 2; NScalar (-1)]
            | 2 => NScalar (-1)
            | _ => NList [NList [NScalar 2; NScalar (-1)]]
            end).
Lemma rg_form k : rv_node (rg_h k) 9 RV_nbinom [4; 8] /\ sigmoid_dot (rg_h k) 8 5 2 3.
Proof.
  split.
  - exists 13, 1, (Node (ORV RV_nbinom) [0; 1; 1; 4; 8] [10; 9]), 0, 1, 1. repeat split.
  - exists 7, 6. split; [|split]; do 3 eexists; repeat split.
Qed.
Example C38_example : nbinom_sigmoid_dot_match rg_A (rg_h (KConst 0)) 9 = Ok (2, 4, 3) /\
  constant_of (rg_h (KConst 0)) 5 0 /\ a_data rg_A 0 = NList (replicate 1 (NScalar (-1))).
Proof. split; [vm_compute; reflexivity|]. split; [|reflexivity]. exists None, (mt_rk 1). reflexivity. Qed.

Theorem C38_match_refuted :
  exists (T : typing) h v X hh beta p c k,
    good_heap h /\ rv_node h v RV_nbinom [hh; p] /\ sigmoid_dot h p c X beta /\ constant_of h c k /\
    ~ all_minus_one (a_data T k) /\ nbinom_sigmoid_dot_match T h v = Ok (X, hh, beta).
Proof.
  exists rg_A, (rg_h (KConst 1)), 9, 2, 4, 3, 8, 5, 1. split; [apply heap_check_good; vm_compute; reflexivity|].
  destruct (rg_form (KConst 1)) as [H1 H2]. split; [exact H1|]. split; [exact H2|].
  split; [exists None, (mt_rk 1); reflexivity|]. split; [|vm_compute; reflexivity].
  unfold all_minus_one. cbn. intros H. inversion H. discriminate.
Qed.
Print Assumptions C38_match_refuted.
Example C38_example_exceptions :
  nbinom_sigmoid_dot_match rg_A (rg_h KPlain) 9 = Raise AttributeError /\
  nbinom_sigmoid_dot_match rg_A (rg_h (KConst 2)) 9 = Raise TypeError /\
  nbinom_sigmoid_dot_match rg_A (rg_h (KConst 3)) 9 = Raise ValueError /\
  nbinom_sigmoid_dot_match rg_A (rg_h (KConst 0)) 8 = Raise ValueError.
Proof. vm_compute. repeat split. Qed.
