(** Lemmas for the discovery of exactly the supported steps. *)
From Verif Require Import L_match_fun L_conjugates L_gibbs.
From Verif Require Export L_discover S_discovery.

(** ** The specification only looks at the graph below the variable *)
Section transfer.
  Context (T : typing) (h h' : heap) (Hg : good_heap h) (E : extends h h').

  Lemma node_old v n k : owner h v = Some (n, k) -> hn h' n = hn h n.
  Proof using All. intros Ho. destruct (wf_owner h (proj1 Hg) _ _ _ Ho) as (nd & Hn & _). rewrite Hn. by apply E. Qed.
  Lemma applied_old v o ins : is_Some (hv h v) -> applied h' v o ins <-> applied h v o ins.
  Proof using All.
    intros Hv. unfold applied. rewrite (extends_owner_old h h' v E Hv).
    split; intros (n & k & nd & Ho & Hn & H); exists n, k, nd; (split; [done|]); (split; [|done]); rewrite (node_old v n k Ho) in *; done.
  Qed.
  Lemma rv_node_old v d ps : is_Some (hv h v) -> rv_node h' v d ps <-> rv_node h v d ps.
  Proof using All. intros Hv. by apply (rv_node_extends h Hg). Qed.
  Lemma half_cauchy_old v : is_Some (hv h v) -> half_cauchy h' v <-> half_cauchy h v.
  Proof using All.
    intros Hv. unfold half_cauchy. rewrite (extends_owner_old h h' v E Hv).
    split; intros (n & k & nd & Ho & Hn & H); exists n, k, nd; (split; [done|]); (split; [|done]); rewrite (node_old v n k Ho) in *; done.
  Qed.
  Lemma one_element_old v : is_Some (hv h v) -> one_element T h' v <-> one_element T h v.
  Proof using E. intros Hv. unfold one_element. by rewrite (extends_ty h h' v E Hv). Qed.
  Lemma has_dims_old v k : is_Some (hv h v) -> has_dims T h' v k <-> has_dims T h v k.
  Proof using E. intros Hv. unfold has_dims. by rewrite (extends_ty h h' v E Hv). Qed.
  Lemma constant_old v c : is_Some (hv h v) -> constant_of h' v c <-> constant_of h v c.
  Proof using E. intros [x Hx]. unfold constant_of. by rewrite Hx, (proj1 E v x Hx). Qed.
  Lemma passes_old v : is_Some (hv h v) -> passes T h' v <-> passes T h v.
  Proof using E.
    intros Hv. split; intros (k & r1 & r & r2 & Hc & H); exists k, r1, r, r2; (split; [|done]); by apply constant_old.
  Qed.
  Lemma shared_old v : is_Some (hv h v) -> shared_var h' v <-> shared_var h v.
  Proof using E. by apply shared_extends. Qed.
  Lemma fifth_old v w : is_Some (hv h v) -> fifth_input h' v w <-> fifth_input h v w.
  Proof using All.
    intros Hv. unfold fifth_input. rewrite (extends_owner_old h h' v E Hv).
    split; intros (n & k & nd & Ho & Hn & H); exists n, k, nd; (split; [done|]); (split; [|done]); rewrite (node_old v n k Ho) in *; done.
  Qed.
  Lemma applied_in v o ins u : applied h v o ins -> u ∈ ins -> is_Some (hv h u).
  Proof using Hg. intros H. by eapply (applied_some h Hg). Qed.
  Lemma rv_in v d ps u : rv_node h v d ps -> u ∈ ps -> is_Some (hv h u).
  Proof using Hg. intros H. by eapply (rv_some h Hg). Qed.

  Lemma buildable_old beta X others : (forall u, u ∈ beta :: X :: others -> is_Some (hv h u)) ->
    buildable T h' beta X others <-> buildable T h beta X others.
  Proof using All.
    intros Hs. assert (Sb : is_Some (hv h beta)) by (apply Hs; by left). assert (SX : is_Some (hv h X)) by (apply Hs; right; by left).
    split; intros (std & H1 & H2 & H3 & H4); exists std.
    - apply (fifth_old beta std Sb) in H1. destruct (fifth_some h Hg _ _ H1) as [_ Ss].
      split; [done|]. split; [by apply has_dims_old|]. split; [by apply has_dims_old|].
      intros v Hv Hsh. apply (H4 v Hv). apply shared_old; [|done].
      apply elem_of_cons in Hv as [->|[->|Hv]%elem_of_cons]; [done|done|apply Hs; by right].
    - destruct (fifth_some h Hg _ _ H1) as [_ Ss]. split; [by apply fifth_old|]. split; [by apply has_dims_old|]. split; [by apply has_dims_old|].
      intros v Hv Hsh. apply (H4 v Hv). apply shared_old; [|done].
      apply elem_of_cons in Hv as [->|[->|Hv]%elem_of_cons]; [done|done|apply Hs; by right].
  Qed.
  Lemma plain_old hh : is_Some (hv h hh) -> gamma_params_plain h' hh <-> gamma_params_plain h hh.
  Proof using All.
    intros Hs. split; intros H a b Hab.
    - destruct (H a b) as [A C]; [by apply rv_node_old|]. split; intros Hx; [apply A|apply C]; (apply shared_old; [|done]); eapply rv_in; try done; set_solver.
    - apply rv_node_old in Hab; [|done]. destruct (H a b Hab) as [A C].
      split; intros Hx; (apply shared_old in Hx; [done|]); eapply rv_in; try done; set_solver.
  Qed.
  Lemma sigmoid_old p c X beta : is_Some (hv h p) -> sigmoid_dot h' p c X beta <-> sigmoid_dot h p c X beta.
  Proof using All.
    intros Hp. split; intros (m & d & H1 & H2 & H3); exists m, d.
    - apply applied_old in H1; [|done]. apply applied_old in H2; [|eapply applied_in; [exact H1|by left]].
      apply applied_old in H3; [|eapply applied_in; [exact H2|right; by left]]. done.
    - split; [by apply applied_old|]. split; [apply applied_old; [eapply applied_in; [exact H1|by left]|done]|].
      apply applied_old; [|done]. eapply applied_in; [exact H2|right; by left].
  Qed.
  Lemma sigmoid_c p c X beta : sigmoid_dot h p c X beta -> is_Some (hv h c) /\ is_Some (hv h X) /\ is_Some (hv h beta).
  Proof using Hg.
    intros (m & d & H1 & H2 & H3). split; [eapply applied_in; [exact H2|by left]|].
    split; eapply applied_in; [exact H3|by left|exact H3|right; by left].
  Qed.
  Lemma bern_form_old y c X beta : is_Some (hv h y) -> bern_form h' y c X beta <-> bern_form h y c X beta.
  Proof using All.
    intros Hy. split; intros (p & H1 & H2); exists p.
    - apply rv_node_old in H1; [|done]. apply sigmoid_old in H2; [done|]. eapply rv_in; [exact H1|by left].
    - split; [by apply rv_node_old|]. apply sigmoid_old; [|done]. eapply rv_in; [exact H1|by left].
  Qed.
  Lemma nbinom_form_old y hh c X beta : is_Some (hv h y) -> nbinom_form h' y hh c X beta <-> nbinom_form h y hh c X beta.
  Proof using All.
    intros Hy. split; intros (p & H1 & H2); exists p.
    - apply rv_node_old in H1; [|done]. apply sigmoid_old in H2; [done|]. eapply rv_in; [exact H1|right; by left].
    - split; [by apply rv_node_old|]. apply sigmoid_old; [|done]. eapply rv_in; [exact H1|right; by left].
  Qed.

  Lemma three_some a b c : is_Some (hv h a) -> is_Some (hv h b) -> is_Some (hv h c) -> forall u, u ∈ [a; b; c] -> is_Some (hv h u).
  Proof using Type. intros ? ? ? u Hu. apply elem_of_cons in Hu as [->|[->|[->|?%elem_of_nil]%elem_of_cons]%elem_of_cons]; done. Qed.
  Lemma four_some a b c d : is_Some (hv h a) -> is_Some (hv h b) -> is_Some (hv h c) -> is_Some (hv h d) -> forall u, u ∈ [a; b; c; d] -> is_Some (hv h u).
  Proof using Type. intros ? ? ? ? u Hu. apply elem_of_cons in Hu as [->|Hu]; [done|]. by apply (three_some b c d). Qed.

  Lemma closed_form_old k y v : is_Some (hv h y) -> closed_form T h' k y v <-> closed_form T h k y v.
  Proof using All.
    intros Hy. split; intros H.
    - destruct H as [y nn p a b H1 H2|y z a b H1 H2|y nn p a b H1 H2|y mu scale a b v H1 H2 H3 H4 H5 H6|y c X beta H1 H2 H3|y hh c X beta H1 H2 H3 H4|y hh c X beta a b H1 H2 H3 H4 H5].
      + apply rv_node_old in H1; [|done]. apply rv_node_old in H2; [|eapply rv_in; [exact H1|right; by left]]. by eapply cf_beta_binomial.
      + apply rv_node_old in H1; [|done]. apply rv_node_old in H2; [|eapply rv_in; [exact H1|by left]]. by eapply cf_gamma_poisson.
      + apply rv_node_old in H1; [|done]. apply rv_node_old in H2; [|eapply rv_in; [exact H1|right; by left]]. by eapply cf_beta_nb.
      + apply rv_node_old in H1; [|done]. apply applied_old in H2; [|eapply rv_in; [exact H1|right; by left]].
        assert (Sa : is_Some (hv h a)) by (eapply applied_in; [exact H2|by left]).
        assert (Sb : is_Some (hv h b)) by (eapply applied_in; [exact H2|right; by left]).
        rewrite half_cauchy_old in H3, H4 by done. rewrite !one_element_old in H5 by done. by eapply cf_horseshoe.
      + apply bern_form_old in H1; [|done]. destruct H1 as (p & R1 & R2). destruct (sigmoid_c _ _ _ _ R2) as (Sc & SX & Sb).
        apply passes_old in H2; [|done]. apply buildable_old in H3; [|by apply three_some]. eapply cf_bernoulli; [by exists p|done|done].
      + apply nbinom_form_old in H1; [|done]. destruct H1 as (p & R1 & R2). destruct (sigmoid_c _ _ _ _ R2) as (Sc & SX & Sb).
        assert (Sh : is_Some (hv h hh)) by (eapply rv_in; [exact R1|by left]).
        apply passes_old in H2; [|done]. apply buildable_old in H3; [|by apply four_some]. apply plain_old in H4; [|done].
        eapply cf_nbinom; [by exists p|done|done|done].
      + apply nbinom_form_old in H1; [|done]. destruct H1 as (p & R1 & R2). destruct (sigmoid_c _ _ _ _ R2) as (Sc & SX & Sb).
        assert (Sh : is_Some (hv h hh)) by (eapply rv_in; [exact R1|by left]).
        apply passes_old in H2; [|done]. apply buildable_old in H3; [|by apply four_some]. apply plain_old in H4; [|done]. apply rv_node_old in H5; [|done].
        eapply cf_dispersion; [by exists p|done|done|done|exact H5].
    - destruct H as [y nn p a b H1 H2|y z a b H1 H2|y nn p a b H1 H2|y mu scale a b v H1 H2 H3 H4 H5 H6|y c X beta H1 H2 H3|y hh c X beta H1 H2 H3 H4|y hh c X beta a b H1 H2 H3 H4 H5].
      + eapply cf_beta_binomial; (apply rv_node_old; [|done]); [done|]. eapply rv_in; [exact H1|right; by left].
      + eapply cf_gamma_poisson; (apply rv_node_old; [|done]); [done|]. eapply rv_in; [exact H1|by left].
      + eapply cf_beta_nb; (apply rv_node_old; [|done]); [done|]. eapply rv_in; [exact H1|right; by left].
      + assert (Sa : is_Some (hv h a)) by (eapply applied_in; [exact H2|by left]).
        assert (Sb : is_Some (hv h b)) by (eapply applied_in; [exact H2|right; by left]).
        apply (cf_horseshoe _ _ y mu scale a b v); [by apply rv_node_old|apply applied_old; [eapply rv_in; [exact H1|right; by left]|done]
          |by apply half_cauchy_old|by apply half_cauchy_old|by rewrite !one_element_old|done].
      + pose proof H1 as (p & R1 & R2). destruct (sigmoid_c _ _ _ _ R2) as (Sc & SX & Sb).
        eapply cf_bernoulli; [by apply bern_form_old|by apply passes_old|apply buildable_old; [by apply three_some|done]].
      + pose proof H1 as (p & R1 & R2). destruct (sigmoid_c _ _ _ _ R2) as (Sc & SX & Sb).
        assert (Sh : is_Some (hv h hh)) by (eapply rv_in; [exact R1|by left]).
        eapply cf_nbinom; [by apply nbinom_form_old|by apply passes_old|apply buildable_old; [by apply four_some|done]|by apply plain_old].
      + pose proof H1 as (p & R1 & R2). destruct (sigmoid_c _ _ _ _ R2) as (Sc & SX & Sb).
        assert (Sh : is_Some (hv h hh)) by (eapply rv_in; [exact R1|by left]).
        eapply cf_dispersion; [by apply nbinom_form_old|by apply passes_old|apply buildable_old; [by apply four_some|done]|by apply plain_old|by apply rv_node_old].
  Qed.
End transfer.

(** ** What each finder returns *)
Section exact.
  Context (B : builder) (h : heap) (Hg : good_heap h).
  Context (n : nid) (nd : node) (y : vid) (Hn : hn h n = Some nd) (Hy : n_outs nd !! 1 = Some y).
  Hypothesis Hleaf : forall v, reachable h [y] v -> shared_var h v -> owner h v = None.

  (** the finder returns a step for [v] *)
  Definition returns (r : heap * outcome) (v : vid) : Prop :=
    exists es step ups, r.2 = Ok es /\ (v, step, ups) ∈ es.

  Lemma gives_none v : ~ returns (h, Ok []) v.
  Proof using Type. intros (es & step & ups & [= <-] & Hin). by apply elem_of_nil in Hin. Qed.
  Lemma gives_raise h' e v : ~ returns (h', Raise e) v.
  Proof using Type. by intros (es & step & ups & ? & Hin). Qed.
  Lemma gives_one h' w step ups v : returns (h', Ok [(w, step, ups)]) v <-> v = w.
  Proof using Type.
    split; [intros (es & ? & ? & [= <-] & [= -> -> ->]%elem_of_list_singleton); done|].
    intros ->. exists [(w, step, ups)], step, ups. split; [done|by left].
  Qed.
  Lemma gives_two h' w1 s1 u1 w2 s2 u2 v : returns (h', Ok [(w1, s1, u1); (w2, s2, u2)]) v <-> v = w1 \/ v = w2.
  Proof using Type.
    split.
    - intros (es & ? & ? & [= <-] & Hin). apply elem_of_cons in Hin as [[= -> -> ->]|[= -> -> ->]%elem_of_list_singleton]; auto.
    - intros [->| ->]; [exists [(w1, s1, u1); (w2, s2, u2)], s1, u1|exists [(w1, s1, u1); (w2, s2, u2)], s2, u2]; (split; [done|]); [by left|right; by left].
  Qed.

  Lemma last_param d ps p : rv_node h y d (ps ++ [p]) -> last (n_ins nd) = Some p.
  Proof using Hg Hn Hy.
    intros (m & k & md & r & sz & dt & Ho & Hm & _ & Hi). rewrite (y_owner h Hg n nd y Hn Hy) in Ho. simplify_eq. rewrite Hi.
    change (r :: sz :: dt :: ps ++ [p]) with ((r :: sz :: dt :: ps) ++ [p]). apply last_snoc.
  Qed.

  Lemma um_gp z a b : rv_node h y RV_poisson [z] -> rv_node h z RV_gamma [a; b] -> exists s, umatch h gamma_poisson_pattern y [] = Some s.
  Proof using Type.
    intros (r1 & s1 & d1 & H1)%rv_node_applied (r2 & s2 & d2 & H2)%rv_node_applied. unfold gamma_poisson_pattern.
    rewrite (umatch_applied _ _ _ _ _ _ H1). um. rewrite umatches_cons, (umatch_applied _ _ _ _ _ _ H2). um. eexists. reflexivity.
  Qed.
  Lemma um_bb nn z a b : rv_node h y RV_binomial [nn; z] -> rv_node h z RV_beta [a; b] -> exists s, umatch h beta_binomial_pattern y [] = Some s.
  Proof using Type.
    intros (r1 & s1 & d1 & H1)%rv_node_applied (r2 & s2 & d2 & H2)%rv_node_applied. unfold beta_binomial_pattern.
    rewrite (umatch_applied _ _ _ _ _ _ H1). um. rewrite umatches_cons, (umatch_applied _ _ _ _ _ _ H2). um. eexists. reflexivity.
  Qed.
  Lemma um_nb nn z a b : rv_node h y RV_nbinom [nn; z] -> rv_node h z RV_beta [a; b] -> exists s, umatch h beta_nb_pattern y [] = Some s.
  Proof using Type.
    intros (r1 & s1 & d1 & H1)%rv_node_applied (r2 & s2 & d2 & H2)%rv_node_applied. unfold beta_nb_pattern.
    rewrite (umatch_applied _ _ _ _ _ _ H1). um. rewrite umatches_cons, (umatch_applied _ _ _ _ _ _ H2). um. eexists. reflexivity.
  Qed.

  Lemma conj_inv_gp s : umatch h gamma_poisson_pattern y [] = Some s -> exists z a b, rv_node h y RV_poisson [z] /\ rv_node h z RV_gamma [a; b].
  Proof using All.
    intros Hm. apply umatch_top in Hm as [Hk Hi]; [|repeat constructor; set_solver].
    unfold gamma_poisson_pattern in Hi. inv_inst. do 3 eexists. split; apply rv_node_applied; do 6 eexists; split_and!; fin.
  Qed.
  Lemma conj_inv_bb s : umatch h beta_binomial_pattern y [] = Some s -> exists nn p a b, rv_node h y RV_binomial [nn; p] /\ rv_node h p RV_beta [a; b].
  Proof using All.
    intros Hm. apply umatch_top in Hm as [Hk Hi]; [|repeat constructor; set_solver].
    unfold beta_binomial_pattern in Hi. inv_inst. do 4 eexists. split; apply rv_node_applied; do 6 eexists; split_and!; fin.
  Qed.
  Lemma conj_inv_nb s : umatch h beta_nb_pattern y [] = Some s -> exists nn p a b, rv_node h y RV_nbinom [nn; p] /\ rv_node h p RV_beta [a; b].
  Proof using All.
    intros Hm. apply umatch_top in Hm as [Hk Hi]; [|repeat constructor; set_solver].
    unfold beta_nb_pattern in Hi. inv_inst. do 4 eexists. split; apply rv_node_applied; do 6 eexists; split_and!; fin.
  Qed.

  Lemma rv_node_same v d ps d' ps' : rv_node h v d ps -> rv_node h v d' ps' -> d = d' /\ ps = ps'.
  Proof using Type.
    intros (m & k & md & r & sz & dt & Ho & Hm & Hop & Hi) (m' & k' & md' & r' & sz' & dt' & Ho' & Hm' & Hop' & Hi').
    rewrite Ho in Ho'. injection Ho' as <- <-. rewrite Hm in Hm'. injection Hm' as <-. rewrite Hop in Hop'. rewrite Hi in Hi'.
    injection Hop' as <-. by injection Hi' as _ _ _ <-.
  Qed.

  Lemma gamma_poisson_exact v : returns (local_gamma_poisson_posterior B h n) v <-> closed_form B h gamma_poisson_name y v.
  Proof using All.
    unfold local_gamma_poisson_posterior, with_rv. rewrite Hn, Hy.
    destruct (umatch h gamma_poisson_pattern y []) as [s|] eqn:Hm.
    - destruct (conj_inv_gp s Hm) as (z & a & b & H1 & H2). apply gamma_poisson_inv in Hm as (_ & [x1 ->] & [x2 ->] & [x3 ->] & [x4 ->]).
      rewrite (last_param _ [] z H1). destruct (gamma_poisson_posterior _ _ _ _ _ _ _). rewrite gives_one. split.
      + intros ->. by eapply cf_gamma_poisson.
      + intros Hc. inversion Hc as [|y' z' a' b' H1' H2'| | | | |]; subst. destruct (rv_node_same _ _ _ _ _ H1 H1') as [_ [= ->]]. done.
    - split; [intros H; by apply gives_none in H|]. intros Hc. inversion Hc as [|y' z' a' b' H1' H2'| | | | |]; subst.
      destruct (um_gp _ _ _ H1' H2'). congruence.
  Qed.
  Lemma beta_binomial_exact v : returns (local_beta_binomial_posterior B h n) v <-> closed_form B h beta_binomial_name y v.
  Proof using All.
    unfold local_beta_binomial_posterior, with_rv. rewrite Hn, Hy.
    destruct (umatch h beta_binomial_pattern y []) as [s|] eqn:Hm.
    - destruct (conj_inv_bb s Hm) as (nn & z & a & b & H1 & H2). apply beta_binomial_inv in Hm as (_ & [x1 ->] & [x2 ->] & [x3 ->] & [x4 ->] & [x5 ->]).
      rewrite (last_param _ [nn] z H1). destruct (beta_binomial_posterior _ _ _ _ _ _ _ _). rewrite gives_one. split.
      + intros ->. by eapply cf_beta_binomial.
      + intros Hc. inversion Hc as [y' n' z' a' b' H1' H2'| | | | | |]; subst. destruct (rv_node_same _ _ _ _ _ H1 H1') as [_ [= -> ->]]. done.
    - split; [intros H; by apply gives_none in H|]. intros Hc. inversion Hc as [y' n' z' a' b' H1' H2'| | | | | |]; subst.
      destruct (um_bb _ _ _ _ H1' H2'). congruence.
  Qed.
  Lemma beta_nb_exact v : returns (local_beta_negative_binomial_posterior B h n) v <-> closed_form B h beta_nb_name y v.
  Proof using All.
    unfold local_beta_negative_binomial_posterior, with_rv. rewrite Hn, Hy.
    destruct (umatch h beta_nb_pattern y []) as [s|] eqn:Hm.
    - destruct (conj_inv_nb s Hm) as (nn & z & a & b & H1 & H2). apply beta_nb_inv in Hm as (_ & [x1 ->] & [x2 ->] & [x3 ->] & [x4 ->] & [x5 ->]).
      rewrite (last_param _ [nn] z H1). destruct (beta_nb_posterior _ _ _ _ _ _ _ _). rewrite gives_one. split.
      + intros ->. by eapply cf_beta_nb.
      + intros Hc. inversion Hc as [| |y' n' z' a' b' H1' H2'| | | |]; subst. destruct (rv_node_same _ _ _ _ _ H1 H1') as [_ [= -> ->]]. done.
    - split; [intros H; by apply gives_none in H|]. intros Hc. inversion Hc as [| |y' n' z' a' b' H1' H2'| | | |]; subst.
      destruct (um_nb _ _ _ _ H1' H2'). congruence.
  Qed.

  Lemma one_element_dec v : one_element B h v \/ ~ one_element B h v.
  Proof using Type. rewrite <- scalar_like_spec. destruct (scalar_like B h v); auto. Qed.
  Lemma horseshoe_exact v : returns (normal_horseshoe_finder B h n) v <-> closed_form B h normal_horseshoe_name y v.
  Proof using All.
    assert (Hmm : (exists lam tau, horseshoe_match B h y = Ok (lam, tau)) \/ (forall lam tau, horseshoe_match B h y <> Ok (lam, tau))).
    { destruct (horseshoe_match B h y) as [[l t]|e]; [left; eauto|right; done]. }
    destruct Hmm as [(lam & tau & Hm)|Hno].
    - destruct (horseshoe_built B h Hg n nd y Hn Hy Hleaf lam tau Hm) as (h' & l' & t' & -> & _). rewrite gives_two.
      apply horseshoe_match_iff in Hm as (mu & scale & a & b & H1 & H2 & H3 & H4 & H5). split.
      + intros Hv. eapply cf_horseshoe; [exact H1|exact H2|done|done| |].
        * destruct H5 as [(? & _)|(_ & ? & _)]; auto.
        * destruct H5 as [(_ & -> & ->)|(_ & _ & -> & ->)]; tauto.
      + intros Hc. inversion Hc as [| | |y' mu' sc' a' b' v' H1' H2' H3' H4' H5' H6'| | |]; subst.
        destruct (rv_node_same _ _ _ _ _ H1 H1') as [_ [= <- <-]].
        assert (a = a' /\ b = b') as [<- <-].
        { destruct H2 as (? & ? & ? & A1 & A2 & _ & A3). destruct H2' as (? & ? & ? & B1 & B2 & _ & B3). rewrite A1 in B1. injection B1 as <- <-. rewrite A2 in B2. injection B2 as <-. rewrite A3 in B3. by injection B3. }
        destruct H5 as [(_ & -> & ->)|(_ & _ & -> & ->)]; tauto.
    - rewrite (horseshoe_nothing B h n nd y Hn Hy Hno). split; [intros H; by apply gives_none in H|].
      intros Hc. exfalso. inversion Hc as [| | |y' mu sc a b v' H1 H2 H3 H4 H5 H6| | |]; subst.
      destruct (one_element_dec a) as [Ha|Ha].
      + apply (Hno b a). apply horseshoe_match_iff. exists mu, sc, a, b. split; [done|]. split; [done|]. split; [done|]. split; [done|]. by left.
      + apply (Hno a b). apply horseshoe_match_iff. exists mu, sc, a, b. split; [done|]. split; [done|]. split; [done|]. split; [done|]. right.
        destruct H5; [done|]. done.
  Qed.

  Lemma bern_exact v : returns (bern_logistic_finder B h n) v <-> closed_form B h bern_logistic_name y v.
  Proof using All.
    destruct (bern_matched_dec h y) as [(p & c & X & beta & R1 & R2)|Hno].
    - split.
      + assert (Hf : bern_form h y c X beta) by by exists p.
        destruct (bern_cases B h Hg n nd y Hn Hy Hleaf c X beta Hf) as [(_ & _ & e & ->)|[(_ & _ & ->)|[(_ & _ & _ & h' & e & ->)|(_ & Hp & Hb & h' & b' & -> & _)]]];
          intros H; [by apply gives_raise in H|by apply gives_none in H|by apply gives_raise in H|]. apply gives_one in H as ->. by eapply cf_bernoulli.
      + intros Hc. inversion Hc as [| | | |y' c' X' b' H1 H2 H3| |]; subst.
        destruct (bern_cases B h Hg n nd y Hn Hy Hleaf c' X' v H1) as [(_ & Hp & _)|[(_ & Hp & _)|[(_ & _ & Hb & _)|(_ & _ & _ & h' & b' & -> & _)]]]; [done|done|done|].
        by apply gives_one.
    - assert (Hno' : ~ exists c X beta, bern_form h y c X beta) by (intros (c & X & beta & p & ?); apply Hno; by exists p, c, X, beta).
      rewrite (bern_nothing B h n nd y Hn Hy Hno'). split; [intros H; by apply gives_none in H|].
      intros Hc. inversion Hc as [| | | |y' c' X' b' H1 H2 H3| |]; subst. exfalso. apply Hno'. eauto.
  Qed.

  Lemma nbinom_exact v : returns (nbinom_logistic_finder B h n) v <-> closed_form B h nbinom_logistic_name y v.
  Proof using All.
    destruct (nbinom_matched_dec h y) as [(hh & p & c & X & beta & R1 & R2)|Hno].
    - split.
      + assert (Hf : nbinom_form h y hh c X beta) by by exists p.
        destruct (nbinom_cases B h Hg n nd y Hn Hy Hleaf hh c X beta Hf)
          as [(_ & _ & e & ->)|[(_ & _ & ->)|[(_ & _ & _ & h' & e & ->)|[(_ & Hp & [Hb Hpl] & (a & b & Hab) & h' & b' & hp & u1 & u2 & rs & rg & r1 & r2 & m & ins & x & gn & sn & -> & _)|(_ & Hp & [Hb Hpl] & _ & h' & b' & -> & _)]]]];
          intros H; [by apply gives_raise in H|by apply gives_none in H|by apply gives_raise in H| |].
        * apply gives_two in H as [->| ->]; [by eapply cf_nbinom|by eapply cf_dispersion].
        * apply gives_one in H as ->. by eapply cf_nbinom.
      + intros Hc. inversion Hc as [| | | | |y' hh' c' X' b' H1 H2 H3 H4|y' hh' c' X' b' a0 b0 H1 H2 H3 H4 H5]; subst.
        * destruct (nbinom_cases B h Hg n nd y Hn Hy Hleaf hh' c' X' v H1)
            as [(_ & Hp & _)|[(_ & Hp & _)|[(_ & _ & Hb & _)|[(_ & _ & _ & _ & h' & b' & hp & u1 & u2 & rs & rg & r1 & r2 & m & ins & x & gn & sn & -> & _)|(_ & _ & _ & _ & h' & b' & -> & _)]]]];
            [done|done|by destruct Hb| |].
          -- apply gives_two. by left.
          -- by apply gives_one.
        * destruct (nbinom_cases B h Hg n nd y Hn Hy Hleaf v c' X' b' H1)
            as [(_ & Hp & _)|[(_ & Hp & _)|[(_ & _ & Hb & _)|[(_ & _ & _ & _ & h' & bp & hp & u1 & u2 & rs & rg & r1 & r2 & m & ins & x & gn & sn & -> & _)|(_ & _ & _ & Hng & _)]]]];
            [done|done|by destruct Hb| |].
          -- apply gives_two. by right.
          -- exfalso. apply Hng. eauto.
    - assert (Hno' : ~ exists hh c X beta, nbinom_form h y hh c X beta) by (intros (hh & c & X & beta & p & ?); apply Hno; by exists hh, p, c, X, beta).
      rewrite (nbinom_nothing B h n nd y Hn Hy Hno'). split; [intros H; by apply gives_none in H|].
      intros Hc. exfalso. apply Hno'. inversion Hc; subst; eauto.
  Qed.

  Lemma registered_exact e v : e ∈ registered -> returns (e_finder e B h n) v <-> closed_form B h (e_name e) y v.
  Proof using All.
    unfold registered. intros He.
    apply elem_of_cons in He as [->|He]; [apply horseshoe_exact|]. apply elem_of_cons in He as [->|He]; [apply nbinom_exact|].
    apply elem_of_cons in He as [->|He]; [apply bern_exact|]. apply elem_of_cons in He as [->|He]; [apply beta_binomial_exact|].
    apply elem_of_cons in He as [->|He]; [apply gamma_poisson_exact|]. apply elem_of_list_singleton in He as ->. apply beta_nb_exact.
  Qed.
End exact.

Lemma closed_form_entry T h k y v : closed_form T h k y v ->
  exists e ps, e ∈ registered /\ e_name e = k /\ rv_node h y (e_rv e) ps.
Proof.
  intros [? ? ? ? ? H1 _|? ? ? ? H1 _|? ? ? ? ? H1 _|? ? ? ? ? ? H1 _ _ _ _ _|? ? ? ? (p & H1 & _) _ _|? ? ? ? ? (p & H1 & _) _ _ _|? ? ? ? ? ? ? (p & H1 & _) _ _ _ _].
  - eexists (Entry 3 RV_binomial local_beta_binomial_posterior), _. split; [unfold registered; set_solver|]. split; [done|exact H1].
  - eexists (Entry 4 RV_poisson local_gamma_poisson_posterior), _. split; [unfold registered; set_solver|]. split; [done|exact H1].
  - eexists (Entry 5 RV_nbinom local_beta_negative_binomial_posterior), _. split; [unfold registered; set_solver|]. split; [done|exact H1].
  - eexists (Entry 0 RV_normal normal_horseshoe_finder), _. split; [unfold registered; set_solver|]. split; [done|exact H1].
  - eexists (Entry 2 RV_bernoulli bern_logistic_finder), _. split; [unfold registered; set_solver|]. split; [done|exact H1].
  - eexists (Entry 1 RV_nbinom nbinom_logistic_finder), _. split; [unfold registered; set_solver|]. split; [done|exact H1].
  - eexists (Entry 1 RV_nbinom nbinom_logistic_finder), _. split; [unfold registered; set_solver|]. split; [done|exact H1].
Qed.

(** ** The whole discovery *)
Section whole.
  Context (B : builder) (h0 : heap) (outs : list vid).
  Hypothesis Hg0 : good_heap h0.
  Hypothesis Houts : forall r, r ∈ outs -> is_Some (hv h0 r).
  Hypothesis Hleaf : forall v, reachable h0 outs v -> shared_var h0 v -> owner h0 v = None.

  Lemma add_step fn d e k v : step_from (add_sampler fn d e) k v <-> step_from d k v \/ (k = fn /\ v = e.1.1).
  Proof using Type.
    destruct e as [[rv step] ups]. unfold step_from, add_sampler. cbn [fst snd]. split.
    - intros (fs & f & Hf & Hin & Hk). rewrite dget_dset in Hf. case_decide as Hd; [|left; eauto]. subst. injection Hf as <-.
      apply elem_of_app in Hin as [Hin| ->%elem_of_list_singleton]; [|by right]. left.
      destruct (dget d rv) as [fs|]; [eauto|by apply elem_of_nil in Hin].
    - intros [(fs & f & Hf & Hin & Hk)|[-> ->]].
      + destruct (decide (rv = v)) as [->|Hne].
        * exists (fs ++ [Found fn step ups]), f. rewrite dget_dset, decide_True by done. rewrite Hf. cbn. split; [done|]. split; [|done]. apply elem_of_app. by left.
        * exists fs, f. rewrite dget_dset, decide_False by (intros Hx; by apply Hne). done.
      + exists (default [] (dget d rv) ++ [Found fn step ups]), (Found fn step ups). rewrite dget_dset, decide_True by done.
        split; [done|]. split; [|done]. apply elem_of_app. right. by left.
  Qed.
  Lemma add_steps fn es k v : forall d, step_from (foldl (add_sampler fn) d es) k v <-> step_from d k v \/ (k = fn /\ exists step ups, (v, step, ups) ∈ es).
  Proof using Type.
    induction es as [|e es IH]; intros d; cbn [foldl].
    - split; [auto|]. intros [?|(_ & ? & ? & Hin)]; [done|by apply elem_of_nil in Hin].
    - rewrite IH, add_step. split.
      + intros [[?|[-> ->]]|(-> & step & ups & Hin)]; [by left| |].
        * right. split; [done|]. exists e.1.2, e.2. destruct e as [[? ?] ?]. by left.
        * right. split; [done|]. exists step, ups. by right.
      + intros [?|(-> & step & ups & [He|Hin]%elem_of_cons)]; [by do 2 left| |].
        * left; right. subst e. done.
        * right. eauto.
  Qed.

  Record inv (st : heap * tracker) (called : list (entry * nid)) : Prop := Inv {
    inv_stage : stage h0 st.1;
    inv_steps : forall k v, step_from (tk_samplers st.2) k v <-> exists y, (k, y) ∈ tk_seen st.2 /\ closed_form B h0 k y v;
    inv_seen : forall k y, (k, y) ∈ tk_seen st.2 -> rv_output h0 outs y;
    inv_called : forall e n nd y, (e, n) ∈ called -> hn h0 n = Some nd -> n_op nd = ORV (e_rv e) -> n_outs nd !! 1 = Some y ->
      (e_name e, y) ∈ tk_seen st.2 \/ forall v, ~ closed_form B h0 (e_name e) y v;
  }.

  Lemma call_inv st called e n : e ∈ registered -> node_reachable h0 outs n ->
    (forall nd d v, hn h0 n = Some nd -> n_op nd = ORV d -> n_outs nd !! 1 = Some v -> reachable h0 outs v) ->
    inv st called -> inv (call_finder B st (e, n)) (called ++ [(e, n)]).
  Proof using All.
    intros He Hn Hv [Hst Hsteps Hseen Hcalled]. destruct st as [h t]. cbn [fst snd] in *.
    destruct Hn as (w & i & Hw & Hwo). destruct (wf_owner h0 (proj1 Hg0) _ _ _ Hwo) as (nd & Hn0 & _).
    pose proof (proj2 (proj1 Hst) _ _ Hn0) as Hn1. unfold call_finder. rewrite Hn1.
    assert (Hsame : (forall y, n_op nd = ORV (e_rv e) -> n_outs nd !! 1 = Some y -> (e_name e, y) ∈ tk_seen t \/ forall v, ~ closed_form B h0 (e_name e) y v) ->
      inv (h, t) (called ++ [(e, n)])).
    { intros Hx. split; [exact Hst|exact Hsteps|exact Hseen|]. cbn [fst snd].
      intros e' n' nd' y' [Hin|[= -> ->]%elem_of_list_singleton]%elem_of_app Hn' Hop' Hy'; [by eapply Hcalled|].
      assert (nd' = nd) by congruence. subst nd'. by apply Hx. }
    destruct (n_op nd) as [d| | | | |] eqn:Hop; try (apply Hsame; by intros).
    destruct (n_outs nd !! 1) as [y|] eqn:Hy; [|apply Hsame; by intros].
    case_decide as Hd.
    2: { apply Hsame. intros y' [= ->] [= <-]. left. destruct (decide ((e_name e, y) ∈ tk_seen t)); [done|]. exfalso. apply Hd. done. }
    destruct Hd as [-> Hns].
    assert (Ry : reachable h0 outs y) by (by eapply Hv).
    assert (Oy : owner h0 y = Some (n, 1)) by exact (wf_outs h0 (proj1 Hg0) n nd 1 y Hn0 Hy).
    assert (Sy : is_Some (hv h0 y)) by exact (S_some h0 outs Hg0 Houts y Ry).
    assert (Hsafe : safe_result h0 (reachable h0 outs) h (e_finder e B h n)).
    { apply registered_safe; try done; [apply Hg0|by apply S_input|by apply S_some|].
      intros nd' y' H1 H2. assert (nd' = nd) by congruence. subst nd'. rewrite Hy in H2. by injection H2 as <-. }
    assert (Hlf : forall v, reachable h [y] v -> shared_var h v -> owner h v = None).
    { intros v Hr Hsh. apply (extends_reachable h0 h y v (proj1 Hg0) (proj1 Hst) Sy) in Hr.
      assert (Hrv : reachable h0 outs v).
      { destruct Hr as (r & ->%elem_of_list_singleton & Hru). destruct Ry as (r0 & Hr0 & Hr1). exists r0. split; [done|]. by eapply rtc_transitive. }
      assert (Sv : is_Some (hv h0 v)) by exact (S_some h0 outs Hg0 Houts v Hrv).
      rewrite (extends_owner_old h0 h v (proj1 Hst) Sv). apply Hleaf; [done|]. by apply (shared_extends h0 h v (proj1 Hst) Sv). }
    pose proof (fun v => registered_exact B h (proj2 Hst) n nd y Hn1 Hy Hlf e v He) as Hex.
    destruct (e_finder e B h n) as [h1 out] eqn:Hfi. destruct Hsafe as (_ & S1 & _). cbn [fst] in S1.
    assert (Hex' : forall v, returns (h1, out) v <-> closed_form B h0 (e_name e) y v).
    { intros v. rewrite Hex. apply closed_form_old; [done|apply Hst|done]. }
    unfold sampler_finder_call. rewrite decide_False by done.
    assert (Hnothing : (forall v, ~ returns (h1, out) v) -> inv (h1, t) (called ++ [(e, n)])).
    { intros Hno. split; [exact S1|exact Hsteps|exact Hseen|]. cbn [fst snd].
      intros e' n' nd' y' [Hin|[= -> ->]%elem_of_list_singleton]%elem_of_app Hn' Hop' Hy'; [by eapply Hcalled|].
      assert (nd' = nd) by congruence. subst nd'. rewrite Hy in Hy'. injection Hy' as <-. right. intros v Hc. apply (Hno v). by apply Hex'. }
    destruct out as [[|e1 es]|ex]; cbn [rbind].
    - apply Hnothing. intros v (es & ? & ? & [= <-] & Hin). by apply elem_of_nil in Hin.
    - split; [exact S1| | |]; cbn [fst snd tk_samplers tk_seen].
      + intros k v. rewrite add_steps, Hsteps. split.
        * intros [(y' & Hin & Hc)|(-> & step & ups & Hin)].
          -- exists y'. split; [apply elem_of_app; by left|done].
          -- exists y. split; [apply elem_of_app; right; by left|]. apply Hex'. by exists (e1 :: es), step, ups.
        * intros (y' & [Hin|[= -> ->]%elem_of_list_singleton]%elem_of_app & Hc); [left; eauto|]. right. split; [done|].
          apply Hex' in Hc as (es' & step & ups & [= <-] & Hin). eauto.
      + intros k y' [Hin|[= -> ->]%elem_of_list_singleton]%elem_of_app; [by eapply Hseen|]. split; [done|]. by exists n.
      + intros e' n' nd' y' [Hin|[= -> ->]%elem_of_list_singleton]%elem_of_app Hn' Hop' Hy'.
        * destruct (Hcalled e' n' nd' y' Hin Hn' Hop' Hy'); [left; apply elem_of_app; by left|by right].
        * assert (nd' = nd) by congruence. subst nd'. rewrite Hy in Hy'. injection Hy' as <-. left. apply elem_of_app. right. by left.
    - apply Hnothing. by intros v (es & ? & ? & ? & _).
  Qed.

  Lemma calls_inv cs : forall st called,
    (forall e n, (e, n) ∈ cs -> e ∈ registered /\ node_reachable h0 outs n /\
       forall nd d v, hn h0 n = Some nd -> n_op nd = ORV d -> n_outs nd !! 1 = Some v -> reachable h0 outs v) ->
    inv st called -> inv (foldl (call_finder B) st cs) (called ++ cs).
  Proof using All.
    induction cs as [|[e n] cs IH]; intros st called Hcs Hi; [by rewrite app_nil_r|]. cbn [foldl].
    destruct (Hcs e n ltac:(by left)) as (H1 & H2 & H3).
    change ((e, n) :: cs) with ([(e, n)] ++ cs). rewrite (assoc (++)). apply IH; [intros; apply Hcs; by right|]. by apply call_inv.
  Qed.

  Lemma discovered_iff sched : sched_ok sched -> covers sched -> forall k v,
    step_from (discover B sched h0 outs).2 k v <-> exists y, rv_output h0 outs y /\ closed_form B h0 k y v.
  Proof using All.
    intros Hs Hc k v. unfold discover.
    assert (Hi : inv (foldl (call_finder B) (h0, new_tracker) (sched h0 outs)) ([] ++ sched h0 outs)).
    { apply calls_inv; [intros e n Hin; by apply Hs|]. split; cbn.
      - split; [apply extends_refl|done].
      - intros k' v'. split; [intros (fs & f & ? & _); done|]. by intros (y & ?%elem_of_nil & _).
      - by intros ? ? ?%elem_of_nil.
      - by intros ? ? ? ? ?%elem_of_nil. }
    destruct (foldl _ _ _) as [h1 t]. destruct Hi as [_ Hsteps Hseen Hcalled]. cbn [fst snd app] in *. rewrite Hsteps. split.
    - intros (y & Hin & Hcf). exists y. split; [by eapply Hseen|done].
    - intros (y & [Ry [n Oy]] & Hcf). exists y. split; [|done].
      destruct (closed_form_entry _ _ _ _ _ Hcf) as (e & ps & He & Hk & Hrv).
      destruct (wf_owner h0 (proj1 Hg0) _ _ _ Oy) as (nd & Hn & Hy).
      destruct Hrv as (m & i & md & r & sz & dt & Ho & Hm & Hop & _). rewrite Oy in Ho. injection Ho as <- <-. rewrite Hn in Hm. injection Hm as <-.
      destruct (Hcalled e n nd y) as [Hin|Hno]; [by eapply (Hc h0 outs y n nd e Hg0)|done|done|done| |]; rewrite Hk in *; [done|]. by destruct (Hno v).
  Qed.
End whole.

(** ** In construct_sampler: what is discovered for a variable of the caller's model *)
From Verif Require Import L_init L_sampler.

Section model.
  Context (o : oracles) (h : heap) (obs : dict nat nat) (topo topo_rv : list nid).
  Hypothesis Hct : contracts o.
  Hypothesis Hm : model_ok h obs.
  Hypothesis Htopo : topo_order h (dkeys obs) topo.
  Hypothesis Htopo_rv : topo_order h (rv_outputs h topo) topo_rv.
  Notation i := (construct_ir_fgraph (o_canon o) h obs topo topo_rv).

  Lemma ir_good : good_heap (ir_heap i) /\ forall r, r ∈ ir_outputs i -> is_Some (hv (ir_heap i) r).
  Proof using All.
    unfold construct_ir_fgraph.
    pose proof (clone_ok h obs topo topo_rv Hm Htopo Htopo_rv) as Hc.
    pose proof (memo_clone h obs topo topo_rv Hm Htopo Htopo_rv) as Hcl.
    pose proof (memo_draw h obs topo topo_rv Hm Htopo Htopo_rv) as Hdr.
    destruct (clone_nodes h _ topo_rv) as [h1 memo] eqn:Hcn. cbn [fst snd] in *.
    set (outs1 := memo_get memo <$> rv_outputs h topo).
    assert (Hsome1 : forall u, u ∈ outs1 -> is_Some (hv h1 u)).
    { intros u Hu. apply elem_of_list_fmap in Hu as (rv & -> & Hrv).
      destruct (Hcl rv Hrv) as (_ & _ & x & x' & n' & i' & _ & Hx' & _). by eauto. }
    assert (Hdraw1 : forall u, u ∈ outs1 -> is_draw h1 u).
    { intros u Hu. apply elem_of_list_fmap in Hu as (rv & -> & Hrv). by apply Hdr. }
    destruct (ct_canon o Hct h1 outs1 (ci_good _ _ _ _ _ Hc) (ci_shuf _ _ _ _ _ Hc) Hdraw1) as (C1 & C2 & C3 & C4 & _).
    destruct (o_canon o h1 outs1) as [hI outs2] eqn:HI. cbn [fst snd] in *. subst outs2.
    cbn [ir_heap ir_outputs]. split; [done|]. intros u Hu. destruct (Hsome1 u Hu) as [x Hx]. eauto.
  Qed.

  Lemma sampler_for_eq rv :
    sampler_for o h obs topo topo_rv rv = chosen (o_finders o (ir_heap i) (ir_outputs i)).2 (memo_get (ir_memo i) rv).
  Proof using Type.
    unfold sampler_for, sampler_init. set (ii := i).
    destruct (o_finders o (ir_heap ii) (ir_outputs ii)) as [a b] eqn:E.
    destruct (expand_subsumptions (o_order o) a (ir_outputs ii)) as [c e].
    destruct (clone_all c (filter (fun rv => rv ∉ dkeys (ir_obs ii)) e)) as [k l]. cbv iota beta. by rewrite E.
  Qed.
End model.

Lemma chosen_some d v : (exists k, step_from d k v) <-> chosen d v <> None.
Proof.
  unfold chosen, step_from. destruct (dget d v) as [fs|] eqn:Hd; cbn [mbind option_bind].
  - rewrite last_None. split.
    + intros (k & fs2 & f & [= <-] & Hin & _) ->. by apply elem_of_nil in Hin.
    + intros H. destruct fs as [|f fs]; [done|]. exists (f_desc f), (f :: fs), f. split; [done|]. split; [by left|done].
  - split; [by intros (k & fs & f & ? & _)|done].
Qed.
