(** Facts about the value denoted by a graph. *)
From Verif Require Export S_graph L_graph.

Scheme evals_ind2 := Minimality for evals Sort Prop
  with evals_list_ind2 := Minimality for evals_list Sort Prop.
Combined Scheme evals_mutind from evals_ind2, evals_list_ind2.

Section eval.
  Context {D : Type}.
  Context (base : op -> list D -> option (list D)) (cval : nat -> D).
  Notation evals := (evals base cval).
  Notation evals_list := (evals_list base cval).
  Implicit Types (h : heap) (rho : vid -> option D).

  Lemma evals_list_Forall2 h rho vs xs :
    evals_list h rho vs xs <-> Forall2 (evals h rho) vs xs.
  Proof.
    split.
    - revert xs. induction vs as [|v vs IH]; intros xs H; inversion H; subst; constructor; auto.
    - induction 1; constructor; auto.
  Qed.

  Lemma evals_list_length h rho vs xs : evals_list h rho vs xs -> length xs = length vs.
  Proof. rewrite evals_list_Forall2. intros H. symmetry. by eapply Forall2_length. Qed.

  Lemma evals_det_mut h rho :
    (forall v x, evals h rho v x -> forall y, evals h rho v y -> x = y) /\
    (forall vs xs, evals_list h rho vs xs -> forall ys, evals_list h rho vs ys -> xs = ys).
  Proof.
    apply evals_mutind.
    - intros v x Hv y Hy. inversion Hy; congruence.
    - intros v w c Hv Hw Ho Hk y Hy. inversion Hy; subst; try congruence.
      unfold owner in *. rewrite Hw in *. simpl in *. congruence.
    - intros v n i nd xs ys x Hv Ho Hn _ IH Hs Hi y Hy. inversion Hy; subst; try congruence.
      + unfold owner in Ho. rewrite H0 in Ho. simpl in Ho. congruence.
      + simplify_eq. apply IH in H2 as ->. congruence.
    - intros ys Hys. by inversion Hys.
    - intros v vs x xs _ IHx _ IHxs ys Hys. inversion Hys; subst. f_equal; auto.
  Qed.

  Lemma evals_det h rho v x y : evals h rho v x -> evals h rho v y -> x = y.
  Proof. intros H1 H2. by eapply (proj1 (evals_det_mut h rho)). Qed.

  Lemma evals_list_det h rho vs x y : evals_list h rho vs x -> evals_list h rho vs y -> x = y.
  Proof. intros H1 H2. by eapply (proj2 (evals_det_mut h rho)). Qed.

  (** evaluating with an ancestor fixed at its own value changes nothing *)
  Lemma evals_fix_mut h rho rho' a xa :
    evals h rho a xa ->
    rho' a = Some xa -> (forall v, v <> a -> rho' v = rho v) ->
    (forall v x, evals h rho v x -> evals h rho' v x) /\
    (forall vs xs, evals_list h rho vs xs -> evals_list h rho' vs xs).
  Proof.
    intros Ha Hra Hro. apply evals_mutind.
    - intros v x Hv. destruct (decide (v = a)) as [->|Hne].
      + assert (x = xa) as -> by (eapply evals_det; [by apply ev_given|done]). by apply ev_given.
      + apply ev_given. by rewrite Hro.
    - intros v w c Hv Hw Ho Hk. destruct (decide (v = a)) as [->|Hne].
      + assert (cval c = xa) as -> by (eapply evals_det; [by eapply ev_const|done]). by apply ev_given.
      + eapply ev_const; eauto. by rewrite Hro.
    - intros v n i nd xs ys x Hv Ho Hn Hl IH Hs Hi. destruct (decide (v = a)) as [->|Hne].
      + assert (x = xa) as -> by (eapply evals_det; [by eapply ev_app|done]). by apply ev_given.
      + eapply ev_app; eauto. by rewrite Hro.
    - constructor.
    - intros. by constructor.
  Qed.

  Lemma evals_unfix_mut h rho rho' a xa :
    evals h rho a xa ->
    rho' a = Some xa -> (forall v, v <> a -> rho' v = rho v) ->
    (forall v x, evals h rho' v x -> evals h rho v x) /\
    (forall vs xs, evals_list h rho' vs xs -> evals_list h rho vs xs).
  Proof.
    intros Ha Hra Hro. apply evals_mutind.
    - intros v x Hv. destruct (decide (v = a)) as [->|Hne]; [congruence|].
      apply ev_given. by rewrite <- Hro.
    - intros v w c Hv Hw Ho Hk. destruct (decide (v = a)) as [->|Hne]; [congruence|].
      eapply ev_const; eauto. by rewrite <- Hro.
    - intros v n i nd xs ys x Hv Ho Hn Hl IH Hs Hi. destruct (decide (v = a)) as [->|Hne]; [congruence|].
      eapply ev_app; eauto. by rewrite <- Hro.
    - constructor.
    - intros. by constructor.
  Qed.

  (** evaluation only looks at what is reachable *)
  Definition agree_on (P : vid -> Prop) h h' : Prop :=
    (forall v, P v -> hv h' v = hv h v) /\
    (forall v n i, P v -> owner h v = Some (n, i) -> hn h' n = hn h n).

  Lemma evals_agree_mut (P : vid -> Prop) h h' rho rho' :
    (forall v u, P v -> input_of h v u -> P u) ->
    agree_on P h h' -> (forall v, P v -> rho' v = rho v) ->
    (forall v x, evals h rho v x -> P v -> evals h' rho' v x) /\
    (forall vs xs, evals_list h rho vs xs -> (forall v, v ∈ vs -> P v) -> evals_list h' rho' vs xs).
  Proof.
    intros Hcl [Hav Han] Hr. apply evals_mutind.
    - intros v x Hv HP. apply ev_given. by rewrite Hr.
    - intros v w c Hv Hw Ho Hk HP. eapply ev_const; eauto; [by rewrite Hr|by rewrite Hav].
    - intros v n i nd xs ys x Hv Ho Hn Hl IH Hs Hi HP. eapply (ev_app _ _ _ _ _ n i nd); eauto.
      + by rewrite Hr.
      + unfold owner. rewrite Hav by done. done.
      + by erewrite Han.
      + apply IH. intros u Hu. eapply Hcl; [done|]. unfold input_of, parents. by rewrite Ho, Hn.
    - constructor.
    - intros v vs x xs _ IH1 _ IH2 HP. constructor; [apply IH1|apply IH2; intros]; apply HP; [by left|by right].
  Qed.

  Lemma evals_agree (P : vid -> Prop) h h' rho rho' v x :
    (forall v u, P v -> input_of h v u -> P u) ->
    agree_on P h h' -> (forall v, P v -> rho' v = rho v) ->
    evals h rho v x -> P v -> evals h' rho' v x.
  Proof. intros. by eapply (proj1 (evals_agree_mut P h h' rho rho' ltac:(done) ltac:(done) ltac:(done))). Qed.
End eval.
