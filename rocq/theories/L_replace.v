(** In-place replacement of a variable: what becomes of reachability, acyclicity
    and values. *)
From Verif Require Export L_graph L_eval.

Lemma subst1_ne old new x : x <> old -> subst1 old new x = x.
Proof. intros. unfold subst1. by rewrite decide_False. Qed.
Lemma subst1_eq old new : subst1 old new old = new.
Proof. unfold subst1. by rewrite decide_True. Qed.

Lemma set_ins_id nd f : (forall u, u ∈ n_ins nd -> f u = u) -> set_ins nd f = nd.
Proof.
  destruct nd as [o ins outs]. unfold set_ins. cbn. intros Hf. f_equal.
  induction ins as [|u ins IH]; [done|]. cbn. rewrite Hf by by left. f_equal.
  apply IH. intros. apply Hf. by right.
Qed.

Lemma parents_map_nodes ns f h v :
  parents (map_nodes ns f h) v =
  match owner h v with
  | Some (n, _) => if decide (n ∈ ns) then f <$> parents h v else parents h v
  | None => []
  end.
Proof.
  unfold parents. rewrite owner_map_nodes. destruct (owner h v) as [[n i]|]; [|done].
  rewrite hn_map_nodes. destruct (hn h n) as [nd|]; simpl; by case_decide.
Qed.

Lemma parents_no_owner h v : owner h v = None -> parents h v = [].
Proof. unfold parents. by intros ->. Qed.

(** variables of the graph, and the other outputs of its nodes *)
Definition in_graph (h : heap) (roots : list vid) (u : vid) : Prop :=
  reachable h roots u \/ exists n i, owner h u = Some (n, i) /\ node_reachable h roots n.

Lemma in_graph_node h roots u n i :
  in_graph h roots u -> owner h u = Some (n, i) -> node_reachable h roots n.
Proof.
  intros [Hu|(m & j & Ho & Hm)] Hn; [by exists u, i|]. by simplify_eq.
Qed.

Lemma node_reachable_ins h roots n nd u :
  node_reachable h roots n -> hn h n = Some nd -> u ∈ n_ins nd -> reachable h roots u.
Proof.
  intros (v & i & Hv & Ho) Hn Hu. eapply reachable_step; [exact Hv|].
  unfold input_of, parents. by rewrite Ho, Hn.
Qed.

Section replace.
  Context (h : heap) (roots : list vid) (old new : vid).
  Notation h' := (replace h roots old new).1.
  Notation roots' := (replace h roots old new).2.
  Notation sub := (subst1 old new).

  Lemma replace_hv v : hv h' v = hv h v.
  Proof. done. Qed.
  Lemma replace_owner v : owner h' v = owner h v.
  Proof. done. Qed.
  Lemma replace_dom_nodes n : is_Some (hn h' n) <-> is_Some (hn h n).
  Proof. unfold replace. cbn [fst]. rewrite hn_map_nodes. by rewrite fmap_is_Some. Qed.

  Lemma replace_parents_in v : reachable h roots v -> parents h' v = sub <$> parents h v.
  Proof.
    intros Hv. unfold replace. cbn [fst]. rewrite parents_map_nodes.
    destruct (owner h v) as [[n i]|] eqn:Ho.
    - rewrite decide_True; [done|]. apply elem_of_fg_nodes. by exists v, i.
    - by rewrite (parents_no_owner _ _ Ho).
  Qed.

  Lemma replace_parents_cases v :
    parents h' v = sub <$> parents h v \/ parents h' v = parents h v.
  Proof.
    unfold replace. cbn [fst]. rewrite parents_map_nodes.
    destruct (owner h v) as [[n i]|] eqn:Ho; [case_decide; auto|].
    right. by rewrite (parents_no_owner _ _ Ho).
  Qed.

  Lemma replace_input_of v u :
    input_of h' v u -> (input_of h v u) \/ (u = new /\ input_of h v old).
  Proof.
    unfold input_of. destruct (replace_parents_cases v) as [->| ->]; [|auto].
    rewrite elem_of_list_fmap. intros (w & -> & Hw). unfold subst1.
    case_decide; subst; auto.
  Qed.

  (** nodes that do not use [old] are left as they are *)
  Lemma replace_hn_id n nd : hn h n = Some nd -> old ∉ n_ins nd -> hn h' n = Some nd.
  Proof.
    intros Hn Ho. unfold replace. cbn [fst]. rewrite hn_map_nodes, Hn. cbn. f_equal.
    case_decide; [|done]. apply set_ins_id. intros u Hu. apply subst1_ne. congruence.
  Qed.

  (** nodes outside of the graph are left as they are *)
  Lemma replace_hn_out n : ~ node_reachable h roots n -> hn h' n = hn h n.
  Proof.
    intros Hn. unfold replace. cbn [fst]. rewrite hn_map_nodes.
    destruct (hn h n); [|done]. cbn. rewrite decide_False; [done|]. by rewrite elem_of_fg_nodes.
  Qed.

  (** ** graphs that do not contain [old] *)
  Lemma replace_agree x :
    ~ reachable h [x] old -> agree_on (reachable h [x]) h h'.
  Proof.
    intros Hx. split; [done|]. intros v n i Hv Ho.
    destruct (hn h n) as [nd|] eqn:Hn.
    - apply replace_hn_id; [done|]. intros Hin. apply Hx. eapply reachable_step; [exact Hv|].
      unfold input_of, parents. by rewrite Ho, Hn.
    - unfold replace. cbn [fst]. by rewrite hn_map_nodes, Hn.
  Qed.

  Lemma agree_parents (P : vid -> Prop) h2 v : agree_on P h h2 -> P v -> parents h2 v = parents h v.
  Proof.
    intros [Hv Hn] HP. unfold parents, owner. rewrite Hv by done.
    destruct (x ← hv h v; v_owner x) as [[n i]|] eqn:Ho; [|done]. by rewrite (Hn v n i).
  Qed.

  Lemma agree_reachable h2 x :
    agree_on (reachable h [x]) h h2 -> forall u, reachable h2 [x] u <-> reachable h [x] u.
  Proof.
    intros Ha u. split; intros (r & Hr & Hru); apply elem_of_list_singleton in Hr as ->.
    - apply rtc_nsteps in Hru as [k Hk].
      revert u Hk. induction k as [|k IH]; intros u Hk.
      + inversion Hk; subst. apply reachable_root. by left.
      + apply nsteps_inv_r in Hk as (w & Hw & Hwu). apply IH in Hw.
        eapply reachable_step; [done|]. unfold input_of in *. by rewrite <- (agree_parents _ _ _ Ha Hw).
    - apply rtc_nsteps in Hru as [k Hk].
      revert u Hk. induction k as [|k IH]; intros u Hk.
      + inversion Hk; subst. apply reachable_root. by left.
      + apply nsteps_inv_r in Hk as (w & Hw & Hwu).
        assert (reachable h [x] w) as Hw'.
        { exists x. split; [by left|]. apply rtc_nsteps. eauto. }
        apply IH in Hw. eapply reachable_step; [done|].
        unfold input_of in *. by rewrite (agree_parents _ _ _ Ha Hw').
  Qed.

  Lemma replace_reachable_avoid x :
    ~ reachable h [x] old -> forall u, reachable h' [x] u <-> reachable h [x] u.
  Proof. intros Hx. apply agree_reachable. by apply replace_agree. Qed.

  (** ** reachability from the new outputs *)
  Lemma replace_reachable u :
    ~ reachable h [new] old ->
    reachable h' roots' u -> (reachable h roots u /\ u <> old) \/ reachable h [new] u.
  Proof.
    intros Hnew (r & Hr & Hru). apply rtc_nsteps in Hru as [k Hk]. revert u Hk.
    assert (Hne : new <> old). { intros ->. apply Hnew. apply reachable_root. by left. }
    induction k as [|k IH]; intros u Hk.
    - inversion Hk; subst. unfold replace in Hr. cbn [snd] in Hr.
      apply elem_of_list_fmap in Hr as (r0 & -> & Hr0). unfold subst1. case_decide.
      + right. apply reachable_root. by left.
      + left. split; [|done]. by apply reachable_root.
    - apply nsteps_inv_r in Hk as (w & Hw & Hwu). apply IH in Hw as [[Hw Hwo]|Hw].
      + unfold input_of in Hwu. rewrite replace_parents_in in Hwu by done.
        apply elem_of_list_fmap in Hwu as (u0 & -> & Hu0). unfold subst1. case_decide.
        * right. apply reachable_root. by left.
        * left. split; [|done]. by eapply reachable_step.
      + right. apply replace_input_of in Hwu as [Hwu|[-> Hwo]].
        * by eapply reachable_step.
        * exfalso. apply Hnew. by eapply reachable_step.
  Qed.

  (** ** acyclicity *)
  Lemma replace_acyclic : ~ reachable h [new] old -> acyclic h -> acyclic h'.
  Proof.
    intros Hnew Hac.
    (* a path in the new heap is a path in the old one, or passes through [new] *)
    assert (Hfrom : forall u, rtc (input_of h') new u -> rtc (input_of h) new u).
    { intros u Hu. destruct (proj1 (replace_reachable_avoid new Hnew u)) as (r & Hr & Hru).
      - exists new. split; [by left|done].
      - apply elem_of_list_singleton in Hr as ->. done. }
    assert (Hpath : forall v u, rtc (input_of h') v u ->
      rtc (input_of h) v u \/ (tc (input_of h) v old /\ rtc (input_of h) new u)).
    { intros v u Hvu. induction Hvu as [v|v w u Hvw Hwu IH].
      - left. apply rtc_refl.
      - apply replace_input_of in Hvw as [Hvw|[-> Hvo]].
        + destruct IH as [IH|[IH1 IH2]]; [left|right].
          * by eapply rtc_l.
          * split; [by eapply tc_l|done].
        + right. split; [by apply tc_once|]. by apply Hfrom. }
    intros v Hv.
    assert (exists w, input_of h' v w /\ rtc (input_of h') w v) as (w & Hvw & Hwv).
    { inversion Hv as [? ? Hs|? w ? Hs Hr]; subst.
      - exists v. split; [done|apply rtc_refl].
      - exists w. split; [done|by apply tc_rtc]. }
    destruct (Hpath _ _ Hwv) as [Hp|[Hp1 Hp2]].
    - apply replace_input_of in Hvw as [Hvw|[-> Hvo]].
      + apply (Hac v). by eapply tc_rtc_r; [apply tc_once|].
      + apply Hnew. exists new. split; [by left|]. etrans; [done|]. by apply rtc_once.
    - (* v -> w ->+ old in h or v uses new; new ->* v *)
      apply Hnew. exists new. split; [by left|].
      apply replace_input_of in Hvw as [Hvw|[-> Hvo]].
      + etrans; [exact Hp2|]. etrans; [by apply rtc_once|]. by apply tc_rtc.
      + etrans; [exact Hp2|]. by apply rtc_once.
  Qed.

  (** ** values *)
  Section eval.
    Context {D : Type} (base : op -> list D -> option (list D)) (cval : nat -> D).
    Notation evals := (evals base cval).
    Notation evals_list := (evals_list base cval).
    Context (rho : vid -> option D) (xn : D).
    Notation rho' := (fun u => if decide (u = old) then Some xn else rho u).

    Lemma replace_evals_avoid x y :
      ~ reachable h [x] old -> evals h' rho x y <-> evals h rho x y.
    Proof.
      intros Hx. pose proof (replace_agree x Hx) as Ha. split; intros He.
      - eapply (evals_agree base cval (reachable h' [x]) h' h rho rho); [| |done|done|].
        + intros. by eapply reachable_step.
        + destruct Ha as [Hv Hn]. split; [done|]. intros v n i Hr Ho. symmetry. eapply Hn; [|done].
          by apply replace_reachable_avoid.
        + apply reachable_root. by left.
      - eapply (evals_agree base cval (reachable h [x]) h h' rho rho); [|done|done|done|].
        + intros. by eapply reachable_step.
        + apply reachable_root. by left.
    Qed.

    Hypothesis Hnew : evals h' rho new xn.

    Lemma replace_evals_l :
      (forall w x, evals h' rho w x -> forall u, reachable h roots u -> w = sub u -> evals h rho' u x) /\
      (forall ws xs, evals_list h' rho ws xs -> forall us, (forall u, u ∈ us -> reachable h roots u) ->
         ws = sub <$> us -> evals_list h rho' us xs).
    Proof.
      apply evals_mutind.
      - intros w x Hw u Hu ->. unfold subst1 in Hw. case_decide as Hd.
        + subst. apply ev_given. rewrite decide_True by done. f_equal.
          eapply evals_det; [exact Hnew|by apply ev_given].
        + apply ev_given. by rewrite decide_False.
      - intros w y c Hw Hy Ho Hk u Hu ->. unfold subst1 in *. case_decide as Hd.
        + subst. apply ev_given. rewrite decide_True by done. f_equal.
          eapply evals_det; [exact Hnew|by eapply ev_const].
        + eapply ev_const; eauto. by rewrite decide_False.
      - intros w n i nd xs ys x Hw Ho Hn Hl IH Hs Hi u Hu ->.
        destruct (decide (u = old)) as [->|Hd].
        + apply ev_given. rewrite decide_True by done. f_equal.
          rewrite subst1_eq in *. eapply evals_det; [exact Hnew|by eapply ev_app].
        + rewrite subst1_ne in * by done. rewrite replace_owner in Ho.
          assert (node_reachable h roots n) as Hnr by (by exists u, i).
          unfold replace in Hn. cbn [fst] in Hn. rewrite hn_map_nodes in Hn.
          destruct (hn h n) as [nd0|] eqn:Hn0; [|done]. cbn in Hn.
          rewrite decide_True in Hn by by apply elem_of_fg_nodes. simplify_eq.
          eapply (ev_app _ _ _ _ _ n i nd0); eauto; [by rewrite decide_False|].
          apply IH; [|done]. intros v Hv. eapply reachable_step; [exact Hu|].
          unfold input_of, parents. by rewrite Ho, Hn0.
      - intros us Hus Heq. destruct us; [|done]. constructor.
      - intros w ws x xs _ IH1 _ IH2 us Hus Heq. destruct us as [|u us]; [done|].
        cbn in Heq. injection Heq as -> ->. constructor.
        + apply IH1; [|done]. apply Hus. by left.
        + apply IH2; [|done]. intros. apply Hus. by right.
    Qed.

    Lemma replace_evals_r :
      (forall u x, evals h rho' u x -> in_graph h roots u -> evals h' rho (sub u) x) /\
      (forall us xs, evals_list h rho' us xs -> (forall u, u ∈ us -> reachable h roots u) ->
         evals_list h' rho (sub <$> us) xs).
    Proof.
      apply evals_mutind.
      - intros u x Hu Hr. case_decide as Hd.
        + simplify_eq. by rewrite subst1_eq.
        + rewrite subst1_ne by done. by apply ev_given.
      - intros u y c Hu Hy Ho Hk Hr. case_decide as Hd; [done|].
        rewrite subst1_ne by done. by eapply ev_const.
      - intros u n i nd xs ys x Hu Ho Hn Hl IH Hs Hi Hr. case_decide as Hd; [done|].
        rewrite subst1_ne by done.
        assert (node_reachable h roots n) as Hnr by (by eapply in_graph_node).
        eapply (ev_app _ _ _ _ _ n i (set_ins nd sub)); eauto.
        + unfold replace. cbn [fst]. rewrite hn_map_nodes, Hn. cbn.
          by rewrite decide_True by by apply elem_of_fg_nodes.
        + apply IH. intros v Hv. by eapply node_reachable_ins.
      - intros _. constructor.
      - intros u us x xs _ IH1 _ IH2 Hus. cbn. constructor.
        + apply IH1. left. apply Hus. by left.
        + apply IH2. intros. apply Hus. by right.
    Qed.

    Lemma replace_evals u x :
      reachable h roots u -> evals h' rho (sub u) x <-> evals h rho' u x.
    Proof.
      intros Hu. split.
      - intros He. by eapply (proj1 replace_evals_l).
      - intros He. apply (proj1 replace_evals_r); [done|by left].
    Qed.
  End eval.
End replace.
