(** The finders only make new objects, from what the function graph contains. *)
From Verif Require Export L_build L_match_fun L_tracker M_gibbs L_inner L_code.

Section finders.
  Context (B : builder) (h0 : heap) (S : vid -> Prop).
  Hypothesis Hwf0 : wf_heap h0.
  Hypothesis HS : forall u w, S u -> input_of h0 u w -> S w.
  Hypothesis HSin : forall u, S u -> is_Some (hv h0 u).
  Notation src := (sourced h0 S).
  Notation stage := (stage h0).

  Lemma S_applied h v o ins : extends h0 h -> S v -> applied h v o ins -> forall u, u ∈ ins -> S u.
  Proof.
    intros Hex Hv (n & k & nd & Ho & Hn & _ & <-) u Hu. apply (HS v); [done|].
    rewrite (extends_owner_old h0 h) in Ho; [|done|by apply HSin].
    destruct (wf_owner h0 Hwf0 v n k Ho) as (nd0 & Hn0 & _). pose proof (proj2 Hex _ _ Hn0) as Hn1.
    unfold input_of, parents. rewrite Ho, Hn0. congruence.
  Qed.

  Lemma S_rv h v d params : extends h0 h -> S v -> rv_node h v d params -> forall u, u ∈ params -> S u.
  Proof.
    intros Hex Hv (r & sz & dt & Ha)%rv_node_applied u Hu. eapply S_applied; [done|done|done|]. by do 3 right.
  Qed.

  Lemma S_owner_input h v k u : extends h0 h -> S v ->
    (exists n i nd, owner h v = Some (n, i) /\ hn h n = Some nd /\ n_ins nd !! k = Some u) -> S u.
  Proof.
    intros Hex Hv (n & i & nd & Ho & Hn & Hu). apply elem_of_list_lookup_2 in Hu.
    eapply (S_applied h v (match n_op nd with OSubsume s _ => OElem s | o => o end)); [done|done| |done].
    exists n, i, nd. split_and!; try done. unfold stands_for. by destruct (n_op nd).
  Qed.

  Lemma umatch_closed h p : forall v s s', extends h0 h -> S v -> (forall i w, dget s i = Some w -> S w) ->
    umatch h p v s = Some s' -> forall i w, dget s' i = Some w -> S w.
  Proof.
    induction p as [j| |o ps IH] using pat_ind'; intros v s s' Hex Hv Hs.
    - intros [= <-] i w. rewrite dget_dset. case_decide; [by intros [= <-]|apply Hs].
    - intros [= <-]. done.
    - rewrite umatch_et. destruct (owner h v) as [[n k]|] eqn:Ho; [|done]. destruct (hn h n) as [nd|] eqn:Hn; [|done].
      destruct (op_unify o (n_op nd)) eqn:Hop; [|done]. apply op_unify_spec in Hop.
      assert (Hins : forall u, u ∈ n_ins nd -> S u).
      { eapply (S_applied h v o); [done|done|]. by exists n, k, nd. }
      clear Hn. revert s Hs Hins. generalize (n_ins nd). induction IH as [|p ps Hp Hps IH2]; intros [|u us] s Hs Hins; try done.
      + by intros [= <-].
      + rewrite umatches_cons. destruct (umatch h p u s) as [s1|] eqn:H1; [|done]. intros H2.
        eapply IH2; [|intros w Hw; apply Hins; by right|exact H2]. eapply Hp; [done| |exact Hs|exact H1]. apply Hins. by left.
  Qed.

  (** what a finder may return *)
  Definition safe_result (h : heap) (r : heap * outcome) : Prop :=
    extends h r.1 /\ stage r.1 /\
    forall es, r.2 = Ok es -> forall rv step ups, (rv, step, ups) ∈ es ->
      src r.1 step /\ NoDup (dkeys ups) /\
      (forall k, k ∈ dkeys ups -> src r.1 k /\ owner r.1 k = None) /\
      (forall v, v ∈ dvalues ups -> src r.1 v).

  Lemma safe_nothing h out : stage h -> (forall es, out = Ok es -> es = []) -> safe_result h (h, out).
  Proof.
    intros Hst Ho. split; [apply extends_refl|]. split; [done|]. cbn. intros es Hes. apply Ho in Hes as ->.
    by intros rv step ups ?%elem_of_nil.
  Qed.
  Lemma safe_raise h h' e : extends h h' -> stage h' -> safe_result h (h', Raise e).
  Proof. intros. split; [done|]. by split. Qed.
  Lemma safe_one h h' rv step : extends h h' -> stage h' -> src h' step -> safe_result h (h', Ok [(rv, step, [])]).
  Proof.
    intros. split; [done|]. split; [done|]. intros es [= <-] ? ? ? Hin%elem_of_list_singleton. simplify_eq.
    split; [done|]. split; [constructor|]. split; by intros ? ?%elem_of_nil.
  Qed.

  Ltac lists := repeat first
    [ intros ? ?%elem_of_nil; done
    | let H := fresh in intros ? [-> | H]%elem_of_cons; [try done|revert H; revert select vid] ].

  Lemma src2 h a b : src h a -> src h b -> forall u, u ∈ [a; b] -> src h u.
  Proof. intros ? ? u [->|[->|?%elem_of_nil]%elem_of_cons]%elem_of_cons; done. Qed.
  Lemma src1 h a : src h a -> forall u, u ∈ [a] -> src h u.
  Proof. by intros ? u ->%elem_of_list_singleton. Qed.
  Lemma src_app h l1 l2 : (forall u, u ∈ l1 -> src h u) -> (forall u, u ∈ l2 -> src h u) -> forall u : vid, u ∈ l1 ++ l2 -> src h u.
  Proof. intros ? ? u [?|?]%elem_of_app; auto. Qed.
  Lemma src_cons h a l : src h a -> (forall u, u ∈ l -> src h u) -> forall u : vid, u ∈ a :: l -> src h u.
  Proof. intros ? ? u [->|?]%elem_of_cons; auto. Qed.
  Lemma src_nil h : forall u : vid, u ∈ [] -> src h u.
  Proof. by intros u ?%elem_of_nil. Qed.

  (** old variables and earlier results in a later heap *)
  Lemma src_S h v : stage h -> S v -> src h v.
  Proof. intros [Hex _] Hv. by apply src_old. Qed.
  Lemma src_up h h' v : stage h -> extends h h' -> src h v -> src h' v.
  Proof. intros Hst He Hv. eapply src_extends; [apply Hst|done|done]. Qed.

  Lemma gen_beta_ok h size dtype a b : stage h -> src h size -> src h dtype -> src h a -> src h b ->
    let r := gen_beta B h size dtype a b in extends h r.1 /\ stage r.1 /\ src r.1 r.2.
  Proof.
    intros Hst H1 H2 H3 H4. unfold gen_beta.
    pose proof (gen_ok h0 S B h (ORV RV_beta) [size; dtype; a; b] ltac:(done) Hst) as Hg.
    destruct (gen B h _ _) as [h1 [[r r'] x]]. destruct Hg as (A & C & _ & _ & D & _); [|done].
    repeat (apply src_cons; [done|]). apply src_nil.
  Qed.

  Lemma gen_gamma_ok h size dtype a b : stage h -> src h size -> src h dtype -> src h a -> src h b ->
    let r := gen_gamma B h size dtype a b in extends h r.1 /\ stage r.1 /\ src r.1 r.2.
  Proof.
    intros Hst H1 H2 H3 H4. unfold gen_gamma.
    pose proof (const_ok h0 S h (b_float B 1) Hst) as Hc. destruct (mk_const h _) as [h1 one]. cbn in Hc. destruct Hc as (E1 & S1 & O1 & _).
    pose proof (elem_ok h0 S B h1 E_truediv [one; b] S1 (src2 _ _ _ O1 (src_up _ _ _ Hst E1 H4))) as Hd.
    destruct (mk_elem B h1 _ _) as [h2 sc]. cbn in Hd. destruct Hd as (E2 & S2 & O2 & _).
    pose proof (gen_ok h0 S B h2 (ORV RV_gamma) [size; dtype; a; sc] ltac:(done) S2) as Hg.
    destruct (gen B h2 _ _) as [h3 [[r r'] x]]. pose proof (extends_trans _ _ _ E1 E2) as E12.
    destruct Hg as (A & C & _ & _ & D & _).
    - repeat (apply src_cons; [first [done|eapply src_up; [exact Hst|exact E12|done]]|]). apply src_nil.
    - cbn. split; [by eapply extends_trans|done].
  Qed.

  (** ** conjugates.py *)
  Section node.
    Context (n : nid) (h : heap) (Hst : stage h).
    Hypothesis Hy : forall nd y, hn h n = Some nd -> n_outs nd !! 1 = Some y -> S y.

    Lemma Hdget p y s : S y -> umatch h p y [] = Some s -> forall i w, dget s i = Some w -> src h w.
    Proof.
      intros HSy Hm i w Hw. apply src_S; [done|]. eapply (umatch_closed h p y [] s); [apply Hst|done| |done|done]. done.
    Qed.

    Ltac step Hlem := let H := fresh in pose proof Hlem as H; cbv zeta in H.

    Lemma gamma_poisson_safe : safe_result h (local_gamma_poisson_posterior B h n).
    Proof.
      unfold local_gamma_poisson_posterior, with_rv. destruct (hn h n) as [nd|] eqn:Hn; [|by apply safe_nothing].
      destruct (n_outs nd !! 1) as [y|] eqn:Ho; [|by apply safe_nothing]. pose proof (Hy _ _ eq_refl Ho) as HSy.
      destruct (umatch h _ y []) as [s|] eqn:Hm; [|apply safe_nothing; [done|by intros es [= <-]]].
      pose proof (Hdget _ _ _ HSy Hm) as Hd.
      destruct (dget s size_lv) as [size|] eqn:D1; [|by apply safe_nothing].
      destruct (dget s dtype_lv) as [dtype|] eqn:D2; [|by apply safe_nothing].
      destruct (dget s alpha_lv) as [alpha|] eqn:D3; [|by apply safe_nothing].
      destruct (dget s prior_beta_lv) as [beta|] eqn:D4; [|by apply safe_nothing].
      destruct (last (n_ins nd)) as [rv|]; [|by apply safe_nothing].
      apply Hd in D1, D2, D3, D4. pose proof (src_S h y Hst HSy) as D0. clear Hd.
      unfold gamma_poisson_posterior.
      pose proof (elem_ok h0 S B h E_add [alpha; y] Hst (src2 _ _ _ D3 D0)) as H1.
      destruct (mk_elem B h _ _) as [h1 na]. cbn in H1. destruct H1 as (E1 & S1 & O1 & _).
      pose proof (const_ok h0 S h1 (b_int B 1) S1) as Hc. destruct (mk_const h1 _) as [h2 one]. cbn in Hc. destruct Hc as (E2 & S2 & O2 & _).
      pose proof (extends_trans _ _ _ E1 E2) as E12.
      pose proof (elem_ok h0 S B h2 E_add [beta; one] S2 (src2 _ _ _ (src_up _ _ _ Hst E12 D4) O2)) as H3.
      destruct (mk_elem B h2 _ _) as [h3 nb]. cbn in H3. destruct H3 as (E3 & S3 & O3 & _).
      pose proof (extends_trans _ _ _ E12 E3) as E13.
      pose proof (gen_gamma_ok h3 size dtype na nb S3 (src_up _ _ _ Hst E13 D1) (src_up _ _ _ Hst E13 D2)
        (src_up _ _ _ S1 (extends_trans _ _ _ E2 E3) O1) O3) as H4.
      destruct (gen_gamma B h3 _ _ _ _) as [h4 post]. cbn in H4. destruct H4 as (E4 & S4 & O4).
      apply safe_one; try done. by eapply extends_trans.
    Qed.

    Lemma beta_binomial_safe : safe_result h (local_beta_binomial_posterior B h n).
    Proof.
      unfold local_beta_binomial_posterior, with_rv. destruct (hn h n) as [nd|] eqn:Hn; [|by apply safe_nothing].
      destruct (n_outs nd !! 1) as [y|] eqn:Ho; [|by apply safe_nothing]. pose proof (Hy _ _ eq_refl Ho) as HSy.
      destruct (umatch h _ y []) as [s|] eqn:Hm; [|apply safe_nothing; [done|by intros es [= <-]]].
      pose proof (Hdget _ _ _ HSy Hm) as Hd.
      destruct (dget s size_lv) as [size|] eqn:D1; [|by apply safe_nothing].
      destruct (dget s dtype_lv) as [dtype|] eqn:D2; [|by apply safe_nothing].
      destruct (dget s alpha_lv) as [alpha|] eqn:D3; [|by apply safe_nothing].
      destruct (dget s prior_beta_lv) as [beta|] eqn:D4; [|by apply safe_nothing].
      destruct (dget s n_lv) as [nn|] eqn:D5; [|by apply safe_nothing].
      destruct (last (n_ins nd)) as [rv|]; [|by apply safe_nothing].
      apply Hd in D1, D2, D3, D4, D5. pose proof (src_S h y Hst HSy) as D0. clear Hd.
      unfold beta_binomial_posterior.
      pose proof (elem_ok h0 S B h E_add [alpha; y] Hst (src2 _ _ _ D3 D0)) as H1.
      destruct (mk_elem B h _ _) as [h1 na]. cbn in H1. destruct H1 as (E1 & S1 & O1 & _).
      pose proof (elem_ok h0 S B h1 E_add [beta; nn] S1 (src2 _ _ _ (src_up _ _ _ Hst E1 D4) (src_up _ _ _ Hst E1 D5))) as H2.
      destruct (mk_elem B h1 _ _) as [h2 sm]. cbn in H2. destruct H2 as (E2 & S2 & O2 & _).
      pose proof (extends_trans _ _ _ E1 E2) as E12.
      pose proof (elem_ok h0 S B h2 E_sub [sm; y] S2 (src2 _ _ _ O2 (src_up _ _ _ Hst E12 D0))) as H3.
      destruct (mk_elem B h2 _ _) as [h3 nb]. cbn in H3. destruct H3 as (E3 & S3 & O3 & _).
      pose proof (extends_trans _ _ _ E12 E3) as E13.
      pose proof (gen_beta_ok h3 size dtype na nb S3 (src_up _ _ _ Hst E13 D1) (src_up _ _ _ Hst E13 D2)
        (src_up _ _ _ S1 (extends_trans _ _ _ E2 E3) O1) O3) as H4.
      destruct (gen_beta B h3 _ _ _ _) as [h4 post]. cbn in H4. destruct H4 as (E4 & S4 & O4).
      apply safe_one; try done. by eapply extends_trans.
    Qed.

    Lemma beta_nb_safe : safe_result h (local_beta_negative_binomial_posterior B h n).
    Proof.
      unfold local_beta_negative_binomial_posterior, with_rv. destruct (hn h n) as [nd|] eqn:Hn; [|by apply safe_nothing].
      destruct (n_outs nd !! 1) as [y|] eqn:Ho; [|by apply safe_nothing]. pose proof (Hy _ _ eq_refl Ho) as HSy.
      destruct (umatch h _ y []) as [s|] eqn:Hm; [|apply safe_nothing; [done|by intros es [= <-]]].
      pose proof (Hdget _ _ _ HSy Hm) as Hd.
      destruct (dget s size_lv) as [size|] eqn:D1; [|by apply safe_nothing].
      destruct (dget s dtype_lv) as [dtype|] eqn:D2; [|by apply safe_nothing].
      destruct (dget s alpha_lv) as [alpha|] eqn:D3; [|by apply safe_nothing].
      destruct (dget s prior_beta_lv) as [beta|] eqn:D4; [|by apply safe_nothing].
      destruct (dget s n_lv) as [nn|] eqn:D5; [|by apply safe_nothing].
      destruct (last (n_ins nd)) as [rv|]; [|by apply safe_nothing].
      apply Hd in D1, D2, D3, D4, D5. pose proof (src_S h y Hst HSy) as D0. clear Hd.
      unfold beta_nb_posterior.
      pose proof (elem_ok h0 S B h E_add [alpha; y] Hst (src2 _ _ _ D3 D0)) as H1.
      destruct (mk_elem B h _ _) as [h1 na]. cbn in H1. destruct H1 as (E1 & S1 & O1 & _).
      pose proof (elem_ok h0 S B h1 E_add [beta; nn] S1 (src2 _ _ _ (src_up _ _ _ Hst E1 D4) (src_up _ _ _ Hst E1 D5))) as H2.
      destruct (mk_elem B h1 _ _) as [h2 nb]. cbn in H2. destruct H2 as (E2 & S2 & O2 & _).
      pose proof (extends_trans _ _ _ E1 E2) as E12.
      pose proof (gen_beta_ok h2 size dtype na nb S2 (src_up _ _ _ Hst E12 D1) (src_up _ _ _ Hst E12 D2)
        (src_up _ _ _ S1 E2 O1) O2) as H4.
      destruct (gen_beta B h2 _ _ _ _) as [h4 post]. cbn in H4. destruct H4 as (E4 & S4 & O4).
      apply safe_one; try done. by eapply extends_trans.
    Qed.

    (** ** gibbs.py *)
    Lemma horseshoe_safe : safe_result h (normal_horseshoe_finder B h n).
    Proof.
      unfold normal_horseshoe_finder, with_rv. destruct (hn h n) as [nd|] eqn:Hn; [|by apply safe_nothing].
      destruct (n_outs nd !! 1) as [y|] eqn:Ho; [|by apply safe_nothing]. pose proof (Hy _ _ eq_refl Ho) as HSy.
      destruct (horseshoe_match B h y) as [[lam tau]|e] eqn:Hm.
      2: { destruct e; try (by apply safe_nothing). apply safe_nothing; [done|by intros es [= <-]]. }
      apply horseshoe_match_iff in Hm as (mu & scale & a & b & Hrv & Hap & _ & _ & Hlt).
      pose proof (S_rv h y _ _ (proj1 Hst) HSy Hrv scale ltac:(right; by left)) as HSs.
      pose proof (S_applied h scale _ _ (proj1 Hst) HSs Hap) as HSab.
      assert (Hlam : src h lam /\ src h tau).
      { split; (apply src_S; [done|]); destruct Hlt as [(_ & -> & ->)|(_ & _ & -> & ->)]; apply HSab; first [by left|right; by left]. }
      destruct Hlam as [Hlam Htau]. pose proof (src_S h y Hst HSy) as D0. clear Hlt HSab.
      pose proof (const_ok h0 S h (b_int B 2) Hst) as Hc. destruct (mk_const h _) as [h1 two]. cbn in Hc. destruct Hc as (E1 & S1 & O1 & _).
      pose proof (elem_ok h0 S B h1 E_pow [tau; two] S1 (src2 _ _ _ (src_up _ _ _ Hst E1 Htau) O1)) as H2.
      destruct (mk_elem B h1 _ _) as [h2 tau2]. cbn in H2. destruct H2 as (E2 & S2 & O2 & _).
      pose proof (extends_trans _ _ _ E1 E2) as E12.
      pose proof (const_ok h0 S h2 (b_int B 2) S2) as Hc. destruct (mk_const h2 _) as [h3 two']. cbn in Hc. destruct Hc as (E3 & S3 & O3 & _).
      pose proof (extends_trans _ _ _ E12 E3) as E13.
      pose proof (elem_ok h0 S B h3 E_pow [lam; two'] S3 (src2 _ _ _ (src_up _ _ _ Hst E13 Hlam) O3)) as H4.
      destruct (mk_elem B h3 _ _) as [h4 lam2]. cbn in H4. destruct H4 as (E4 & S4 & O4 & _).
      pose proof (extends_trans _ _ _ E13 E4) as E14. pose proof (extends_trans _ _ _ E3 E4) as E34.
      assert (Hin4 : forall u, u ∈ [y; lam2; tau2] -> src h4 u).
      { apply src_cons; [eapply src_up; [exact Hst|done|done]|]. apply src2; [done|]. eapply src_up; [exact S2|done|done]. }
      pose proof (mk_body_made B h0 S horseshoe_code horseshoe_outs h4 [y; lam2; tau2] S4 Hin4 eq_refl) as H5.
      destruct (mk_body B h4 _ _ _) as [h5 rngs]. cbv zeta in H5. cbn [fst snd] in H5. destruct H5 as (E5 & S5 & Hr & _).
      assert (Hrc : forall u, u ∈ remove_constants h5 [PVar y; PVar lam2; PVar tau2] -> src h5 u).
      { apply (src_remove_constants h0 S h5 h5 [y; lam2; tau2]). eapply src_all_extends; [apply S4|exact E5|exact Hin4]. }
      destruct (mk_kernel h5 _ _ _ _) as [[h6 outs]|e] eqn:Hk.
      2: { apply safe_raise; [by eapply extends_trans|done]. }
      apply (kernel_ok h0 S) in Hk as (E6 & S6 & Ho6 & _); try done.
      pose proof (extends_trans _ _ _ (extends_trans _ _ _ E14 E5) E6) as E16.
      destruct outs as [|lp [|tp [|]]]; try (by apply safe_raise).
      split; [done|]. split; [done|]. intros es [= <-] rv step ups Hin.
      apply elem_of_cons in Hin as [Hin|Hin%elem_of_list_singleton]; simplify_eq; cbn.
      all: split; [apply Ho6; first [by left|right; by left]|]; split; [constructor|]; split; by intros ? ?%elem_of_nil.
    Qed.

    Lemma owner_input4_S v u : S v -> owner_input4 h v = Ok u -> S u.
    Proof.
      intros Hv. unfold owner_input4. destruct (owner h v) as [[m i]|] eqn:Ho; [|done]. destruct (hn h m) as [nd|] eqn:Hm; [|done].
      destruct (n_ins nd !! 4) as [w|] eqn:Hw; [|done]. intros [= <-]. eapply (S_owner_input h v 4); [apply Hst|done|]. eauto 8.
    Qed.
  End node.

  Lemma S_sigmoid h p c X beta : extends h0 h -> S p -> sigmoid_dot h p c X beta -> S X /\ S beta.
  Proof.
    intros Hex Hp (m & d & H1 & H2 & H3).
    pose proof (S_applied h p _ _ Hex Hp H1 m ltac:(by left)) as Hm.
    pose proof (S_applied h m _ _ Hex Hm H2 d ltac:(right; by left)) as Hd.
    split; apply (S_applied h d _ _ Hex Hd H3); first [by left|right; by left].
  Qed.

  Lemma dispersion_safe h h1 X hh bp y a b rv1 : extends h h1 -> stage h1 -> src h1 X -> src h1 hh -> src h1 bp -> src h1 y -> src h1 a -> src h1 b ->
    safe_result h (match dispersion_step B h1 X hh bp y a b with
                   | (h3, Raise e) => (h3, Raise e)
                   | (h3, Ok r) => (h3, Ok [(rv1, bp, []); r])
                   end).
  Proof.
    intros E1 S1 HX Hh Hbp Hy Ha Hb. unfold dispersion_step.
    pose proof (elem_ok h0 S B h1 E_neg [X] S1 (src1 _ _ HX)) as H2.
    destruct (mk_elem B h1 _ _) as [h2 nX]. cbn in H2. destruct H2 as (E2 & S2 & O2 & _).
    pose proof (apply1_ok h0 S h2 (OOther K_dot) [nX; bp] (b_dot B (ty_def h2 nX) (ty_def h2 bp)) ltac:(done) S2
      (src2 _ _ _ O2 (src_up _ _ _ S1 E2 Hbp))) as H3.
    destruct (apply1 h2 _ _ _) as [h3 psi]. cbn in H3. destruct H3 as (E3 & S3 & O3 & _).
    pose proof (elem_ok h0 S B h3 E_sigmoid [psi] S3 (src1 _ _ O3)) as H4.
    destruct (mk_elem B h3 _ _) as [h4 p]. cbn in H4. destruct H4 as (E4 & S4 & O4 & _).
    pose proof (extends_trans _ _ _ (extends_trans _ _ _ E2 E3) E4) as E24.
    assert (Hin4 : forall u, u ∈ [hh; p; a; b; y] -> src h4 u).
    { repeat (apply src_cons; [first [done|exact (src_up _ _ _ S1 E24 Hh)|exact (src_up _ _ _ S1 E24 Ha)
        |exact (src_up _ _ _ S1 E24 Hb)|exact (src_up _ _ _ S1 E24 Hy)]|]). apply src_nil. }
    pose proof (dispersion_inner_ok B h0 S h4 hh p a b y S4 Hin4) as H5.
    destruct (dispersion_inner B h4 _ _ _ _ _) as [h5 g]. destruct H5 as (E5 & S5 & Hg & _).
    assert (Hrc : forall u, u ∈ remove_constants h5 [PVar hh; PVar p; PVar a; PVar b; PVar y] -> src h5 u).
    { apply (src_remove_constants h0 S h5 h5 [hh; p; a; b; y]). eapply src_all_extends; [apply S4|exact E5|exact Hin4]. }
    pose proof (extends_trans _ _ _ (extends_trans _ _ _ E1 E24) E5) as E15.
    set (inputs := remove_constants h5 _) in *.
    assert (Hgs : forall u, u ∈ dispersion_outputs g -> src h5 u) by (intros u Hu; by apply Hg).
    destruct (mk_kernel h5 _ inputs _ _) as [[h6 outs]|e] eqn:Hk; [|by apply safe_raise].
    apply (kernel_ok h0 S) in Hk as (E6 & S6 & Ho6 & _); try done.
    pose proof (extends_trans _ _ _ E15 E6) as E16.
    destruct outs as [|hp [|u1 [|u2 [|]]]]; try (by apply safe_raise).
    rewrite !lookup_app_r by lia. rewrite Nat.sub_diag, Nat.sub_succ_l, Nat.sub_diag by lia.
    pose proof (shared_inputs_NoDup h5 inputs (dispersion_outputs g)) as Hnd'.
    assert (Hmem : forall k, k ∈ shared_inputs h5 inputs (dispersion_outputs g) -> src h6 k /\ owner h6 k = None).
    { intros k Hk. destruct (src_shared_inputs h0 S h5 inputs (dispersion_outputs g) S5 Hgs k Hk) as [A C].
      split; [eapply src_up; [exact S5|done|done]|]. rewrite (extends_owner_old h5 h6); [done|done|apply A]. }
    destruct (shared_inputs h5 inputs (dispersion_outputs g)) as [|r1 [|r2 rs]]; cbn; try (by apply safe_raise).
    assert (Hne : r1 <> r2). { apply NoDup_cons in Hnd' as [Hni _]. intros ->. apply Hni. by left. }
    split; [done|]. split; [done|]. intros es [= <-] rv step ups Hin.
    apply elem_of_cons in Hin as [Hin|Hin%elem_of_list_singleton]; simplify_eq; cbn [fst].
    - split; [exact (src_up _ _ _ S1 (extends_trans _ _ _ E24 (extends_trans _ _ _ E5 E6)) Hbp)|]. split; [constructor|]. split; by intros ? ?%elem_of_nil.
    - split; [apply Ho6; by left|]. rewrite decide_False by done. cbn. split_and!.
      + constructor; [|constructor; [|constructor]]; [|by intros ?%elem_of_nil]. by intros ?%elem_of_list_singleton.
      + intros k [->| ->%elem_of_list_singleton]%elem_of_cons; apply Hmem; [by left|right; by left].
      + intros k [->| ->%elem_of_list_singleton]%elem_of_cons; apply Ho6; [right; by left|do 2 right; by left].
  Qed.

  Section node2.
    Context (n : nid) (h : heap) (Hst : stage h).
    Hypothesis Hy : forall nd y, hn h n = Some nd -> n_outs nd !! 1 = Some y -> S y.

    Lemma nbinom_safe : safe_result h (nbinom_logistic_finder B h n).
    Proof.
      unfold nbinom_logistic_finder, with_rv. destruct (hn h n) as [nd|] eqn:Hn; [|by apply safe_nothing].
      destruct (n_outs nd !! 1) as [y|] eqn:Ho; [|by apply safe_nothing]. pose proof (Hy _ _ eq_refl Ho) as HSy.
      destruct (nbinom_sigmoid_dot_match B h y) as [[[X hh] beta]|e] eqn:Hm.
      2: { destruct e; try (by apply safe_nothing). apply safe_nothing; [done|by intros es [= <-]]. }
      destruct (nbinom_matched_dec h y) as [(hh' & p & c & X' & beta' & Hrv & Hsd)|Hno].
      2: { rewrite (nbinom_match_other B h y Hno) in Hm. done. }
      rewrite (nbinom_match_matched B h y _ _ _ _ _ Hrv Hsd) in Hm. destruct (neg_one_check B h c); [|done]. cbn in Hm. injection Hm as -> -> ->.
      pose proof (S_rv h y _ _ (proj1 Hst) HSy Hrv) as HSp. pose proof (HSp hh ltac:(by left)) as HSh. pose proof (HSp p ltac:(right; by left)) as HSpp.
      destruct (S_sigmoid h p c X beta (proj1 Hst) HSpp Hsd) as [HSX HSb]. clear HSp.
      destruct (owner_input4 h beta) as [bstd|e] eqn:H4; [|by apply safe_nothing].
      destruct (index_error B h bstd X); [by apply safe_nothing|].
      pose proof (owner_input4_S h Hst _ _ HSb H4) as HSstd.
      assert (Hin : forall u, u ∈ [beta; bstd; X; hh; y] -> src h u).
      { repeat (apply src_cons; [by apply src_S|]). apply src_nil. }
      pose proof (mk_body_made B h0 S nbinom_code nbinom_outs h [beta; bstd; X; hh; y] Hst Hin eq_refl) as H5.
      destruct (mk_body B h _ _ _) as [h1 rngs]. cbv zeta in H5. cbn [fst snd] in H5. destruct H5 as (E1 & S1 & Hr & _).
      assert (Hrc : forall u, u ∈ remove_constants h1 [PVar beta; PVar bstd; PVar X; PVar hh; PVar y] -> src h1 u).
      { apply (src_remove_constants h0 S h1 h1 [beta; bstd; X; hh; y]). eapply src_all_extends; [apply Hst|exact E1|exact Hin]. }
      destruct (mk_kernel h1 _ _ _ _) as [[h2 outs]|e] eqn:Hk; [|by apply safe_raise].
      apply (kernel_ok h0 S) in Hk as (E2 & S2 & Ho2 & _); try done.
      pose proof (extends_trans _ _ _ E1 E2) as E12.
      destruct outs as [|bp [|]]; try (by apply safe_raise). destruct (Ho2 bp ltac:(by left)) as [Hbp _].
      destruct (gamma_match h2 hh) as [[ga gb]|ge] eqn:Hg.
      2: { destruct ge; try (by apply safe_raise). by apply safe_one. }
      apply gamma_match_iff in Hg.
      pose proof (S_rv h2 hh _ _ (proj1 S2) HSh Hg) as HSab.
      apply dispersion_safe; try done; try (by apply src_S); apply src_S; try done; apply HSab; [by left|right; by left].
    Qed.

    Lemma bern_safe : safe_result h (bern_logistic_finder B h n).
    Proof.
      unfold bern_logistic_finder, with_rv. destruct (hn h n) as [nd|] eqn:Hn; [|by apply safe_nothing].
      destruct (n_outs nd !! 1) as [y|] eqn:Ho; [|by apply safe_nothing]. pose proof (Hy _ _ eq_refl Ho) as HSy.
      destruct (bern_sigmoid_dot_match B h y) as [[X beta]|e] eqn:Hm.
      2: { destruct e; try (by apply safe_nothing). apply safe_nothing; [done|by intros es [= <-]]. }
      destruct (bern_matched_dec h y) as [(p & c & X' & beta' & Hrv & Hsd)|Hno].
      2: { rewrite (bern_match_other B h y Hno) in Hm. done. }
      rewrite (bern_match_matched B h y _ _ _ _ Hrv Hsd) in Hm. destruct (neg_one_check B h c); [|done]. cbn in Hm. injection Hm as -> ->.
      pose proof (S_rv h y _ _ (proj1 Hst) HSy Hrv) as HSp. pose proof (HSp p ltac:(by left)) as HSpp.
      destruct (S_sigmoid h p c X beta (proj1 Hst) HSpp Hsd) as [HSX HSb]. clear HSp.
      destruct (owner_input4 h beta) as [bstd|e] eqn:H4; [|by apply safe_nothing].
      destruct (index_error B h bstd X); [by apply safe_nothing|].
      pose proof (owner_input4_S h Hst _ _ HSb H4) as HSstd.
      assert (Hin : forall u, u ∈ [beta; bstd; X; y] -> src h u).
      { repeat (apply src_cons; [by apply src_S|]). apply src_nil. }
      pose proof (mk_body_made B h0 S bern_code bern_outs h [beta; bstd; X; y] Hst Hin eq_refl) as H5.
      destruct (mk_body B h _ _ _) as [h1 rngs]. cbv zeta in H5. cbn [fst snd] in H5. destruct H5 as (E1 & S1 & Hr & _).
      assert (Hrc : forall u, u ∈ remove_constants h1 [PVar beta; PVar bstd; PVar X; PVar y] -> src h1 u).
      { apply (src_remove_constants h0 S h1 h1 [beta; bstd; X; y]). eapply src_all_extends; [apply Hst|exact E1|exact Hin]. }
      destruct (mk_kernel h1 _ _ _ _) as [[h2 outs]|e] eqn:Hk; [|by apply safe_raise].
      apply (kernel_ok h0 S) in Hk as (E2 & S2 & Ho2 & _); try done.
      destruct outs as [|bp [|]]; try (apply safe_raise; [by eapply extends_trans|done]).
      apply safe_one; [by eapply extends_trans|done|]. apply Ho2. by left.
    Qed.

    Lemma registered_safe e : e ∈ registered -> safe_result h (e_finder e B h n).
    Proof.
      unfold registered. intros He.
      repeat (apply elem_of_cons in He as [-> |He]; [cbn;
        first [by apply horseshoe_safe|by apply nbinom_safe|by apply bern_safe
              |by apply beta_binomial_safe|by apply gamma_poisson_safe|by apply beta_nb_safe]|]).
      by apply elem_of_nil in He.
    Qed.
  End node2.
End finders.
