(** Proofs about the log-density handed to NUTS. *)
From Verif Require Import L_sampler.
From Verif Require Export S_target.
From Coq Require Import Lra.

Section joint.
  Context {D : Type} (base : op -> list D -> option (list D)) (cval : nat -> D).
  Context (ld : nat -> list D -> D -> R).

  Lemma factor_ext h rho s s' rv l :
    (forall u, s' u = s u) -> factor base cval ld h rho s rv l -> factor base cval ld h rho s' rv l.
  Proof.
    intros Hs (n & nd & d & xs & x & H1 & H2 & H3 & H4 & H5 & ->). exists n, nd, d, xs, x. split_and!; try done.
    - by rewrite Hs.
    - apply evals_list_Forall2. apply evals_list_Forall2 in H5. eapply Forall2_impl; [exact H5|]. intros v y Hv.
      apply (evals_cut base cval (fun _ => True) h h (over s rho)); try done. intros u _. unfold over. by rewrite Hs.
  Qed.

  Lemma factor_det h rho s rv l l' :
    factor base cval ld h rho s rv l -> factor base cval ld h rho s rv l' -> l = l'.
  Proof.
    intros (n & nd & d & xs & x & H1 & H2 & H3 & H4 & H5 & ->) (n' & nd' & d' & xs' & x' & H1' & H2' & H3' & H4' & H5' & ->).
    simplify_eq. rewrite H3 in H3'. injection H3' as <-. f_equal. by eapply evals_list_det.
  Qed.

  Lemma joint_ext h rho s s' rvs l :
    (forall u, s' u = s u) -> joint base cval ld h rho s rvs l -> joint base cval ld h rho s' rvs l.
  Proof.
    intros Hs (ls & Hl & ->). exists ls. split; [|done]. eapply Forall2_impl; [exact Hl|]. intros. by eapply factor_ext.
  Qed.

  Lemma joint_perm h rho s rvs rvs' l :
    rvs ≡ₚ rvs' -> joint base cval ld h rho s rvs l -> joint base cval ld h rho s rvs' l.
  Proof.
    intros Hp (ls & Hl & ->). revert ls Hl.
    induction Hp as [|x l l' Hp IH|x y l|l1 l2 l3 Hp1 IH1 Hp2 IH2]; intros ls Hl.
    - exists ls. done.
    - inversion Hl as [|? a ? ls' Ha Hl']; subst. destruct (IH ls' Hl') as (ls2 & H2 & E). exists (a :: ls2).
      split; [by constructor|]. cbn. by rewrite E.
    - inversion Hl as [|? a ? ls' Ha Hl']; subst. inversion Hl' as [|? b ? ls2 Hb Hl2]; subst. exists (b :: a :: ls2).
      split; [by repeat constructor|]. cbn. lra.
    - destruct (IH1 ls Hl) as (ls2 & H2 & E). destruct (IH2 ls2 H2) as (ls3 & H3 & E'). exists ls3. split; [done|]. congruence.
  Qed.

  (** two joint densities, each at two points, whose terms differ by the same amounts *)
  Lemma joint_diff h1 rho h2 s1 s1' s2 s2' rvs l l' j j' :
    (forall rv a a' b b', rv ∈ rvs -> factor base cval ld h1 rho s1 rv a -> factor base cval ld h1 rho s1' rv a' ->
       factor base cval ld h2 rho s2 rv b -> factor base cval ld h2 rho s2' rv b' -> (a - a' = b - b')%R) ->
    joint base cval ld h1 rho s1 rvs l -> joint base cval ld h1 rho s1' rvs l' ->
    joint base cval ld h2 rho s2 rvs j -> joint base cval ld h2 rho s2' rvs j' -> (l - l' = j - j')%R.
  Proof.
    intros Hd (la & Ha & ->) (la' & Ha' & ->) (lb & Hb & ->) (lb' & Hb' & ->).
    revert la la' lb lb' Ha Ha' Hb Hb'. induction rvs as [|rv rvs IH]; intros la la' lb lb' Ha Ha' Hb Hb'.
    - inversion Ha; inversion Ha'; inversion Hb; inversion Hb'; subst. cbn. lra.
    - inversion Ha as [|? a ? ta A1 A2]; inversion Ha' as [|? a' ? ta' A1' A2']; inversion Hb as [|? b ? tb B1 B2];
        inversion Hb' as [|? b' ? tb' B1' B2']; subst. cbn.
      pose proof (Hd rv a a' b b' ltac:(by left) A1 A1' B1 B1') as E1.
      assert (E2 : (foldr Rplus 0 ta - foldr Rplus 0 ta' = foldr Rplus 0 tb - foldr Rplus 0 tb')%R).
      { apply IH; try done. intros. eapply (Hd rv0); eauto. by right. }
      lra.
  Qed.
End joint.

Section target.
  Context (order : heap -> list vid -> list nid).
  Hypothesis Horder : forall h roots n, n ∈ order h roots <-> node_reachable h roots n.
  Context (h0 : heap) (obs : dict nat nat) (st0 st : state) (l : list vid).
  Let hD := st_heap st0.
  Let hE := st_heap st.
  Let V := dkeys (st_pss st0).
  Let fnd := st_found st0.
  Hypothesis Hinv0 : inv h0 st0.
  Hypothesis Hinv : inv h0 st.
  Hypothesis Hev : evolves hD hE.
  Hypothesis Hloop : in_loop obs st0 l.
  Hypothesis Hp : process_all order obs st0 l = Ok st.
  Hypothesis Howned : forall u, u ∈ V -> exists n, owner hD u = Some n.

  Definition nuts_var (u : vid) : Prop := u ∈ l /\ u ∉ dkeys obs /\ chosen fnd u = None.

  Hypothesis HlV : forall u, u ∈ V <-> u ∈ l.
  Hypothesis Hsep : forall rv r f n, rv ∈ V -> involves hD V nuts_var rv -> r ∈ l -> r ∉ dkeys obs ->
    chosen fnd r = Some f -> factor_node hD V rv n -> ~ node_reachable hD (roots_of f) n.

  (** nodes of the factors NUTS is concerned with are untouched *)
  Lemma involving_unchanged rv n :
    rv ∈ V -> involves hD V nuts_var rv -> factor_node hD V rv n -> hn hE n = hn hD n.
  Proof.
    intros Hrv Hi Hfn. destruct (inv_good _ _ Hinv0) as (Hwf & _).
    assert (Hn : exists v i, owner hD v = Some (n, i)).
    { destruct Hfn as [[i Hi']|(v & i & _ & _ & Hv)]; by eauto. }
    destruct Hn as (v0 & i0 & Hv0). destruct (wf_owner _ Hwf _ _ _ Hv0) as (nd & Hn & _). fold hD in Hn. rewrite Hn.
    set (S := fun u => hv hD u = None \/
      (exists rv' f, rv' ∈ l /\ rv' ∉ dkeys obs /\ chosen fnd rv' = Some f /\ reachable hD (roots_of f) u) \/
      (exists w, w ∈ (st_pss st0).*2 /\ reachable hD [w] u)).
    destruct (process_all_closed order Horder h0 obs S l st0 st Hinv0 Hloop Hp) as (_ & _ & Hun).
    - intros v' u Hv' Hu. destruct Hv' as [Hv'|[(rv' & f & H1 & H2 & H3 & H4)|(w & H1 & H2)]].
      + unfold input_of, parents, owner in Hu. unfold hD in Hv'; rewrite Hv' in Hu. cbn in Hu. by apply elem_of_nil in Hu.
      + right. left. exists rv', f. split_and!; try done. destruct H4 as (r & Hr & Hru). exists r. split; [done|]. by eapply rtc_r.
      + right. right. exists w. split; [done|]. destruct H2 as (r & Hr & Hru). exists r. split; [done|]. by eapply rtc_r.
    - by left.
    - intros w Hw. right. right. exists w. split; [done|]. exists w. split; [by apply elem_of_list_singleton|done].
    - intros rv' f r Hin Hob Hc Hr. right. left. exists rv', f. split_and!; try done. by exists r.
    - apply Hun; [done|]. intros Hrm v' i' Ho' [Hv'|[(rv' & f & H1 & H2 & H3 & H4)|(w & H1 & H2)]].
      + unfold owner in Ho'. fold hD in Ho'. rewrite Hv' in Ho'. done.
      + apply (Hsep rv rv' f n); try done. by exists v', i'.
      + destruct Hrm as (nd' & u & Hn' & Hu & Hcase). fold hD in Hn'. rewrite Hn in Hn'. injection Hn' as <-.
        assert (Hwu : reachable hD [w] u).
        { destruct H2 as (r & Hr & Hru). exists r. split; [done|]. eapply rtc_r; [done|]. unfold input_of, parents. fold hD in Ho'. by rewrite Ho', Hn. }
        destruct Hcase as [Hcase|(m & j & Hm & Hs)].
        * apply (inv_avoid _ _ Hinv0 u w Hcase H1). done.
        * apply (inv_plain _ _ Hinv0 w H1 u m j); done.
  Qed.

  (** no discovered sampler depends on a variable left to NUTS *)
  Lemma samplers_avoid_nuts r f u :
    r ∈ l -> r ∉ dkeys obs -> chosen fnd r = Some f -> nuts_var u -> ~ reachable hD (roots_of f) u.
  Proof.
    intros Hr Ho Hc Hu Hre. assert (HuV : u ∈ V) by (apply HlV; apply Hu).
    destruct (Howned u HuV) as [[n i] Hn].
    apply (Hsep u r f n); try done; [by left|left; by exists i|]. by exists u, i.
  Qed.

  (** [u] does not depend on a variable left to NUTS *)
  Definition free (u : vid) : Prop := forall t, nuts_var t -> ~ reachable hD [u] t.

  Lemma nuts_var_dec u : Decision (nuts_var u).
  Proof. unfold nuts_var. apply and_dec; [apply _|]. apply and_dec; [apply _|]. destruct (chosen fnd u); [by right|by left]. Qed.

  Lemma free_or u : free u \/ exists t, nuts_var t /\ reachable hD [u] t.
  Proof.
    assert (Hdec : forall t, Decision (nuts_var t /\ t ∈ reach_set hD [u])).
    { intros t. apply and_dec; [apply nuts_var_dec|apply _]. }
    destruct (decide (Exists (fun t => nuts_var t /\ t ∈ reach_set hD [u]) l)) as [He|He].
    - right. apply Exists_exists in He as (t & _ & Ht & Hr). exists t. split; [done|]. by apply elem_of_reach_set.
    - left. intros t Ht Hr. apply He. apply Exists_exists. exists t. split; [apply Ht|]. split; [done|]. by apply elem_of_reach_set.
  Qed.

  Lemma free_not u : free u -> ~ nuts_var u.
  Proof. intros Hf Hu. apply (Hf u Hu). exists u. split; [by left|done]. Qed.

  Lemma free_facts :
    closed free hE /\
    forall n nd, hn hD n = Some nd -> (forall v i, owner hD v = Some (n, i) -> ~ free v) -> hn hE n = Some nd.
  Proof.
    destruct (process_all_closed order Horder h0 obs free l st0 st Hinv0 Hloop Hp) as (Hc & _ & Hun).
    - intros v u Hv Hu t Ht (r & ->%elem_of_list_singleton & Hr). apply (Hv t Ht). exists v. split; [by left|]. by eapply rtc_l.
    - intros v Hv t Ht (r & ->%elem_of_list_singleton & Hr). apply rtc_inv in Hr as [<-|(w & Hw & _)].
      + assert (v ∈ V) as Hin by (apply HlV; apply Ht). destruct (inv_keys _ _ Hinv0 v Hin) as [[x Hx] _]. congruence.
      + unfold input_of, parents, owner, hD in Hw. rewrite Hv in Hw. cbn in Hw. by apply elem_of_nil in Hw.
    - intros w Hw t Ht Hr. apply (inv_avoid _ _ Hinv0 t w); try done. apply HlV. apply Ht.
    - intros rv f r Hrv Ho Hch Hr t Ht (r' & ->%elem_of_list_singleton & Hrt).
      apply (samplers_avoid_nuts rv f t); try done. by exists r.
    - split; [exact Hc|]. intros n nd Hn Hf. apply Hun; [done|]. intros _. exact Hf.
  Qed.

  (** what a node reads afterwards *)
  Lemma inputs_after v n i u :
    owner hD v = Some (n, i) -> ~ nuts_var v -> input_of hE v u -> free u \/ input_of hD v u.
  Proof.
    intros Ho Hnv Hu. destruct (inv_good _ _ Hinv0) as (Hwf & _). destruct free_facts as [Hc Hun].
    destruct (free_or v) as [Hf|(t & Ht & Hr)]; [left; by apply (Hc v)|]. right.
    destruct (wf_owner _ Hwf _ _ _ Ho) as (nd & Hn & _). fold hD in Hn.
    assert (HE : hn hE n = Some nd).
    { apply Hun; [done|]. intros v' i' Ho' Hf'. apply (Hf' t Ht). exists v'. split; [by left|].
      destruct Hr as (r & ->%elem_of_list_singleton & Hr). apply rtc_inv in Hr as [<-|(w & Hw & Hr)]; [done|].
      eapply rtc_l; [|exact Hr]. unfold input_of, parents in *. rewrite Ho, Hn in Hw. by rewrite Ho', Hn. }
    assert (HoE : owner hE v = Some (n, i)).
    { rewrite (evolves_owner hD hE); [done|done|]. unfold owner in Ho. destruct (hv hD v); [by eauto|done]. }
    unfold input_of, parents in *. rewrite HoE, HE in Hu. by rewrite Ho, Hn.
  Qed.

  Section values.
    Context {D : Type} (base : op -> list D -> option (list D)) (cval : nat -> D).
    Context (ld : nat -> list D -> D -> R) (rho : vid -> option D).
    (** the values of the model variables, with two values of the variables left to NUTS *)
    Context (q q' sigma : vid -> option D).
    Hypothesis Hq : forall u, is_Some (q u) <-> nuts_var u.
    Hypothesis Hq' : forall u, is_Some (q' u) <-> nuts_var u.
    Hypothesis Hsig : forall u, u ∈ V -> ~ nuts_var u -> is_Some (sigma u).

    Lemma q_none u : ~ nuts_var u -> q u = None /\ q' u = None.
    Proof.
      intros Hn. split; [destruct (q u) eqn:E|destruct (q' u) eqn:E]; try done; exfalso; apply Hn; [apply Hq|apply Hq']; by rewrite E.
    Qed.
    Lemma q_same u : ~ nuts_var u -> over (over q' sigma) rho u = over (over q sigma) rho u.
    Proof. intros Hn. destruct (q_none u Hn) as [E E']. unfold over. by rewrite E, E'. Qed.
    Lemma given_V u : u ∈ V -> is_Some (over (over q sigma) rho u).
    Proof.
      intros Hu. unfold over. destruct (nuts_var_dec u) as [Hn|Hn].
      - apply Hq in Hn as [x ->]. by eauto.
      - destruct (q_none u Hn) as [-> _]. destruct (Hsig u Hu Hn) as [x ->]. by eauto.
    Qed.
    Lemma not_given u : over (over q sigma) rho u = None -> u ∉ V.
    Proof. intros Hn Hin. destruct (given_V u Hin). congruence. Qed.

    Lemma node_of rv n i : owner hD rv = Some (n, i) -> owner hE rv = Some (n, i).
    Proof.
      intros Ho. rewrite (evolves_owner hD hE); [done|done|]. unfold owner in Ho. destruct (hv hD rv); [by eauto|done].
    Qed.

    Lemma cut_some rv v : cut_reachable hD V (parents hD rv) v -> is_Some (hv hD v).
    Proof.
      destruct (inv_good _ _ Hinv0) as (Hwf & _). fold hD in Hwf.
      assert (Hpar : forall a u, u ∈ parents hD a -> is_Some (hv hD u)).
      { intros a u Hu. unfold parents in Hu. destruct (owner hD a) as [[n i]|]; [|by apply elem_of_nil in Hu].
        destruct (hn hD n) as [nd|] eqn:Hn; [|by apply elem_of_nil in Hu]. by eapply (wf_ins _ Hwf). }
      intros Hv. destruct Hv as [v Hv|a v Ha HaV Hv]; by eapply Hpar.
    Qed.

    (** a factor that involves no variable of NUTS does not change with their values *)
    Lemma constant_factor_after rv a a' : rv ∈ V -> ~ involves hD V nuts_var rv ->
      factor base cval ld hE rho (over q sigma) rv a -> factor base cval ld hE rho (over q' sigma) rv a' -> a = a'.
    Proof.
      intros Hrv Hni (n & nd & d & xs & x & H1 & H2 & H3 & H4 & H5 & ->) Hf'.
      assert (Hnrv : ~ nuts_var rv) by (intros ?; apply Hni; by left).
      apply (factor_det base cval ld hE rho (over q' sigma) rv); [|exact Hf'].
      exists n, nd, d, xs, x. split_and!; try done.
      - destruct (q_none rv Hnrv) as [E E']. unfold over in *. rewrite E in H4. by rewrite E'.
      - destruct (Howned rv Hrv) as [[m i] Hm].
        assert (HmE := node_of _ _ _ Hm). rewrite H1 in HmE. injection HmE as <- <-.
        assert (Hbase : forall u, u ∈ tail (n_ins nd) -> free u \/ cut_reachable hD V (parents hD rv) u).
        { intros u Hu. destruct (inputs_after rv n 1 u Hm Hnrv) as [Hf|Hf]; [|by left|right; by apply cut_root].
          unfold input_of, parents. rewrite H1, H2. destruct (n_ins nd); [done|by right]. }
        apply evals_list_Forall2. apply evals_list_Forall2 in H5.
        assert (HP : forall u, u ∈ tail (n_ins nd) -> forall y, evals base cval hE (over (over q sigma) rho) u y ->
          evals base cval hE (over (over q' sigma) rho) u y).
        { intros u Hu y. intros Hy.
          apply (evals_cut base cval (fun v => ~ nuts_var v /\ (free v \/ cut_reachable hD V (parents hD rv) v)) hE hE
            (over (over q sigma) rho)); try done.
          - intros v w [Hnv Hc] Hr Hw. assert (HvV := not_given v Hr).
            assert (Hz : free w \/ cut_reachable hD V (parents hD rv) w).
            { destruct Hc as [Hf|Hc]; [left; by apply (proj1 free_facts v)|].
              destruct (cut_some rv v Hc) as [z Hz]. destruct (owner hD v) as [[m k]|] eqn:Hov.
              - destruct (inputs_after v m k w Hov Hnv Hw) as [?|?]; [by left|right; by eapply cut_step].
              - unfold input_of in Hw. rewrite parents_no_owner in Hw; [by apply elem_of_nil in Hw|].
                rewrite (evolves_owner hD hE); [done|done|by eauto]. }
            split; [|done]. destruct Hz as [Hz|Hz]; [by apply free_not|]. intros Hn. apply Hni. right. by exists w.
          - intros v [Hv _]. by apply q_same.
          - destruct (Hbase u Hu) as [Hz|Hz].
            + split; [by apply free_not|by left].
            + split; [|by right]. intros Hn. apply Hni. right. by exists u. }
        clear - H5 HP. induction H5 as [|u y us ys Hu Hus IH]; [constructor|]. constructor; [apply HP; [by left|done]|].
        apply IH. intros v Hv. apply HP. by right.
    Qed.

    Lemma constant_factor_before rv a a' : rv ∈ V -> ~ involves hD V nuts_var rv ->
      factor base cval ld hD rho (over q sigma) rv a -> factor base cval ld hD rho (over q' sigma) rv a' -> a = a'.
    Proof.
      intros Hrv Hni (n & nd & d & xs & x & H1 & H2 & H3 & H4 & H5 & ->) Hf'.
      assert (Hnrv : ~ nuts_var rv) by (intros ?; apply Hni; by left).
      apply (factor_det base cval ld hD rho (over q' sigma) rv); [|exact Hf'].
      exists n, nd, d, xs, x. split_and!; try done.
      - destruct (q_none rv Hnrv) as [E E']. unfold over in *. rewrite E in H4. by rewrite E'.
      - assert (Hbase : forall u, u ∈ tail (n_ins nd) -> cut_reachable hD V (parents hD rv) u).
        { intros u Hu. apply cut_root. unfold parents. rewrite H1, H2. destruct (n_ins nd); [done|by right]. }
        assert (Hno : forall u, cut_reachable hD V (parents hD rv) u -> ~ nuts_var u).
        { intros u Hu Hn. apply Hni. right. by exists u. }
        apply evals_list_Forall2. apply evals_list_Forall2 in H5.
        assert (HP : forall u, u ∈ tail (n_ins nd) -> forall y, evals base cval hD (over (over q sigma) rho) u y ->
          evals base cval hD (over (over q' sigma) rho) u y).
        { intros u Hu y Hy.
          apply (evals_cut base cval (cut_reachable hD V (parents hD rv)) hD hD (over (over q sigma) rho)); try done; [| |by apply Hbase].
          - intros v w Hc Hr Hw. eapply cut_step; [done|by apply not_given|done].
          - intros v Hv. apply q_same. by apply Hno. }
        clear - H5 HP. induction H5 as [|u y us ys Hu Hus IH]; [constructor|]. constructor; [apply HP; [by left|done]|].
        apply IH. intros v Hv. apply HP. by right.
    Qed.

    (** a factor that involves one has not been changed *)
    Lemma same_factor rv a b : rv ∈ V -> involves hD V nuts_var rv ->
      factor base cval ld hE rho (over q sigma) rv a -> factor base cval ld hD rho (over q sigma) rv b -> a = b.
    Proof.
      intros Hrv Hi Ha (n & nd & d & xs & x & H1 & H2 & H3 & H4 & H5 & ->).
      apply (factor_det base cval ld hE rho (over q sigma) rv); [exact Ha|].
      exists n, nd, d, xs, x. split_and!; try done.
      - by apply node_of.
      - rewrite (involving_unchanged rv n); try done. left. by exists 1.
      - assert (Hbase : forall u, u ∈ tail (n_ins nd) -> cut_reachable hD V (parents hD rv) u).
        { intros u Hu. apply cut_root. unfold parents. rewrite H1, H2. destruct (n_ins nd); [done|by right]. }
        apply evals_list_Forall2. apply evals_list_Forall2 in H5.
        assert (HP : forall u, u ∈ tail (n_ins nd) -> forall y, evals base cval hD (over (over q sigma) rho) u y ->
          evals base cval hE (over (over q sigma) rho) u y).
        { intros u Hu y Hy.
          apply (evals_cut base cval (cut_reachable hD V (parents hD rv)) hD hE (over (over q sigma) rho)); try done; [| | |by apply Hbase].
          - intros v w Hc Hr Hw. eapply cut_step; [done|by apply not_given|done].
          - intros v Hv _. destruct (cut_some rv v Hv) as [z Hz]. rewrite Hz. by apply Hev.
          - intros v m k Hv Hr Ho. apply (involving_unchanged rv); try done. right. exists v, k. split_and!; try done. by apply not_given. }
        clear - H5 HP. induction H5 as [|u y us ys Hu Hus IH]; [constructor|]. constructor; [apply HP; [by left|done]|].
        apply IH. intros v Hv. apply HP. by right.
    Qed.
  End values.
End target.

Section sampler_target.
  Context (o : oracles) (h : heap) (obs : dict nat nat) (topo topo_rv : list nid).
  Hypothesis Hct : contracts o.
  Hypothesis Hm : model_ok h obs.
  Hypothesis Htopo : topo_order h (dkeys obs) topo.
  Hypothesis Htopo_rv : topo_order h (rv_outputs h topo) topo_rv.
  Context (i : ir) (outs : list vid) (inits : dict nat nat) (st0 st : state).
  Hypothesis Hi : sampler_init o h obs topo topo_rv = (i, outs, inits, st0).
  Hypothesis Hp : process_all (o_order o) (ir_obs i) st0 outs = Ok st.
  Context (to_sample realized : dict nat nat).
  Hypothesis Hcall : nuts_call o st = (to_sample, realized).

  Lemma target_facts :
    inv h st0 /\ inv h st /\ evolves (st_heap st0) (st_heap st) /\ in_loop (ir_obs i) st0 outs /\
    (forall u, u ∈ dkeys (st_pss st0) <-> u ∈ outs) /\
    (forall u, u ∈ outs -> exists p, owner (st_heap st0) u = Some p) /\
    (forall u, u ∈ dkeys to_sample <-> nuts_var (ir_obs i) st0 outs u) /\
    dkeys to_sample ++ dkeys realized ≡ₚ outs /\
    (forall u, u ∈ dkeys realized <-> u ∈ outs /\ ~ nuts_var (ir_obs i) st0 outs u) /\
    (forall k, k ∈ dkeys realized -> is_Some (dget realized k)).
  Proof.
    pose proof (sampler_init_facts o h obs topo topo_rv Hct Hm Htopo Htopo_rv _ _ _ _ Hi) as Hf.
    assert (Hpss0 : dkeys (st_pss st0) = dkeys inits ++ dkeys (ir_obs i)).
    { rewrite (if_pss _ _ _ _ _ _ _ _ Hf). unfold dkeys. by rewrite map_app. }
    assert (Hin : forall u, u ∈ dkeys (st_pss st0) <-> u ∈ outs).
    { intros u. rewrite Hpss0, elem_of_app, (if_inits_keys _ _ _ _ _ _ _ _ Hf), elem_of_list_filter. split.
      - intros [[_ ?]|Hu]; [done|]. by apply (if_obs_in _ _ _ _ _ _ _ _ Hf).
      - intros Hu. destruct (decide (u ∈ dkeys (ir_obs i))); [by right|by left]. }
    assert (Hloop : in_loop (ir_obs i) st0 outs).
    { split; [apply (if_nodup _ _ _ _ _ _ _ _ Hf)|]. intros u Hu _. by apply Hin. }
    destruct (process_all_spec (o_order o) (ct_order o Hct) h (ir_obs i) outs st0 st (if_inv _ _ _ _ _ _ _ _ Hf) Hloop Hp)
      as (Hinv & Hfr & _ & _).
    destruct (process_all_left (o_order o) (ct_order o Hct) h (ir_obs i) outs st0 st (if_inv _ _ _ _ _ _ _ _ Hf) Hloop Hp)
      as (Hleft & Hndl).
    rewrite (if_left _ _ _ _ _ _ _ _ Hf) in Hleft, Hndl.
    assert (Hl : forall u, u ∈ st_left st <-> nuts_var (ir_obs i) st0 outs u).
    { intros u. rewrite Hleft, elem_of_nil. unfold nuts_var. tauto. }
    assert (Hperm : o_iter o (st_left st) ≡ₚ st_left st) by apply (ct_iter o Hct).
    assert (Hits : map fst (omap (fun rv => v ← dget (st_pss st) rv; Some (rv, v)) (o_iter o (st_left st))) = o_iter o (st_left st)).
    { apply omap_keys. intros rv Hrv. rewrite (fr_keys _ _ Hfr). apply Hin. rewrite Hperm in Hrv. by apply Hl in Hrv as [? _]. }
    unfold nuts_call in Hcall. cbv beta iota zeta in Hcall. injection Hcall as Hts Hre.
    rewrite dof_nodup in Hts, Hre by (rewrite Hits, Hperm; apply Hndl; constructor).
    assert (Hk : dkeys to_sample = o_iter o (st_left st)) by (rewrite <- Hts; exact Hits).
    rewrite Hts in Hre.
    assert (Htk : forall u, u ∈ dkeys to_sample <-> nuts_var (ir_obs i) st0 outs u).
    { intros u. rewrite Hk, Hperm. apply Hl. }
    assert (Hndp : NoDup (dkeys (st_pss st))) by apply (inv_nodup _ _ Hinv).
    assert (Hrk : forall u, u ∈ dkeys realized <-> u ∈ outs /\ ~ nuts_var (ir_obs i) st0 outs u).
    { intros u. rewrite <- Htk. rewrite <- Hre. rewrite <- (Hin u), <- (fr_keys _ _ Hfr). split.
      - intros Hu. apply elem_of_list_fmap in Hu as ([k w] & -> & Hkw). apply elem_of_list_filter in Hkw as [Hn Hkw].
        split; [|exact Hn]. apply elem_of_list_fmap. by exists (k, w).
      - intros [Hu Hn]. apply elem_of_list_fmap in Hu as ([k w] & -> & Hkw). apply elem_of_list_fmap. exists (k, w).
        split; [done|]. by apply elem_of_list_filter. }
    assert (Hndr : NoDup (dkeys realized)) by (rewrite <- Hre; by apply NoDup_dkeys_filter).
    split_and!; try done.
    - apply (if_inv _ _ _ _ _ _ _ _ Hf).
    - apply (fr_evolves _ _ Hfr).
    - apply (if_owned _ _ _ _ _ _ _ _ Hf).
    - apply NoDup_Permutation; [|apply (if_nodup _ _ _ _ _ _ _ _ Hf)|].
      + apply NoDup_app. split_and!; [rewrite Hk, Hperm; apply Hndl; constructor| |done].
        intros u Hu Hu'. apply Hrk in Hu' as [_ Hn]. apply Hn. by apply Htk.
      + intros u. rewrite elem_of_app, Htk, Hrk. split; [intros [[? _]|[? _]]; done|]. intros Hu.
        destruct (nuts_var_dec (ir_obs i) st0 outs u); [by left|by right].
    - intros k Hkr. by apply dget_in.
  Qed.

  Context {D : Type} (base : op -> list D -> option (list D)) (cval : nat -> D).
  Context (ld : nat -> list D -> D -> R) (rho : vid -> option D).

  Lemma nuts_target sigma q q' l l' j j' :
    (forall rv r f n, rv ∈ outs -> involves (st_heap st0) outs (nuts_var (ir_obs i) st0 outs) rv ->
       r ∈ outs -> r ∉ dkeys (ir_obs i) -> chosen (st_found st0) r = Some f ->
       factor_node (st_heap st0) outs rv n -> ~ node_reachable (st_heap st0) (roots_of f) n) ->
    (forall u, is_Some (q u) <-> u ∈ dkeys to_sample) ->
    (forall u, is_Some (q' u) <-> u ∈ dkeys to_sample) ->
    (forall k, is_Some (sigma k) -> k ∈ dkeys realized) ->
    (forall k w, dget realized k = Some w -> exists x, sigma k = Some x /\ evals base cval (st_heap st) rho w x) ->
    nuts_logprob base cval ld (st_heap st) rho to_sample realized q l ->
    nuts_logprob base cval ld (st_heap st) rho to_sample realized q' l' ->
    joint base cval ld (st_heap st0) rho (over q sigma) outs j ->
    joint base cval ld (st_heap st0) rho (over q' sigma) outs j' ->
    (l - l' = j - j')%R.
  Proof.
    destruct target_facts as (Hinv0 & Hinv & Hev & Hloop & Hkeys & Howned & Htk & Hperm & Hrk & Hrget).
    set (NV := nuts_var (ir_obs i) st0 outs) in *. set (V := dkeys (st_pss st0)) in *.
    intros Hsep Hq Hq' Hs1 Hs2 (s1 & A1 & A2 & A3) (s2 & B1 & B2 & B3) Hj Hj'.
    assert (Hcut : forall us u, cut_reachable (st_heap st0) V us u -> cut_reachable (st_heap st0) outs us u).
    { intros us u Hu. induction Hu as [u Hu|a u Ha IH HaV Hu]; [by apply cut_root|]. eapply cut_step; [exact IH| |done]. by rewrite <- Hkeys. }
    assert (Hsep' : forall rv r f n, rv ∈ V -> involves (st_heap st0) V NV rv -> r ∈ outs -> r ∉ dkeys (ir_obs i) ->
       chosen (st_found st0) r = Some f -> factor_node (st_heap st0) V rv n -> ~ node_reachable (st_heap st0) (roots_of f) n).
    { intros rv r f n Hrv Hinvo Hr Ho Hc Hfn. apply (Hsep rv r f n); try done; [by apply Hkeys| |].
      - destruct Hinvo as [?|(u & ? & ?)]; [by left|right]. exists u. split; [done|by apply Hcut].
      - destruct Hfn as [?|(v & k & ? & ? & ?)]; [by left|right]. exists v, k. split_and!; [by apply Hcut|by rewrite <- Hkeys|done]. }
    assert (Hq2 : forall u, is_Some (q u) <-> NV u) by (intros u; rewrite Hq; apply Htk).
    assert (Hq2' : forall u, is_Some (q' u) <-> NV u) by (intros u; rewrite Hq'; apply Htk).
    assert (Hsame : forall s, (forall k, is_Some (s k) -> k ∈ dkeys realized) ->
      (forall k w, dget realized k = Some w -> exists x, s k = Some x /\ evals base cval (st_heap st) rho w x) ->
      forall u, sigma u = s u).
    { intros s C1 C2 u. destruct (decide (u ∈ dkeys realized)) as [Hu|Hu].
      - destruct (Hrget u Hu) as [w Hw]. destruct (Hs2 u w Hw) as (x & -> & Hx). destruct (C2 u w Hw) as (y & -> & Hy).
        f_equal. by eapply evals_det.
      - destruct (sigma u) as [x|] eqn:E; [exfalso; apply Hu, Hs1; by rewrite E|].
        destruct (s u) as [y|] eqn:E'; [exfalso; apply Hu, C1; by rewrite E'|done]. }
    assert (Hl : joint base cval ld (st_heap st) rho (over q sigma) outs l).
    { eapply joint_perm; [exact Hperm|]. eapply joint_ext; [|exact A3]. intros u. unfold over. by rewrite (Hsame s1 A1 A2). }
    assert (Hl' : joint base cval ld (st_heap st) rho (over q' sigma) outs l').
    { eapply joint_perm; [exact Hperm|]. eapply joint_ext; [|exact B3]. intros u. unfold over. by rewrite (Hsame s2 B1 B2). }
    assert (HownV : forall u, u ∈ V -> exists n, owner (st_heap st0) u = Some n) by (intros u Hu; apply Howned; by apply Hkeys).
    assert (Hsg : forall u, u ∈ V -> ~ NV u -> is_Some (sigma u)).
    { intros u Hu Hn. destruct (Hrget u) as [w Hw]; [apply Hrk; split; [by apply Hkeys|done]|].
      destruct (Hs2 u w Hw) as (x & -> & _). by eauto. }
    eapply (joint_diff base cval ld (st_heap st) rho (st_heap st0)); [|exact Hl|exact Hl'|exact Hj|exact Hj'].
    intros rv a a' b b' Hrv Fa Fa' Fb Fb'. assert (HrvV : rv ∈ V) by (by apply Hkeys).
    assert (Hdec : involves (st_heap st0) V NV rv \/ ~ involves (st_heap st0) V NV rv) by apply Classical_Prop.classic.
    destruct Hdec as [Hi'|Hi'].
    - assert (a = b) as ->.
      { eapply same_factor with (q := q) (sigma := sigma) (st0 := st0) (st := st) (order := o_order o); [apply (ct_order o Hct)|..]; eauto. }
      assert (a' = b') as ->; [|done].
      eapply same_factor with (q := q') (sigma := sigma) (st0 := st0) (st := st) (order := o_order o); [apply (ct_order o Hct)|..]; eauto.
    - assert (a = a') as ->.
      { eapply constant_factor_after with (q := q) (q' := q') (sigma := sigma) (st0 := st0) (st := st) (order := o_order o);
          [apply (ct_order o Hct)|..]; eauto. }
      assert (b = b') as ->; [|lra].
      eapply constant_factor_before with (q := q) (q' := q') (sigma := sigma) (st0 := st0); eauto.
  Qed.
End sampler_target.
