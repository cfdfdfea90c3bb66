(** The loop of construct_sampler. *)
From Verif Require Export L_clone.

Lemma dvalues_snd {K V} (d : dict K V) : dvalues d = d.*2.
Proof. done. Qed.
Lemma dkeys_fst {K V} (d : dict K V) : dkeys d = d.*1.
Proof. done. Qed.

Section evals_cut.
  Context {D : Type} (base : op -> list D -> option (list D)) (cval : nat -> D).

  (** evaluation only looks at what is reachable without going through given variables *)
  Lemma evals_cut (P : vid -> Prop) h h' (rho rho' : vid -> option D) :
    (forall v u, P v -> rho v = None -> input_of h v u -> P u) ->
    (forall v, P v -> rho v = None -> hv h' v = hv h v) ->
    (forall v n i, P v -> rho v = None -> owner h v = Some (n, i) -> hn h' n = hn h n) ->
    (forall v, P v -> rho' v = rho v) ->
    forall v x, evals base cval h rho v x -> P v -> evals base cval h' rho' v x.
  Proof.
    intros Hcl Hav Han Hr.
    assert ((forall v x, evals base cval h rho v x -> P v -> evals base cval h' rho' v x) /\
      (forall vs xs, evals_list base cval h rho vs xs -> (forall v, v ∈ vs -> P v) ->
         evals_list base cval h' rho' vs xs)) as [H _]; [|exact H].
    apply evals_mutind.
    - intros v x Hv HP. apply ev_given. by rewrite Hr.
    - intros v w c Hv Hw Ho Hk HP. eapply ev_const; eauto; [by rewrite Hr|by rewrite Hav].
    - intros v n i nd xs ys x Hv Ho Hn Hl IH Hs Hi HP. eapply (ev_app _ _ _ _ _ n i nd); eauto.
      + by rewrite Hr.
      + unfold owner. rewrite Hav by done. done.
      + by erewrite Han.
      + apply IH. intros u Hu. eapply Hcl; [done|done|]. unfold input_of, parents. by rewrite Ho, Hn.
    - constructor.
    - intros v vs x xs _ IH1 _ IH2 HP. constructor; [apply IH1|apply IH2; intros]; apply HP; [by left|by right].
  Qed.

  Lemma evals_env h (rho rho' : vid -> option D) v x :
    (forall u, rho' u = rho u) -> evals base cval h rho v x -> evals base cval h rho' v x.
  Proof. intros Hr He. by apply (evals_cut (fun _ => True) h h rho rho'). Qed.
End evals_cut.

Section loop.
  Context (order : heap -> list vid -> list nid).
  Hypothesis Horder : forall h roots n, n ∈ order h roots <-> node_reachable h roots n.

  Record inv (h0 : heap) (st : state) : Prop := Inv {
    inv_good : good_heap (st_heap st);
    inv_ext : extends h0 (st_heap st);
    inv_h0 : wf_heap h0;
    (* no SubsumingElemwise of [h0] is used *)
    inv_h0plain : exists S : vid -> Prop,
      closed S (st_heap st) /\ (forall v, hv (st_heap st) v = None -> S v) /\ (forall w, w ∈ (st_pss st).*2 -> S w) /\
      (forall rv fs f r, dget (st_found st) rv = Some fs -> f ∈ fs -> r ∈ roots_of f -> S r) /\
      (forall u n i, S u -> owner h0 u = Some (n, i) -> ~ is_subsume h0 n);
    inv_keys : forall k, k ∈ dkeys (st_pss st) -> is_Some (hv (st_heap st) k) /\ hv h0 k = None;
    inv_vals : forall w, w ∈ (st_pss st).*2 -> is_Some (hv (st_heap st) w);
    inv_avoid : avoiding (st_heap st) (st_pss st);
    inv_plain : forall w, w ∈ (st_pss st).*2 -> plain (st_heap st) w;
    inv_nodup : NoDup (dkeys (st_pss st));
    inv_found : forall rv fs f, dget (st_found st) rv = Some fs -> f ∈ fs ->
      (forall r, r ∈ roots_of f -> is_Some (hv (st_heap st) r)) /\
      NoDup (dkeys (f_updates f)) /\
      (forall k, k ∈ dkeys (f_updates f) -> owner (st_heap st) k = None /\ k ∉ dkeys (st_pss st));
  }.

  (** a variable whose graph is finished: no model variable, no SubsumingElemwise *)
  Definition finished (st : state) (w : vid) : Prop :=
    is_Some (hv (st_heap st) w) /\ plain (st_heap st) w /\
    forall o, o ∈ dkeys (st_pss st) -> ~ reachable (st_heap st) [w] o.

  Lemma inv_finished h0 st w : inv h0 st -> w ∈ (st_pss st).*2 -> finished st w.
  Proof.
    intros Hinv Hw. split_and!; [by apply (inv_vals _ _ Hinv)|by apply (inv_plain _ _ Hinv)|].
    intros o Ho. by apply (inv_avoid _ _ Hinv).
  Qed.

  Section step.
    Context (h0 : heap) (st : state) (rv : vid) (fs : list found) (f : found) (st' : state).
    Hypothesis Hinv : inv h0 st.
    Hypothesis Hrv : rv ∈ dkeys (st_pss st).
    Hypothesis Hf : exists rv0 fs0, dget (st_found st) rv0 = Some fs0 /\ f ∈ fs0 /\ (forall f', f' ∈ fs -> f' ∈ fs0).
    Hypothesis Hst : process_step order st rv fs f = Ok st'.

    Lemma process_step_inv :
      exists h1 roots1 h2 step rest,
        replace_all (st_heap st) (roots_of f) (st_pss st) = Ok (h1, roots1) /\
        expand_subsumptions order h1 roots1 = (h2, step :: rest) /\
        st' = St h2 (dset (st_found st) rv fs) (dset (st_pss st) rv step)
            (dupdate (st_updates st)
               (dof (zip (take (length (dkeys (f_updates f))) rest) (drop (length (dkeys (f_updates f))) rest))))
            (st_left st).
    Proof.
      unfold process_step in Hst.
      destruct (replace_all (st_heap st) (f_step f :: dkeys (f_updates f) ++ dvalues (f_updates f)) (st_pss st))
        as [[h1 roots1]|] eqn:Hra; [|done]. cbn [rbind] in Hst.
      destruct (expand_subsumptions order h1 roots1) as [h2 roots2] eqn:He.
      destruct roots2 as [|step rest]; [done|]. simplify_eq.
      exists h1, roots1, h2, step, rest. done.
    Qed.

    Notation V := (dkeys (st_pss st)).
    Notation K := (dkeys (f_updates f)).
    Notation U := (dvalues (f_updates f)).

    (** everything that one iteration does *)
    Lemma process_step_spec :
      exists step us,
        st_pss st' = dset (st_pss st) rv step /\
        st_found st' = dset (st_found st) rv fs /\
        st_left st' = st_left st /\
        st_updates st' = dupdate (st_updates st) (zip K us) /\ length us = length K /\
        evolves (st_heap st) (st_heap st') /\
        inv h0 st' /\
        (* frames *)
        (forall w, finished st w -> agree_on (reachable (st_heap st) [w]) (st_heap st) (st_heap st') /\ finished st' w) /\
        (forall n nd, hn (st_heap st) n = Some nd -> ~ reads_model (st_heap st) V n ->
            hn (st_heap st') n = Some nd) /\
        (forall n, is_subsume (st_heap st') n <-> is_subsume (st_heap st) n) /\
        finished st' step /\ (forall u, u ∈ us -> finished st' u) /\
        (* closed sets *)
        (forall S, closed S (st_heap st) -> (forall v, hv (st_heap st) v = None -> S v) ->
           (forall w, w ∈ (st_pss st).*2 -> S w) -> (forall r, r ∈ roots_of f -> S r) ->
           closed S (st_heap st') /\ S step /\ (forall u, u ∈ us -> S u) /\
           (forall n nd, hn (st_heap st) n = Some nd ->
              (forall v i, owner (st_heap st) v = Some (n, i) -> ~ S v) -> hn (st_heap st') n = Some nd)) /\
        (* values *)
        (forall D (base : op -> list D -> option (list D)) cval rho xs,
           leaf_env (st_heap st) rho -> Forall2 (evals base cval (st_heap st) rho) (st_pss st).*2 xs ->
           (forall x, evals base cval (st_heap st) (given_env rho V xs) (f_step f) x ->
              evals base cval (st_heap st') rho step x) /\
           (forall j u u' y, U !! j = Some u -> us !! j = Some u' ->
              evals base cval (st_heap st) (given_env rho V xs) u y ->
              evals base cval (st_heap st') rho u' y) /\
           (forall r n i j x, f_step f ∉ V -> owner (st_heap st) (f_step f) = Some (n, i) ->
              owner (st_heap st) r = Some (n, j) -> r ∉ V -> ~ is_subsume (st_heap st) n ->
              evals base cval (st_heap st) (given_env rho V xs) r x ->
              evals base cval (st_heap st') rho r x)) /\
        (* roots that are kept *)
        (f_step f ∉ V -> (forall n j, owner (st_heap st) (f_step f) = Some (n, j) -> ~ is_subsume (st_heap st) n) ->
           step = f_step f) /\
        (forall j u, U !! j = Some u -> u ∉ V ->
           (forall n i, owner (st_heap st) u = Some (n, i) -> ~ is_subsume (st_heap st) n) -> us !! j = Some u).
    Proof.
      destruct process_step_inv as (h1 & roots1 & h2 & step & rest & Hra & Hex & ->).
      destruct Hf as (rv0 & fs0 & Hfnd & Hfin & Hsub).
      destruct (inv_found _ _ Hinv _ _ _ Hfnd Hfin) as (Hroots & HndK & HK).
      destruct (replace_all_spec (st_pss st) (st_heap st) (roots_of f) h1 roots1 Hra (inv_good _ _ Hinv) Hroots
          (inv_vals _ _ Hinv) (inv_avoid _ _ Hinv))
        as (Hg1 & Hev1 & Hhv1 & Hr1 & Hl1 & Hs1 & Hreach1 & Hag1 & Hid1 & Hout1 & Hrt1 & He1 & Hsi1).
      unfold expand_subsumptions in Hex.
      destruct (inline_all_spec (order h1 roots1) h1 roots1 h2 (step :: rest) Hex Hg1 Hr1)
        as (Hg2 & Hev2 & Hr2 & Hl2 & Hs2 & Hreach2 & Hord2 & Hag2 & Hid2 & Hout2 & Hrt2 & He2 & Hsi2).
      assert (Hev : evolves (st_heap st) h2) by (by eapply evolves_trans).
      assert (Hsub2 : forall n, is_subsume h2 n <-> is_subsume (st_heap st) n) by (intros; by rewrite Hs2, Hs1).
      assert (Hown1 : forall v, owner h1 v = owner (st_heap st) v) by (intros; unfold owner; by rewrite Hhv1).
      (* the roots: step, keys, values *)
      assert (Hlen : length rest = length K + length U).
      { unfold roots_of in Hl1. cbn in Hl1, Hl2. rewrite app_length in Hl1. lia. }
      set (us := drop (length K) rest).
      assert (Hus_len : length us = length K).
      { unfold us. rewrite drop_length, Hlen. unfold dkeys, dvalues. rewrite !map_length. lia. }
      assert (HkeysK : take (length K) rest = K).
      { apply list_eq. intros j. destruct (decide (j < length K)) as [Hj|Hj].
        - rewrite lookup_take by done. destruct (lookup_lt_is_Some_2 K j Hj) as [k Hk]. rewrite Hk.
          assert (Hkin : k ∈ K) by (by eapply elem_of_list_lookup_2).
          destruct (HK k Hkin) as [Hko HkV].
          assert (H1 : roots1 !! S j = Some k).
          { apply Hrt1; [|done]. change (roots_of f !! S j) with ((K ++ U) !! j). by rewrite lookup_app_l. }
          assert (H2 : (step :: rest) !! S j = Some k).
          { apply Hrt2; [done|]. intros n i Ho. rewrite Hown1, Hko in Ho. done. }
          done.
        - rewrite lookup_take_ge, lookup_ge_None_2 by lia. done. }
      assert (Hinroots : forall u, u ∈ step :: us -> u ∈ step :: rest).
      { intros u Hu. apply elem_of_cons in Hu as [->|Hu]; [by left|right].
        apply elem_of_list_lookup in Hu as [j Hj]. unfold us in Hj. rewrite lookup_drop in Hj.
        by eapply elem_of_list_lookup_2. }
      (* the results are finished *)
      assert (Hfin_root : forall u, u ∈ step :: rest ->
        is_Some (hv h2 u) /\ plain h2 u /\ forall o, o ∈ V -> ~ reachable h2 [u] o).
      { intros u Hu. assert (Hre : forall v, reachable h2 [u] v -> reachable h2 (step :: rest) v).
        { intros v Hv. eapply reachable_mono; [|exact Hv]. by intros z ->%elem_of_list_singleton. }
        split_and!.
        - by apply Hr2.
        - intros v n i Hv Ho Hsn.
          destruct (Hord2 n Hsn) as [Hn Hnin]; [by exists v, i; split; [apply Hre|]|].
          apply Hnin. by apply Horder.
        - intros o Ho Hov. destruct (Hreach2 o (Hre _ Hov)) as [Hov1|Hnone].
          + by destruct (Hreach1 o Hov1) as [Hno _].
          + destruct (inv_keys _ _ Hinv o Ho) as [[x Hx] _]. rewrite Hhv1 in Hnone. congruence. }
      assert (Hfr : forall w, finished st w ->
        agree_on (reachable (st_heap st) [w]) (st_heap st) h2).
      { intros w (Hw1 & Hw2 & Hw3). pose proof (Hag1 w Hw3) as Ha1. eapply agree_trans; [exact Ha1|].
        apply Hag2; [by rewrite Hhv1|]. intros v n i Hv Ho. rewrite Hs1.
        apply (agree_reachable _ _ _ Ha1) in Hv. eapply Hw2; [exact Hv|]. by rewrite <- Hown1. }
      assert (Hfr2 : forall w, finished st w ->
        is_Some (hv h2 w) /\ plain h2 w /\ forall o, o ∈ V -> ~ reachable h2 [w] o).
      { intros w Hw. pose proof (Hfr w Hw) as Ha. destruct Hw as (Hw1 & Hw2 & Hw3).
        pose proof (agree_reachable _ _ _ Ha) as Hre. split_and!.
        - by eapply evolves_some.
        - intros v n i Hv Ho. rewrite Hsub2. apply Hre in Hv. eapply Hw2; [exact Hv|].
          rewrite (evolves_owner (st_heap st) h2) in Ho; [done|done|].
          eapply wf_reachable; [apply (inv_good _ _ Hinv)| |exact Hv]. by intros ? ->%elem_of_list_singleton.
        - intros o Ho. rewrite Hre. by apply Hw3. }
      exists step, us.
      assert (HV' : dkeys (dset (st_pss st) rv step) = V) by (by apply dkeys_dset_in).
      assert (Hvals' : forall w, w ∈ (dset (st_pss st) rv step).*2 -> w = step \/ w ∈ (st_pss st).*2).
      { intros w Hw. apply elem_of_list_fmap in Hw as ([k w0] & -> & Hkw).
        assert (Hnd' : NoDup (dkeys (dset (st_pss st) rv step))) by (rewrite HV'; apply (inv_nodup _ _ Hinv)).
        pose proof (dget_of_in _ _ _ Hnd' Hkw) as Hg. rewrite dget_dset in Hg. cbn. case_decide.
        - left. congruence.
        - right. apply dget_Some_in in Hg. apply elem_of_list_fmap. by exists (k, w0). }
      assert (Hpss_fin : forall w, w ∈ (dset (st_pss st) rv step).*2 ->
        is_Some (hv h2 w) /\ plain h2 w /\ forall o, o ∈ V -> ~ reachable h2 [w] o).
      { intros w Hw. destruct (Hvals' w Hw) as [->|Hw'].
        - apply Hfin_root. by left.
        - apply Hfr2. by eapply inv_finished. }
      assert (Hndk : NoDup (dkeys (zip K us))).
      { unfold dkeys. change (map fst (zip K us)) with ((zip K us).*1).
        rewrite fst_zip; [done|]. by rewrite Hus_len. }
      assert (Hno_read : forall n nd, hn (st_heap st) n = Some nd -> ~ reads_model (st_heap st) V n ->
            hn h2 n = Some nd).
      { intros n nd Hn Hnr. apply Hid2.
        - apply Hid1; [done|]. intros o Ho Hin. apply Hnr. exists nd, o. auto.
        - intros u m i Hu Ho Hsm. rewrite Hown1 in Ho. apply Hs1 in Hsm. apply Hnr.
          exists nd, u. split_and!; try done. right. by exists m, i. }
      assert (Hclosed : forall S, closed S (st_heap st) -> (forall v, hv (st_heap st) v = None -> S v) ->
           (forall w, w ∈ (st_pss st).*2 -> S w) -> (forall r, r ∈ roots_of f -> S r) ->
           closed S h2 /\ S step /\ (forall u, u ∈ us -> S u) /\
           (forall n nd, hn (st_heap st) n = Some nd ->
              (forall v i, owner (st_heap st) v = Some (n, i) -> ~ S v) -> hn h2 n = Some nd)).
      { intros S Hc Hfresh Hvals Hrts.
        destruct (replace_all_closed S (st_pss st) (st_heap st) (roots_of f) h1 roots1 Hra Hc Hvals Hrts) as [Hc1 Hrts1].
        assert (Hnode : forall n v i, n ∈ order h1 roots1 -> owner h1 v = Some (n, i) -> is_subsume h1 n -> S v).
        { intros n v i Hn Ho Hsn. apply Horder in Hn as (v' & i' & Hv' & Ho').
          destruct Hg1 as (Hwf1 & _ & Hok1). destruct Hsn as (nd & s & args & Hnd & Hop).
          destruct (Hok1 _ _ _ _ Hnd Hop) as [[z Hz] _].
          destruct (wf_owner h1 Hwf1 _ _ _ Ho) as (nd1 & Hnd1 & Hi1).
          destruct (wf_owner h1 Hwf1 _ _ _ Ho') as (nd2 & Hnd2 & Hi2). simplify_eq.
          rewrite Hz in Hi1, Hi2. destruct i, i'; cbn in *; simplify_eq.
          by eapply closed_reachable. }
        assert (Hcl2 : closed S h2 /\ (forall r, r ∈ step :: rest -> S r)).
        { eapply (inline_all_closed S (order h1 roots1)); [exact Hex|done|done| |done|done|].
          - intros v Hv. apply Hfresh. by rewrite Hhv1 in Hv.
          - intros n v i Hn Hsn Ho. by eapply Hnode. }
        destruct Hcl2 as [Hc2 Hrts2]. split_and!.
        + done.
        + apply Hrts2. by left.
        + intros u Hu. apply Hrts2, Hinroots. by right.
        + intros n nd Hn HnS.
          assert (Hnr : ~ node_reachable (st_heap st) (roots_of f) n).
          { intros (v & i & Hv & Ho). apply (HnS v i Ho). eapply (closed_reachable S (st_heap st)); [exact Hc|exact Hrts|exact Hv]. }
          apply Hout2; [by rewrite Hout1|]. intros (v & i & Hv & Ho). rewrite Hown1 in Ho.
          apply (HnS v i Ho). eapply (closed_reachable S h1); [exact Hc1|exact Hrts1|exact Hv]. }
      cbn [st_heap st_pss st_found st_updates st_left] in *.
      split_and!; try done.
      - rewrite HkeysK. fold us. by rewrite dof_nodup.
      - constructor; cbn [st_heap st_pss st_found st_updates st_left].
        + done.
        + split.
          * intros v x Hv. apply Hev. by apply (inv_ext _ _ Hinv).
          * intros n nd Hn. pose proof (proj2 (inv_ext _ _ Hinv) _ _ Hn) as Hn0.
            destruct (inv_h0plain _ _ Hinv) as (S & Hc & Hfresh & Hsv & Hsf & Hspl).
            assert (Hrts : forall r, r ∈ roots_of f -> S r) by (intros r Hr; by eapply Hsf).
            destruct (replace_all_closed S (st_pss st) (st_heap st) (roots_of f) h1 roots1 Hra Hc Hsv Hrts) as [Hc1 Hrts1].
            assert (Hread : (exists v i, S v /\ owner (st_heap st) v = Some (n, i)) -> hn h2 n = Some nd).
            { intros (v & i & Hv & Ho). apply Hno_read; [done|].
              intros (nd' & u & Hn' & Hu & Hcase). rewrite Hn0 in Hn'. injection Hn' as <-.
              pose proof (wf_ins h0 (inv_h0 _ _ Hinv) _ _ _ Hn Hu) as [x Hx].
              destruct Hcase as [HuV|(m & j & Hou & Hsm)].
              - destruct (inv_keys _ _ Hinv u HuV) as [_ Hnone]. congruence.
              - assert (HSu : S u). { apply (Hc v u Hv). unfold input_of, parents. rewrite Ho, Hn0. done. }
                rewrite (extends_owner_old h0) in Hou; [|apply (inv_ext _ _ Hinv)|by eauto].
                destruct (wf_owner h0 (inv_h0 _ _ Hinv) _ _ _ Hou) as (ndm & Hm & _).
                apply (Hspl u m j HSu Hou). destruct Hsm as (ndm' & s & args & Hm' & Hop).
                rewrite (proj2 (inv_ext _ _ Hinv) _ _ Hm) in Hm'. simplify_eq. by exists ndm', s, args. }
            destruct (decide (n ∈ order (st_heap st) (roots_of f))) as [Hin|Hin].
            { apply Horder in Hin as (v & i & Hv & Ho). apply Hread. exists v, i. split; [|done]. exact (closed_reachable S (st_heap st) (roots_of f) v Hc Hrts Hv). }
            destruct (decide (n ∈ order h1 roots1)) as [Hin1|Hin1].
            { apply Horder in Hin1 as (v & i & Hv & Ho). apply Hread. exists v, i.
              split; [exact (closed_reachable S h1 roots1 v Hc1 Hrts1 Hv)|]. by rewrite <- Hown1. }
            apply Hout2; [rewrite Hout1; [exact Hn0|]|]; intros Hx; by apply Horder in Hx.
        + apply (inv_h0 _ _ Hinv).
        + destruct (inv_h0plain _ _ Hinv) as (S & Hc & Hfresh & Hsv & Hsf & Hspl).
          destruct (Hclosed S Hc Hfresh Hsv) as (K1 & K2 & K3 & _); [intros r Hr; by eapply Hsf|].
          exists S. split_and!; [done| | | |done].
          * intros v Hv. apply Hfresh. destruct (hv (st_heap st) v) as [x|] eqn:Hx; [|done]. apply Hev in Hx. congruence.
          * intros w Hw. destruct (Hvals' w Hw) as [->|Hw']; [done|by apply Hsv].
          * intros rv1 fs1 f1 r Hd Hin Hr. rewrite dget_dset in Hd. case_decide; simplify_eq; [|by eapply Hsf].
            eapply Hsf; [exact Hfnd|by apply Hsub|exact Hr].
        + intros k Hk. rewrite HV' in Hk. destruct (inv_keys _ _ Hinv k Hk) as [H1 H2].
          split; [by eapply evolves_some|done].
        + intros w Hw. by apply Hpss_fin.
        + intros o w Ho Hw. change (o ∈ dkeys (dset (st_pss st) rv step)) in Ho. rewrite HV' in Ho.
          by apply Hpss_fin.
        + intros w Hw. by apply Hpss_fin.
        + rewrite HV'. apply (inv_nodup _ _ Hinv).
        + intros rv1 fs1 f1 Hd Hin. rewrite HV'. rewrite dget_dset in Hd.
          assert (exists rv2 fs2, dget (st_found st) rv2 = Some fs2 /\ f1 ∈ fs2) as (rv2 & fs2 & Hd2 & Hin2).
          { case_decide; simplify_eq; [|by eauto]. exists rv0, fs0. auto. }
          destruct (inv_found _ _ Hinv _ _ _ Hd2 Hin2) as (A1 & A2 & A3). split_and!.
          * intros r Hr. eapply evolves_some; [done|by apply A1].
          * done.
          * intros k Hk. destruct (A3 k Hk) as [A4 A5]. split; [|done].
            rewrite (evolves_owner (st_heap st) h2); [done|done|]. apply A1. unfold roots_of. right.
            apply elem_of_app. by left.
      - intros Hw. unfold finished. cbn [st_heap st_pss]. rewrite HV'. split; [by apply Hfr|by apply Hfr2].
      - unfold finished. cbn [st_heap st_pss]. rewrite HV'. apply Hfin_root. by left.
      - intros u Hu. unfold finished. cbn [st_heap st_pss]. rewrite HV'. apply Hfin_root.
        apply Hinroots. by right.
      - intros D base cval rho xs Hleaf Hxs.
        assert (Hleaf1 : leaf_env h1 rho) by (by eapply leaf_env_evolves).
        assert (Hroot : forall j r r' x, roots_of f !! j = Some r -> (step :: rest) !! j = Some r' ->
          evals base cval (st_heap st) (given_env rho V xs) r x -> evals base cval h2 rho r' x).
        { intros j r r' x Hj Hj' He.
          destruct (lookup_lt_is_Some_2 roots1 j) as [r1 Hr1'].
          { rewrite Hl1. by eapply lookup_lt_Some. }
          eapply He2; [done|exact Hr1'|exact Hj'|]. by eapply He1. }
        split_and!.
        + intros x He. by eapply (Hroot 0).
        + intros j u u' y Hj Hj' He. eapply (Hroot (S (length K + j))); [| |exact He].
          * change (roots_of f !! S (length K + j)) with ((K ++ U) !! (length K + j)). rewrite lookup_app_r by lia. by rewrite Nat.add_sub_swap, Nat.sub_diag by lia.
          * cbn. unfold us in Hj'. by rewrite lookup_drop in Hj'.
        + intros r n i j x HfV Ho0 Ho HrV Hns He.
          eapply Hsi2 with (r0 := f_step f) (n := n) (i := i) (j := j); [done| | | | |].
          * eapply (elem_of_list_lookup_2 _ 0). by apply Hrt1.
          * by rewrite Hown1.
          * by rewrite Hown1.
          * by rewrite Hs1.
          * eapply Hsi1 with (r0 := f_step f) (n := n) (i := i) (j := j); try done.
            unfold roots_of. by left.
      - intros HfV Hns.
        assert (H1 : roots1 !! 0 = Some (f_step f)) by (by apply Hrt1).
        assert (H2 : (step :: rest) !! 0 = Some (f_step f)).
        { apply Hrt2; [done|]. intros n j. rewrite Hown1, Hs1. apply Hns. }
        cbn in H2. congruence.
      - intros j u Hj HuV Hns.
        assert (H1 : roots1 !! S (length K + j) = Some u).
        { apply Hrt1; [|done]. change (roots_of f !! S (length K + j)) with ((K ++ U) !! (length K + j)). rewrite lookup_app_r by lia.
          by rewrite Nat.add_sub_swap, Nat.sub_diag by lia. }
        assert (H2 : (step :: rest) !! S (length K + j) = Some u).
        { apply Hrt2; [done|]. intros n i. rewrite Hown1, Hs1. apply Hns. }
        unfold us. by rewrite lookup_drop.
    Qed.
  End step.

  (** ** one iteration, whatever the case *)
  Lemma process_rv_cases obs st rv st' :
    process_rv order obs st rv = Ok st' ->
    (rv ∈ dkeys obs /\ st' = st) \/
    (rv ∉ dkeys obs /\ chosen (st_found st) rv = None /\
       st' = St (st_heap st) (st_found st) (st_pss st) (st_updates st) (set_add (st_left st) rv)) \/
    (rv ∉ dkeys obs /\ exists fs f, dget (st_found st) rv = Some fs /\ last fs = Some f /\
       chosen (st_found st) rv = Some f /\ process_step order st rv (removelast fs) f = Ok st').
  Proof.
    unfold process_rv, chosen. destruct (dmem rv obs) eqn:Hm.
    { apply dmem_true in Hm. intros. simplify_eq. by left. }
    assert (rv ∉ dkeys obs). { intros Hin. apply dmem_true in Hin. congruence. }
    destruct (dget (st_found st) rv) as [fs|]; cbn.
    - destruct (last fs) as [f|] eqn:Hl.
      + intros Hp. right. right. split; [done|]. by exists fs, f.
      + intros. simplify_eq. right. by left.
    - intros. simplify_eq. right. by left.
  Qed.

  Lemma last_elem {A} (l : list A) x : last l = Some x -> x ∈ l.
  Proof.
    rewrite last_lookup. intros H. by eapply elem_of_list_lookup_2.
  Qed.
  Lemma removelast_elem {A} (l : list A) x : x ∈ removelast l -> x ∈ l.
  Proof.
    induction l as [|y l IH]; [done|]. cbn. destruct l as [|z l]; [by intros ?%elem_of_nil|].
    intros [->|Hx]%elem_of_cons; [by left|right]. by apply IH.
  Qed.

  Definition reads_b (h : heap) (V : list vid) (n : nid) : bool :=
    match hn h n with
    | Some nd => existsb (fun u => bool_decide (u ∈ V) ||
        match owner h u with
        | Some (m, _) => match hn h m with
            | Some ndm => match n_op ndm with OSubsume _ _ => true | _ => false end
            | None => false end
        | None => false end) (n_ins nd)
    | None => false
    end.
  Lemma reads_b_spec h V n : reads_b h V n = true <-> reads_model h V n.
  Proof.
    unfold reads_b, reads_model. destruct (hn h n) as [nd|] eqn:Hn.
    - rewrite existsb_exists. split.
      + intros (u & Hu & Hb). apply elem_of_list_In in Hu. exists nd, u. split_and!; [done|done|].
        apply orb_true_iff in Hb as [Hb|Hb]; [left; by apply bool_decide_eq_true in Hb|right].
        destruct (owner h u) as [[m i]|]; [|done]. destruct (hn h m) as [ndm|] eqn:Hm; [|done].
        destruct (n_op ndm) eqn:Hop; try done. exists m, i. split; [done|]. by exists ndm, s, args.
      + intros (nd' & u & Heq & Hu & Hcase). simplify_eq. exists u. split; [by apply elem_of_list_In|].
        apply orb_true_iff. destruct Hcase as [HV|(m & i & Ho & (ndm & s & args & Hm & Hop))].
        * left. by apply bool_decide_eq_true.
        * right. by rewrite Ho, Hm, Hop.
    - split; [done|]. intros (nd & u & Heq & _). done.
  Qed.
  Global Instance reads_model_dec h V n : Decision (reads_model h V n).
  Proof.
    destruct (reads_b h V n) eqn:Hb; [left; by apply reads_b_spec|right].
    intros Hr. apply reads_b_spec in Hr. congruence.
  Defined.

  (** ** the whole loop *)
  Record frame (st st' : state) : Prop := Frame {
    fr_keys : dkeys (st_pss st') = dkeys (st_pss st);
    fr_evolves : evolves (st_heap st) (st_heap st');
    fr_subsume : forall n, is_subsume (st_heap st') n <-> is_subsume (st_heap st) n;
    fr_finished : forall w, finished st w ->
      agree_on (reachable (st_heap st) [w]) (st_heap st) (st_heap st') /\ finished st' w;
    fr_noread : forall n nd, hn (st_heap st) n = Some nd ->
      ~ reads_model (st_heap st) (dkeys (st_pss st)) n -> hn (st_heap st') n = Some nd;
  }.

  Lemma frame_refl st : frame st st.
  Proof. constructor; try done; [apply evolves_refl]. Qed.

  Lemma frame_trans h0 st1 st2 st3 : inv h0 st1 -> frame st1 st2 -> frame st2 st3 -> frame st1 st3.
  Proof.
    intros Hinv [A1 A2 A3 A4 A5] [B1 B2 B3 B4 B5]. constructor.
    - congruence.
    - by eapply evolves_trans.
    - intros n. by rewrite B3, A3.
    - intros w Hw. destruct (A4 w Hw) as [Ha Hw2]. destruct (B4 w Hw2) as [Hb Hw3].
      split; [by eapply agree_trans|done].
    - intros n nd Hn Hnr. apply B5; [by apply A5|]. rewrite A1. intros (nd' & u & Hn' & Hu & Hc).
      rewrite (A5 n nd Hn Hnr) in Hn'. simplify_eq. apply Hnr. exists nd', u. split_and!; [done|done|].
      destruct Hc as [Hc|(m & i & Ho & Hs)]; [by left|right]. exists m, i. split; [|by apply A3].
      rewrite (evolves_owner (st_heap st1)) in Ho; [done|done|].
      destruct (inv_good _ _ Hinv) as (Hwf & _). by eapply (wf_ins _ Hwf).
  Qed.

  Definition in_loop (obs : dict nat nat) (st : state) (l : list vid) : Prop :=
    NoDup l /\ forall rv, rv ∈ l -> rv ∉ dkeys obs -> rv ∈ dkeys (st_pss st).

  Lemma process_rv_spec h0 obs st rv st' :
    inv h0 st -> (rv ∉ dkeys obs -> rv ∈ dkeys (st_pss st)) -> process_rv order obs st rv = Ok st' ->
    inv h0 st' /\ frame st st' /\
    (forall rv', rv' <> rv -> chosen (st_found st') rv' = chosen (st_found st) rv') /\
    (forall k, k <> rv -> dget (st_pss st') k = dget (st_pss st) k).
  Proof.
    intros Hinv Hrv Hp. apply process_rv_cases in Hp as [[_ ->]|[(_ & _ & ->)|(Ho & fs & f & Hd & Hl & Hch & Hp)]].
    - split_and!; try done. apply frame_refl.
    - split_and!; try done.
      + destruct Hinv. by constructor.
      + constructor; try done. apply evolves_refl.
    - destruct (process_step_spec h0 st rv (removelast fs) f st' Hinv (Hrv Ho)) as
        (step & us & H1 & H2 & H3 & H4 & H4' & H5 & H6 & H7 & H8 & H9 & H10 & H11 & H12 & H13 & H14 & H15); [|done|].
      { exists rv, fs. split_and!; [done|by apply last_elem|]. intros f'. apply removelast_elem. }
      split_and!.
      + done.
      + constructor; try done. rewrite H1. apply dkeys_dset_in. by apply Hrv.
      + intros rv' Hne. unfold chosen. rewrite H2, dget_dset_ne by done. done.
      + intros k Hne. rewrite H1. by rewrite dget_dset_ne.
  Qed.

  Lemma process_all_spec h0 obs l : forall st st',
    inv h0 st -> in_loop obs st l -> process_all order obs st l = Ok st' ->
    inv h0 st' /\ frame st st' /\
    (forall rv', rv' ∉ l -> chosen (st_found st') rv' = chosen (st_found st) rv') /\
    (forall k, k ∉ l -> dget (st_pss st') k = dget (st_pss st) k).
  Proof.
    induction l as [|rv l IH]; intros st st' Hinv [Hnd Hl] Hp; cbn in Hp.
    { simplify_eq. split_and!; try done. apply frame_refl. }
    destruct (process_rv order obs st rv) as [st1|] eqn:Hp1; [|done]. cbn in Hp.
    apply NoDup_cons in Hnd as [Hnin Hnd].
    destruct (process_rv_spec h0 obs st rv st1 Hinv) as (Hinv1 & Hfr1 & Hch1 & Hg1); [|done|].
    { apply Hl. by left. }
    destruct (IH st1 st' Hinv1) as (Hinv2 & Hfr2 & Hch2 & Hg2); [|done|].
    { split; [done|]. intros rv' Hin Ho. rewrite (fr_keys _ _ Hfr1). apply Hl; [by right|done]. }
    split_and!.
    - done.
    - by eapply frame_trans.
    - intros rv' [Hne Hni]%not_elem_of_cons. rewrite Hch2, Hch1 by done. done.
    - intros k [Hne Hni]%not_elem_of_cons. rewrite Hg2, Hg1 by done. done.
  Qed.

  (** closed sets through the loop *)
  Lemma process_all_closed h0 obs S l : forall st st',
    inv h0 st -> in_loop obs st l -> process_all order obs st l = Ok st' ->
    closed S (st_heap st) -> (forall v, hv (st_heap st) v = None -> S v) ->
    (forall w, w ∈ (st_pss st).*2 -> S w) ->
    (forall rv f r, rv ∈ l -> rv ∉ dkeys obs -> chosen (st_found st) rv = Some f -> r ∈ roots_of f -> S r) ->
    closed S (st_heap st') /\ (forall w, w ∈ (st_pss st').*2 -> S w) /\
    (forall n nd, hn (st_heap st) n = Some nd ->
       (reads_model (st_heap st) (dkeys (st_pss st)) n ->
          forall v i, owner (st_heap st) v = Some (n, i) -> ~ S v) ->
       hn (st_heap st') n = Some nd).
  Proof.
    induction l as [|rv l IH]; intros st st' Hinv [Hnd Hl] Hp Hc Hfresh Hvals Hroots; cbn in Hp.
    { simplify_eq. done. }
    destruct (process_rv order obs st rv) as [st1|] eqn:Hp1; [|done]. cbn in Hp.
    apply NoDup_cons in Hnd as [Hnin Hnd].
    destruct (process_rv_spec h0 obs st rv st1 Hinv) as (Hinv1 & Hfr1 & Hch1 & Hg1); [|done|].
    { apply Hl. by left. }
    assert (closed S (st_heap st1) /\ (forall v, hv (st_heap st1) v = None -> S v) /\
      (forall w, w ∈ (st_pss st1).*2 -> S w) /\
      (forall n nd, hn (st_heap st) n = Some nd ->
       (reads_model (st_heap st) (dkeys (st_pss st)) n ->
          forall v i, owner (st_heap st) v = Some (n, i) -> ~ S v) ->
       hn (st_heap st1) n = Some nd)) as (Hc1 & Hfresh1 & Hvals1 & Hn1).
    { pose proof Hp1 as Hp1'.
      apply process_rv_cases in Hp1' as [[_ ->]|[(_ & _ & ->)|(Ho & fs & f & Hd & Hlast & Hch & Hps)]]; [done|done|].
      destruct (process_step_spec h0 st rv (removelast fs) f st1 Hinv (Hl rv ltac:(by left) Ho)) as
        (step & us & H1 & H2 & H3 & H4 & H4' & H5 & H6 & H7 & H8 & H9 & H10 & H11 & H12 & H13 & H14 & H15); [|done|].
      { exists rv, fs. split_and!; [done|by apply last_elem|]. intros f'. apply removelast_elem. }
      destruct (H12 S Hc Hfresh Hvals) as (S1 & S2 & S3 & S4).
      { intros r Hr. eapply Hroots; [by left|done|done|done]. }
      split_and!.
      - done.
      - intros v Hv. apply Hfresh. destruct (hv (st_heap st) v) as [x|] eqn:Hx; [|done].
        apply (fr_evolves _ _ Hfr1) in Hx. congruence.
      - intros w Hw. rewrite H1 in Hw. apply elem_of_list_fmap in Hw as ([k w0] & -> & Hkw).
        assert (Hnd' : NoDup (dkeys (dset (st_pss st) rv step))).
        { rewrite <- H1. apply (inv_nodup _ _ Hinv1). }
        pose proof (dget_of_in _ _ _ Hnd' Hkw) as Hg. rewrite dget_dset in Hg. cbn. case_decide; simplify_eq; [done|].
        apply Hvals. apply dget_Some_in in Hg. apply elem_of_list_fmap. by exists (k, w0).
      - intros n nd Hn Hr. destruct (decide (reads_model (st_heap st) (dkeys (st_pss st)) n)) as [Hrm|Hrm].
        + apply S4; [done|exact (Hr Hrm)].
        + by apply H8. }
    destruct (IH st1 st' Hinv1) as (Hc2 & Hv2 & Hn2); try done.
    { split; [done|]. intros rv' Hin Ho. rewrite (fr_keys _ _ Hfr1). apply Hl; [by right|done]. }
    { intros rv' f r Hin Ho Hch. rewrite Hch1 in Hch by (intros ->; done).
      eapply Hroots; [by right|done|done]. }
    split_and!; [done|done|]. intros n nd Hn Hr.
    assert (Hnn : hn (st_heap st1) n = Some nd) by exact (Hn1 n nd Hn Hr). apply Hn2; [done|].
    intros Hrm v i Ho. destruct (inv_good _ _ Hinv) as (Hwf & _).
    destruct (inv_good _ _ Hinv1) as (Hwf1 & _).
    assert (Hov : owner (st_heap st) v = Some (n, i)).
    { destruct (wf_owner _ Hwf1 _ _ _ Ho) as (nd' & Hn' & Hi). simplify_eq. by eapply (wf_outs _ Hwf). }
    apply Hr with (i := i); [|done].
    destruct Hrm as (nd1 & u & Hn1' & Hu & Hcase). rewrite Hnn in Hn1'. injection Hn1' as <-. exists nd, u. split_and!; [done|done|].
    rewrite (fr_keys _ _ Hfr1) in Hcase.
    destruct Hcase as [Hcase|(m & j & Hm & Hs)]; [by left|right]. exists m, j.
    split; [|by apply (fr_subsume _ _ Hfr1)].
    rewrite (evolves_owner (st_heap st)) in Hm; [done|apply (fr_evolves _ _ Hfr1)|]. by eapply (wf_ins _ Hwf).
  Qed.

  Lemma process_all_app obs l1 l2 st st' :
    process_all order obs st (l1 ++ l2) = Ok st' <->
    exists st1, process_all order obs st l1 = Ok st1 /\ process_all order obs st1 l2 = Ok st'.
  Proof.
    revert st. induction l1 as [|rv l1 IH]; intros st; cbn.
    - split; [by eauto|]. intros (st1 & ? & ?). by simplify_eq.
    - destruct (process_rv order obs st rv) as [st1|]; cbn; [apply IH|].
      split; [done|]. by intros (? & ? & _).
  Qed.

  (** ** what the loop leaves to NUTS *)
  Lemma elem_of_set_add l x y : y ∈ set_add l x <-> y = x \/ y ∈ l.
  Proof.
    unfold set_add. case_decide; [|rewrite elem_of_app, elem_of_list_singleton]; naive_solver.
  Qed.

  Lemma process_all_left h0 obs l : forall st st',
    inv h0 st -> in_loop obs st l -> process_all order obs st l = Ok st' ->
    (forall rv, rv ∈ st_left st' <->
       rv ∈ st_left st \/ (rv ∈ l /\ rv ∉ dkeys obs /\ chosen (st_found st) rv = None)) /\
    (NoDup (st_left st) -> NoDup (st_left st')).
  Proof.
    induction l as [|rv l IH]; intros st st' Hinv [Hnd Hl] Hp; cbn in Hp.
    { simplify_eq. split; [|done]. intros rv. split; [by left|]. intros [?|(?%elem_of_nil & _)]; done. }
    destruct (process_rv order obs st rv) as [st1|] eqn:Hp1; [|done]. cbn in Hp.
    apply NoDup_cons in Hnd as [Hnin Hnd].
    destruct (process_rv_spec h0 obs st rv st1 Hinv) as (Hinv1 & Hfr1 & Hch1 & Hg1); [|done|].
    { apply Hl. by left. }
    destruct (IH st1 st' Hinv1) as [Hleft Hndl]; [|done|].
    { split; [done|]. intros rv' Hin Ho. rewrite (fr_keys _ _ Hfr1). apply Hl; [by right|done]. }
    assert (Hstep : (forall r, r ∈ st_left st1 <-> r ∈ st_left st \/
       (r = rv /\ r ∉ dkeys obs /\ chosen (st_found st) r = None)) /\ (NoDup (st_left st) -> NoDup (st_left st1))).
    { apply process_rv_cases in Hp1 as [[Ho ->]|[(Ho & Hc & ->)|(Ho & fs & f & Hd & Hlast & Hch & Hps)]].
      - split; [|done]. intros r. split; [by left|]. intros [?|(-> & ? & _)]; done.
      - cbn. split.
        + intros r. rewrite elem_of_set_add. split.
          * intros [->|?]; [by right|by left].
          * intros [?|(-> & _)]; [by right|by left].
        + intros Hn. unfold set_add. case_decide; [done|]. apply NoDup_app. split_and!; [done| |apply NoDup_singleton].
          intros x Hx ->%elem_of_list_singleton. done.
      - destruct (process_step_spec h0 st rv (removelast fs) f st1 Hinv (Hl rv ltac:(by left) Ho)) as
        (step & us & H1 & H2 & H3 & _); [|done|].
        { exists rv, fs. split_and!; [done|by apply last_elem|]. intros f'. apply removelast_elem. }
        rewrite H3. split; [|done]. intros r. split; [by left|]. intros [?|(-> & _ & Hc)]; [done|congruence]. }
    destruct Hstep as [Hstep Hnds]. split; [|auto]. intros r. rewrite Hleft, Hstep.
    split.
    - intros [[?|(-> & ? & ?)]|(Hin & ? & Hc)]; [by left|right; split; [by left|done]|].
      right. split_and!; [by right|done|]. rewrite <- Hch1; [done|]. by intros ->.
    - intros [?|([->|Hin]%elem_of_cons & ? & Hc)]; [by left; left|by left; right|].
      right. split_and!; [done|done|]. rewrite Hch1; [done|]. by intros ->.
  Qed.

  (** ** the updates *)
  Lemma elem_of_zip_fst {A B} (k : list A) (u : list B) x :
    length u = length k -> x ∈ map fst (zip k u) <-> x ∈ k.
  Proof.
    intros Hl. change (map fst (zip k u)) with ((zip k u).*1). by rewrite fst_zip by lia.
  Qed.

  Lemma process_all_updates h0 obs l : forall st st',
    inv h0 st -> in_loop obs st l -> process_all order obs st l = Ok st' ->
    forall k, k ∈ dkeys (st_updates st') <-> k ∈ dkeys (st_updates st) \/
      exists rv f, rv ∈ l /\ rv ∉ dkeys obs /\ chosen (st_found st) rv = Some f /\ k ∈ dkeys (f_updates f).
  Proof.
    induction l as [|rv l IH]; intros st st' Hinv [Hnd Hl] Hp k; cbn in Hp.
    { simplify_eq. split; [by left|]. intros [?|(? & ? & ?%elem_of_nil & _)]; done. }
    destruct (process_rv order obs st rv) as [st1|] eqn:Hp1; [|done]. cbn in Hp.
    apply NoDup_cons in Hnd as [Hnin Hnd].
    destruct (process_rv_spec h0 obs st rv st1 Hinv) as (Hinv1 & Hfr1 & Hch1 & Hg1); [|done|].
    { apply Hl. by left. }
    assert (Hloop : in_loop obs st1 l).
    { split; [done|]. intros rv' Hin Ho. rewrite (fr_keys _ _ Hfr1). apply Hl; [by right|done]. }
    rewrite (IH st1 st' Hinv1 Hloop Hp k).
    assert (Hstep : k ∈ dkeys (st_updates st1) <-> k ∈ dkeys (st_updates st) \/
       exists f, rv ∉ dkeys obs /\ chosen (st_found st) rv = Some f /\ k ∈ dkeys (f_updates f)).
    { apply process_rv_cases in Hp1 as [[Ho ->]|[(Ho & Hc & ->)|(Ho & fs & f & Hd & Hlast & Hch & Hps)]].
      - split; [by left|]. intros [?|(? & ? & _)]; done.
      - cbn. split; [by left|]. intros [?|(? & _ & ? & _)]; [done|congruence].
      - destruct (process_step_spec h0 st rv (removelast fs) f st1 Hinv (Hl rv ltac:(by left) Ho)) as
          (step & us & H1 & H2 & H3 & H4 & H4' & _); [|done|].
        { exists rv, fs. split_and!; [done|by apply last_elem|]. intros f'. apply removelast_elem. }
        rewrite H4, elem_of_dkeys_dupdate, elem_of_zip_fst by done. split.
        + intros [?|?]; [by left|right]. by exists f.
        + intros [?|(f' & _ & ? & ?)]; [by left|right]. congruence. }
    rewrite Hstep. split.
    - intros [[?|(f & ? & ? & ?)]|(rv' & f & Hin & ? & Hc & ?)]; [by left| |].
      + right. exists rv, f. split; [by left|done].
      + right. exists rv', f. split_and!; [by right|done| |done]. rewrite <- Hch1; [done|]. by intros ->.
    - intros [?|(rv' & f & [->|Hin]%elem_of_cons & ? & Hc & ?)]; [by left; left|left; right; by exists f|].
      right. exists rv', f. split_and!; [done|done| |done]. rewrite Hch1; [done|]. by intros ->.
  Qed.
End loop.
