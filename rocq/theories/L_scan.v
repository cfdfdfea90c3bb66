(** The loop of construct_sampler computes the systematic scan. *)
From Verif Require Export L_basic.

Section scan_lemmas.
  Context (order : heap -> list vid -> list nid).
  Hypothesis Horder : forall h roots n, n ∈ order h roots <-> node_reachable h roots n.
  Context {D : Type} (base : op -> list D -> option (list D)) (cval : nat -> D).
  Notation ev := (evals base cval).

  Lemma build_env (Q : vid -> D -> Prop) (sigma rho : vid -> option D) (pss : dict nat nat) :
    NoDup (dkeys pss) -> (forall u, u ∉ dkeys pss -> sigma u = None) ->
    (forall k w, (k, w) ∈ pss -> exists x, sigma k = Some x /\ Q w x) ->
    exists xs, Forall2 Q pss.*2 xs /\ forall u, given_env rho (dkeys pss) xs u = over sigma rho u.
  Proof.
    intros Hnd Hnone Hkw.
    assert (exists xs, Forall2 Q pss.*2 xs /\ forall u, u ∈ dkeys pss -> given_env rho (dkeys pss) xs u = sigma u)
      as (xs & Hx & Hg).
    { clear Hnone. induction pss as [|[k w] pss IH].
      - exists []. split; [constructor|]. by intros u ?%elem_of_nil.
      - cbn in Hnd. apply NoDup_cons in Hnd as [Hn Hnd].
        destruct (Hkw k w) as (x & Hk & Hq); [by left|].
        destruct IH as (xs & Hx & Hg); [done| |].
        { intros k' w' Hin. apply Hkw. by right. }
        exists (x :: xs). split; [by constructor|]. intros u Hu. cbn.
        case_decide as Hd; [by subst|]. apply Hg. apply elem_of_cons in Hu as [->|?]; done. }
    exists xs. split; [done|]. intros u. unfold over. destruct (decide (u ∈ dkeys pss)) as [Hin|Hin].
    - rewrite Hg by done. apply dget_in in Hin as [w Hw]. apply dget_Some_in in Hw.
      destruct (Hkw _ _ Hw) as (x & -> & _). done.
    - rewrite given_env_notin by done. by rewrite Hnone.
  Qed.

  (** the value of a graph whose nodes have not been touched below the model variables *)
  Lemma cut_transfer h h' V roots (rho : vid -> option D) r x :
    (forall u, u ∈ V -> is_Some (rho u)) -> wf_heap h ->
    (forall r0, r0 ∈ roots -> is_Some (hv h r0)) -> evolves h h' ->
    (forall v n i, cut_reachable h V roots v -> v ∉ V -> owner h v = Some (n, i) -> hn h' n = hn h n) ->
    cut_reachable h V roots r -> ev h rho r x -> ev h' rho r x.
  Proof.
    intros HV Hwf Hr Hev Hn Hcut He.
    assert (Hex : forall v, cut_reachable h V roots v -> is_Some (hv h v)).
    { intros v Hv. induction Hv as [v Hv|v u Hv IH HvV Hu]; [by apply Hr|].
      apply elem_of_list_lookup in Hu as [j Hj]. unfold parents in Hj.
      destruct (owner h v) as [[n i]|] eqn:Ho; [|done]. destruct (hn h n) as [nd|] eqn:Hnn; [|done].
      eapply (wf_ins _ Hwf); [done|]. by eapply elem_of_list_lookup_2. }
    assert (HnV : forall v, rho v = None -> v ∉ V).
    { intros v Hv Hin. apply HV in Hin as [? ?]. congruence. }
    apply (evals_cut base cval (cut_reachable h V roots) h h' rho rho); try done.
    - intros v u Hv Hn0 Hu. by eapply cut_step; eauto.
    - intros v Hv Hn0. destruct (Hex v Hv) as [y Hy]. rewrite Hy. by apply Hev.
    - intros v n i Hv Hn0 Ho. eapply Hn; eauto.
  Qed.

  Lemma finished_sibling h0 st v r n i j :
    inv h0 st -> finished st v -> owner (st_heap st) v = Some (n, i) -> owner (st_heap st) r = Some (n, j) ->
    r ∉ dkeys (st_pss st) -> finished st r.
  Proof.
    intros Hinv (He & Hp & Ha) Hv Hr HrV.
    assert (Hsame : forall u, reachable (st_heap st) [r] u -> u = r \/ reachable (st_heap st) [v] u).
    { intros u (r0 & ->%elem_of_list_singleton & Hru). apply rtc_inv in Hru as [->|(z & Hz & Hzu)]; [by left|right].
      exists v. split; [by apply elem_of_list_singleton|]. apply rtc_l with z; [|done].
      unfold input_of, parents in *. rewrite Hr in Hz. by rewrite Hv. }
    split_and!.
    - unfold owner in Hr. destruct (hv (st_heap st) r); [by eauto|done].
    - intros u m k Hu Ho. apply Hsame in Hu as [->|Hu]; [|by eapply Hp].
      rewrite Hr in Ho. simplify_eq. eapply Hp; [|exact Hv]. exists v. split; [by apply elem_of_list_singleton|done].
    - intros o Ho Hre. apply Hsame in Hre as [->|Hre]; [done|]. by eapply Ha.
  Qed.

  Lemma foldl_upd_get (ups : vid -> option D) l k :
    NoDup l.*1 ->
    foldl (fun s p => upd s p.1 p.2) ups l k =
      match list_find (fun p => p.1 = k) l with Some (_, p) => Some p.2 | None => ups k end.
  Proof.
    revert ups. induction l as [|[a b] l IH]; intros ups Hnd; cbn; [done|].
    apply NoDup_cons in Hnd as [Hni Hnd]. rewrite IH by done. case_decide as Hd.
    - subst k. destruct (list_find _ l) as [[m p]|] eqn:Hf; cbn.
      + apply list_find_Some in Hf as (Hl & Hp & _). exfalso. apply Hni. cbn in Hp. rewrite <- Hp.
        apply elem_of_list_fmap. exists p. split; [done|]. by eapply elem_of_list_lookup_2.
      + unfold upd. by rewrite decide_True.
    - destruct (list_find _ l) as [[m p]|]; cbn; [done|]. unfold upd. by rewrite decide_False.
  Qed.

  Section main.
    Context (h0 : heap) (obs : dict nat nat) (st0 : state) (rho : vid -> option D).
    Let hD := st_heap st0.
    Let V := dkeys (st_pss st0).
    Let fnd := st_found st0.
    Hypothesis Hinv0 : inv h0 st0.
    Hypothesis Hleaf : leaf_env hD rho.
    Context (all : list vid).
    Hypothesis Hloop : in_loop obs st0 all.
    Hypothesis Hsep : forall r1 r2 f g, r1 ∈ all -> r2 ∈ all -> r1 ∉ dkeys obs -> r2 ∉ dkeys obs -> r1 <> r2 ->
      chosen fnd r1 = Some f -> chosen fnd r2 = Some g -> separated hD V f g.
    (* the current values of the variables are not drawn from the samplers' graphs *)
    Hypothesis Hcur : forall rv g w v m j, rv ∈ all -> rv ∉ dkeys obs -> chosen fnd rv = Some g ->
      w ∈ (st_pss st0).*2 -> cut_reachable hD V (roots_of g) v -> v ∉ V -> owner hD v = Some (m, j) ->
      reads_model hD V m -> ~ node_reachable hD [w] m.

    Record scan_inv (l1 : list vid) (st1 : state) (first : nid -> option (vid -> option D))
        (sigma ups : vid -> option D) : Prop := ScanInv {
      si_out : forall u, u ∉ V -> sigma u = None;
      si_val : forall k w, dget (st_pss st1) k = Some w -> exists x, sigma k = Some x /\ ev (st_heap st1) rho w x;
      si_first : forall rv f, rv ∈ l1 -> rv ∉ dkeys obs -> chosen fnd rv = Some f ->
        exists n i tau, owner hD (f_step f) = Some (n, i) /\ first n = Some tau;
      si_tau : forall n tau, first n = Some tau ->
        exists rv f i, rv ∈ l1 /\ rv ∉ dkeys obs /\ chosen fnd rv = Some f /\ owner hD (f_step f) = Some (n, i) /\
          (f_step f ∉ V -> ~ is_subsume hD n -> forall r j x, owner hD r = Some (n, j) -> r ∉ V ->
             ev hD (over tau rho) r x -> ev (st_heap st1) rho r x /\ finished st1 r);
      si_ups : forall k y, ups k = Some y ->
        exists u, dget (st_updates st1) k = Some u /\ finished st1 u /\ ev (st_heap st1) rho u y;
    }.

    Lemma scan_inv_init sigma :
      (forall u, u ∉ V -> sigma u = None) ->
      (forall k w, dget (st_pss st0) k = Some w -> exists x, sigma k = Some x /\ ev hD rho w x) ->
      scan_inv [] st0 (fun _ => None) sigma (fun _ => None).
    Proof. intros H1 H2. constructor; try done. by intros rv f ?%elem_of_nil. Qed.

    Lemma finished_ev st st' w x :
      frame st st' -> finished st w -> ev (st_heap st) rho w x -> ev (st_heap st') rho w x.
    Proof.
      intros Hfr Hw He. destruct (fr_finished _ _ Hfr w Hw) as [Ha _].
      eapply (agree_evals base cval (st_heap st) (st_heap st') rho rho); [exact Ha|done|done].
    Qed.

    Lemma hD_unchanged l1 st1 rv g :
      l1 ⊆ all -> rv ∈ all -> rv ∉ l1 -> rv ∉ dkeys obs -> NoDup l1 ->
      process_all order obs st0 l1 = Ok st1 -> chosen fnd rv = Some g ->
      (forall n i rv' f, owner hD (f_step g) = Some (n, i) -> rv' ∈ l1 -> rv' ∉ dkeys obs -> chosen fnd rv' = Some f ->
         exists m j, owner hD (f_step f) = Some (m, j) /\ m <> n) ->
      (exists n i, owner hD (f_step g) = Some (n, i)) ->
      forall v n i, cut_reachable hD V (roots_of g) v -> v ∉ V -> owner hD v = Some (n, i) ->
        hn (st_heap st1) n = hn hD n.
    Proof.
      intros Hsub Hall Hni Hobs Hnd Hp Hch Hother (n0 & i0 & Hg) v n i Hcut HvV Ho.
      destruct (inv_good _ _ Hinv0) as (Hwf & _).
      destruct (wf_owner _ Hwf _ _ _ Ho) as (nd & Hn & Hi). fold hD in Hn. rewrite Hn.
      set (S := fun u => hv hD u = None \/
        (exists rv' f, rv' ∈ l1 /\ rv' ∉ dkeys obs /\ chosen fnd rv' = Some f /\ reachable hD (roots_of f) u) \/
        (exists w, w ∈ (st_pss st0).*2 /\ reachable hD [w] u)).
      destruct (process_all_closed order Horder h0 obs S l1 st0 st1 Hinv0) as (_ & _ & Hun); try done.
      - split; [done|]. intros rv' Hin. apply Hloop. by apply Hsub.
      - intros v' u Hv' Hu. destruct Hv' as [Hv'|[(rv' & f & H1 & H2 & H3 & H4)|(w & H1 & H2)]].
        + unfold input_of, parents, owner in Hu. unfold hD in Hv'; rewrite Hv' in Hu. cbn in Hu. by apply elem_of_nil in Hu.
        + right. left. exists rv', f. split_and!; try done. destruct H4 as (r & Hr & Hru). exists r. split; [done|].
          by eapply rtc_r.
        + right. right. exists w. split; [done|]. destruct H2 as (r & Hr & Hru). exists r. split; [done|].
          by eapply rtc_r.
      - by left.
      - intros w Hw. right. right. exists w. split; [done|]. exists w. split; [by apply elem_of_list_singleton|done].
      - intros rv' f r Hin Hob Hc Hr. right. left. exists rv', f. split_and!; try done. exists r. done.
      - apply Hun; [done|]. intros Hrm v' i' Ho' [Hv'|[(rv' & f & H1 & H2 & H3 & H4)|(w & H1 & H2)]].
        + unfold owner in Ho'. fold hD in Ho'. rewrite Hv' in Ho'. done.
        + destruct (Hother n0 i0 rv' f Hg H1 H2 H3) as (m & j & Hm & Hne).
          destruct (Hsep rv' rv f g (Hsub _ H1) Hall H2 Hobs) with (n := m) (i := j) as [_ Hs]; try done.
          { by intros ->. }
          apply (Hs) with (v := v) (m := n) (j := i); try done.
          * intros j' Hj'. rewrite Hg in Hj'. congruence.
          * by exists v', i'.
        + eapply (Hcur rv g w v n i); try done. by exists v', i'.
    Qed.

    Lemma scan_loop l : forall l1 first sigma ups sigma' ups' st1 st2,
      scan base cval hD rho obs fnd l first sigma ups sigma' ups' ->
      all = l1 ++ l -> process_all order obs st0 l1 = Ok st1 -> process_all order obs st1 l = Ok st2 ->
      scan_inv l1 st1 first sigma ups ->
      exists first', scan_inv all st2 first' sigma' ups'.
    Proof.
      induction l as [|rv l IH]; intros l1 first sigma ups sigma' ups' st1 st2 Hscan Hall Hp1 Hp2 Hsi.
      { inversion Hscan; subst. cbn in Hp2. simplify_eq. rewrite app_nil_r. by eexists. }
      cbn in Hp2. destruct (process_rv order obs st1 rv) as [st1'|] eqn:Hrv; [|done]. cbn in Hp2.
      pose proof Hloop as [Hnd Hkeys].
      rewrite Hall in Hnd. apply NoDup_app in Hnd as (Hnd1 & Hdisj & Hnd2).
      apply NoDup_cons in Hnd2 as [Hrvl Hndl].
      assert (Hrv1 : rv ∉ l1). { intros Hin. apply (Hdisj rv Hin). by left. }
      assert (Hrvall : rv ∈ all). { rewrite Hall. apply elem_of_app. right. by left. }
      assert (Hsub1 : l1 ⊆ all). { rewrite Hall. intros z Hz. apply elem_of_app. by left. }
      destruct (process_all_spec order Horder h0 obs l1 st0 st1 Hinv0) as (Hinv1 & Hfr1 & Hch1 & Hg1); [|done|].
      { split; [done|]. intros z Hz. apply Hkeys. by apply Hsub1. }
      assert (Hin1 : rv ∉ dkeys obs -> rv ∈ dkeys (st_pss st1)).
      { intros Hob. rewrite (fr_keys _ _ Hfr1). by apply Hkeys. }
      destruct (process_rv_spec order Horder h0 obs st1 rv st1' Hinv1 Hin1 Hrv) as (Hinv1' & Hfr1' & _ & _).
      assert (Hp1' : process_all order obs st0 (l1 ++ [rv]) = Ok st1').
      { apply process_all_app. exists st1. split; [done|]. cbn. by rewrite Hrv. }
      assert (Hw : exists z, z = (l1 ++ [rv]) ++ l /\ z = all).
      { exists all. split; [by rewrite <- app_assoc|done]. }
      clear Hall.
      assert (HkeysV : dkeys (st_pss st1) = V) by apply (fr_keys _ _ Hfr1).
      assert (Hchrv : chosen (st_found st1) rv = chosen fnd rv) by (by apply Hch1).
      inversion Hscan as [|rv0 l0 fi s u s' u' Hskip Hrest|rv0 l0 fi s u s' u' f n i x ys tau Hob Hch Hown Htau Hx Hys Hrest]; subst; destruct Hw as (z & Hz & Hza);
        assert (Hall' : all = (l1 ++ [rv]) ++ l) by congruence; clear z Hz Hza.
      - (* skipped *)
        apply (IH (l1 ++ [rv]) first sigma ups sigma' ups' st1' st2); try done.
        assert (Hsame : st_heap st1' = st_heap st1 /\ st_pss st1' = st_pss st1 /\ st_updates st1' = st_updates st1).
        { apply process_rv_cases in Hrv as [[_ ->]|[(_ & _ & ->)|(Ho & fs & f & _ & _ & Hc & _)]]; [done|done|].
          rewrite Hchrv in Hc. destruct Hskip; [done|congruence]. }
        destruct Hsame as (E1 & E2 & E3). destruct Hsi as [A1 A2 A3 A4 A5].
        assert (Hfin : forall r, finished st1 r -> finished st1' r).
        { intros r Hr. by apply (fr_finished _ _ Hfr1'). }
        constructor; rewrite ?E1, ?E2, ?E3; try done.
        + intros rv' f Hin Hob Hc. apply elem_of_app in Hin as [Hin| ->%elem_of_list_singleton]; [by apply (A3 rv')|].
          destruct Hskip; [done|congruence].
        + intros n tau Hf. destruct (A4 n tau Hf) as (rv' & f & i & B1 & B2 & B3 & B4 & B5).
          exists rv', f, i. split_and!; try done; [apply elem_of_app; by left|].
          intros C1 C2 r j x Hr HrV Hev. destruct (B5 C1 C2 r j x Hr HrV Hev). split; [done|by apply Hfin].
        + intros k y Hk. destruct (A5 k y Hk) as (u & ? & ? & ?). exists u. split_and!; [done|by apply Hfin|done].
      - (* sampled *)
        apply process_rv_cases in Hrv as [[Hc _]|[(_ & Hc & _)|(_ & fs & f' & Hd & Hlast & Hc & Hps)]];
          [done|congruence|].
        rewrite Hchrv, Hch in Hc. injection Hc as <-.
        destruct (process_step_spec order Horder h0 st1 rv (removelast fs) f st1' Hinv1 (Hin1 Hob)) as
          (step & us & H1 & H2 & H3 & H4 & H4' & H5 & H6 & H7 & H8 & H9 & H10 & H11 & H12 & H13 & H14 & H15); [|done|].
        { exists rv, fs. split_and!; [done|by apply last_elem|]. intros z. apply removelast_elem. }
        assert (Hfound0 : exists fs0, dget fnd rv = Some fs0 /\ f ∈ fs0).
        { unfold chosen in Hch. destruct (dget fnd rv) as [fs0|] eqn:Hfs0; [|done]. exists fs0. split; [done|].
          by apply last_elem. }
        destruct Hfound0 as (fs0 & Hfs0 & Hffs0).
        destruct (inv_found _ _ Hinv0 _ _ _ Hfs0 Hffs0) as (Hroots0 & HndK & HK). fold hD in Hroots0.
        assert (Hwf : wf_heap hD) by apply (inv_good _ _ Hinv0).
        assert (Hevo : evolves hD (st_heap st1)) by apply (fr_evolves _ _ Hfr1).
        assert (Hroot_in : forall r, r ∈ f_step f :: dvalues (f_updates f) -> r ∈ roots_of f).
        { intros r [->|Hr]%elem_of_cons; [by left|right]. apply elem_of_app. by right. }
        assert (Hown_st1 : forall r, is_Some (hv hD r) -> owner (st_heap st1) r = owner hD r).
        { intros r Hr. by apply evolves_owner. }
        assert (Hown_some : forall r p, owner hD r = Some p -> is_Some (hv hD r)).
        { intros r p. unfold owner. destruct (hv hD r); [by eauto|done]. }
        destruct (decide (first n = None)) as [Hfirst|Hfirst].
        + (* a kernel application not met before *)
          rewrite Hfirst in *. cbn in Hx, Hys, Hrest.
          destruct (build_env (ev (st_heap st1) rho) sigma rho (st_pss st1)) as (xs & Hxs & Henv).
          { apply (inv_nodup _ _ Hinv1). }
          { intros u Hu. apply (si_out _ _ _ _ _ Hsi). by rewrite <- HkeysV. }
          { intros k w Hkw. apply (si_val _ _ _ _ _ Hsi). apply dget_of_in; [apply (inv_nodup _ _ Hinv1)|done]. }
          destruct (H13 D base cval rho xs) as (V1 & V2 & V3); [by eapply leaf_env_evolves|done|].
          assert (Hun : forall v m j, cut_reachable hD V (roots_of f) v -> v ∉ V -> owner hD v = Some (m, j) ->
             hn (st_heap st1) m = hn hD m).
          { apply (hD_unchanged l1 st1 rv f); try done; [|by eauto].
            intros n' i' rv' g Hg Hrv' Hob' Hc'. rewrite Hown in Hg. simplify_eq.
            destruct (si_first _ _ _ _ _ Hsi rv' g Hrv' Hob' Hc') as (m & j & tau & Hm & Hft).
            exists m, j. split; [done|]. intros ->. congruence. }
          assert (HVsome : forall u, u ∈ V -> is_Some (over sigma rho u)).
          { intros u Hu. rewrite <- HkeysV in Hu. apply dget_in in Hu as [w Hw].
            destruct (si_val _ _ _ _ _ Hsi _ _ Hw) as (y & Hy & _). unfold over. rewrite Hy. by eauto. }
          assert (Htrans : forall r y, cut_reachable hD V (roots_of f) r -> ev hD (over sigma rho) r y ->
             ev (st_heap st1) (given_env rho (dkeys (st_pss st1)) xs) r y).
          { intros r y Hr He. apply (evals_env base cval (st_heap st1) (over sigma rho)); [done|].
            by apply (cut_transfer hD (st_heap st1) V (roots_of f)). }
          apply (IH (l1 ++ [rv]) (upd first n sigma) (upd sigma rv x)
             (foldl (fun s p => upd s p.1 p.2) ups (zip (dkeys (f_updates f)) ys)) sigma' ups' st1' st2); try done.
          constructor.
          * intros u Hu. unfold upd. rewrite decide_False; [by apply (si_out _ _ _ _ _ Hsi)|].
            intros ->. apply Hu. rewrite <- HkeysV. by apply Hin1.
          * intros k w Hkw. rewrite H1, dget_dset in Hkw. unfold upd. case_decide as Hk.
            -- injection Hkw as <-. exists x. split; [done|]. apply V1. apply Htrans; [|done].
               apply cut_root. apply Hroot_in. by left.
            -- destruct (si_val _ _ _ _ _ Hsi _ _ Hkw) as (y & Hy & Hev). exists y. split; [done|].
               apply (finished_ev st1 st1'); [done| |done]. apply (inv_finished h0); [done|].
               apply dget_Some_in in Hkw. apply elem_of_list_fmap. by exists (k, w).
          * intros rv' g Hin Hob' Hc'. apply elem_of_app in Hin as [Hin| ->%elem_of_list_singleton].
            -- destruct (si_first _ _ _ _ _ Hsi rv' g Hin Hob' Hc') as (m & j & tau & Hm & Hft).
               exists m, j. unfold upd. case_decide; eauto.
            -- rewrite Hch in Hc'. injection Hc' as <-. exists n, i, sigma. split; [done|]. unfold upd. by rewrite decide_True.
          * intros m tau Hm. unfold upd in Hm. case_decide as Hmn.
            -- injection Hm as <-. subst m. exists rv, f, i. split_and!; try done.
               { apply elem_of_app. right. by apply elem_of_list_singleton. }
               intros HfV Hns r j y Hr HrV Hev.
               assert (Hown1 : owner (st_heap st1) (f_step f) = Some (n, i)) by (rewrite Hown_st1; eauto).
               assert (Hown1r : owner (st_heap st1) r = Some (n, j)) by (rewrite Hown_st1; eauto).
               assert (Hns1 : ~ is_subsume (st_heap st1) n) by (by rewrite (fr_subsume _ _ Hfr1)).
               split.
               ++ apply (V3 r n i j y); try done; [by rewrite HkeysV|by rewrite HkeysV|].
                  apply (evals_env base cval (st_heap st1) (over sigma rho)); [done|].
                  assert (Hf : cut_reachable hD V (roots_of f) (f_step f)).
                  { apply cut_root. apply Hroot_in. by left. }
                  inversion Hev as [r' y' Hg|r' w c Hg Hw Ho' Hk|r' n' i' nd zs rs y' Hg Ho' Hn' Hl Hs Hi']; subst.
                  ** by apply ev_given.
                  ** exfalso. unfold owner in Hr. rewrite Hw in Hr. cbn in Hr. congruence.
                  ** rewrite Hr in Ho'. injection Ho' as <- <-.
                     eapply (ev_app _ _ _ _ _ n j nd zs rs); try done.
                     { rewrite (Hun (f_step f) n i); done. }
                     clear Hs. assert (Hcl : forall u, u ∈ n_ins nd -> cut_reachable hD V (roots_of f) u).
                     { intros u Hu. eapply cut_step; [exact Hf|done|]. unfold input_of, parents. by rewrite Hown, Hn'. }
                     clear Hn'. induction Hl; [constructor|]. constructor.
                     --- apply (cut_transfer hD (st_heap st1) V (roots_of f)); try done. apply Hcl. by left.
                     --- apply IHHl. intros. apply Hcl. by right.
               ++ assert (Hstep : step = f_step f).
                  { apply H14; [by rewrite HkeysV|]. intros n' j' Ho'. rewrite Hown1 in Ho'. by simplify_eq. }
                  apply (finished_sibling h0 st1' step r n i j); try done.
                  { rewrite (evolves_owner (st_heap st1)); [by rewrite Hstep|done|]. rewrite Hstep.
                    unfold owner in Hown1. destruct (hv (st_heap st1) (f_step f)); [by eauto|done]. }
                  { rewrite (evolves_owner (st_heap st1)); [done|done|].
                    unfold owner in Hown1r. destruct (hv (st_heap st1) r); [by eauto|done]. }
                  { by rewrite (fr_keys _ _ Hfr1'), HkeysV. }
            -- destruct (si_tau _ _ _ _ _ Hsi m tau Hm) as (rv' & g & i' & B1 & B2 & B3 & B4 & B5).
               exists rv', g, i'. split_and!; try done; [apply elem_of_app; by left|].
               intros C1 C2 r j y Hr HrV Hev. destruct (B5 C1 C2 r j y Hr HrV Hev) as [B6 B7].
               split; [by apply (finished_ev st1 st1')|]. by apply (fr_finished _ _ Hfr1').
          * intros k y Hk. pose proof (Forall2_length _ _ _ Hys) as Hylen.
            assert (HlenK : length (dkeys (f_updates f)) = length (dvalues (f_updates f))).
            { unfold dkeys, dvalues. by rewrite !map_length. }
            rewrite foldl_upd_get in Hk by (rewrite fst_zip by lia; done).
            destruct (list_find _ (zip (dkeys (f_updates f)) ys)) as [[a [k' y']]|] eqn:Hf.
            -- apply list_find_Some in Hf as (Hl & Hk' & _). cbn in Hk, Hk'. simplify_eq.
               rewrite lookup_zip_with in Hl. destruct (dkeys (f_updates f) !! a) as [k'|] eqn:HKa; [|done].
               cbn in Hl. destruct (ys !! a) as [y'|] eqn:Hya; [|done]. cbn in Hl. simplify_eq.
               destruct (Forall2_lookup_r _ _ _ _ _ Hys Hya) as (u & Hua & Hevu).
               assert (is_Some (us !! a)) as [u' Hu'].
               { apply lookup_lt_is_Some. rewrite H4'. apply lookup_lt_Some in HKa. done. }
               exists u'. split_and!.
               ++ rewrite H4. apply dget_dupdate_nodup.
                  { change (map fst (zip (dkeys (f_updates f)) us)) with ((zip (dkeys (f_updates f)) us).*1).
                    rewrite fst_zip by lia. done. }
                  apply elem_of_list_lookup. exists a. rewrite lookup_zip_with, HKa. cbn. by rewrite Hu'.
               ++ apply H11. by eapply elem_of_list_lookup_2.
               ++ eapply V2; [done|done|]. apply Htrans; [|done]. apply cut_root. apply Hroot_in. right.
                  by eapply elem_of_list_lookup_2.
            -- destruct (si_ups _ _ _ _ _ Hsi k y Hk) as (u & Hu & Hfu & Heu). exists u. split_and!.
               ++ rewrite H4, dget_dupdate_notin; [done|].
                  change (map fst (zip (dkeys (f_updates f)) us)) with ((zip (dkeys (f_updates f)) us).*1).
                  rewrite fst_zip by lia. intros Hin. apply list_find_None in Hf.
                  assert (Hin' : k ∈ (zip (dkeys (f_updates f)) ys).*1) by (rewrite fst_zip by lia; done).
                  apply elem_of_list_fmap in Hin' as (p & Hpk & Hpin).
                  rewrite Forall_forall in Hf. by apply (Hf p).
               ++ by apply (fr_finished _ _ Hfr1').
               ++ by apply (finished_ev st1 st1').
        + (* an output of a kernel application that has been met *)
          destruct (first n) as [tau|] eqn:Hfn; [clear Hfirst|done]. cbn in Hx, Hys, Hrest.
          destruct (si_tau _ _ _ _ _ Hsi n tau Hfn) as (rv' & g & i' & B1 & B2 & B3 & B4 & B5).
          destruct (Hsep rv' rv g f (Hsub1 _ B1) Hrvall B2 Hob) with (n := n) (i := i') as [Hj _]; try done.
          { by intros ->. }
          destruct Hj as [Hns Hjr]; [by eauto|].
          destruct (Hjr (f_step g)) as [HgV _]; [by left|].
          assert (Hval : forall r y, r ∈ f_step f :: dvalues (f_updates f) -> ev hD (over tau rho) r y ->
             ev (st_heap st1) rho r y /\ finished st1 r).
          { intros r y Hr He. destruct (Hjr r) as [HrV (j & Hrj)]; [by right|]. by apply (B5 HgV Hns r j y). }
          destruct (Hjr (f_step f)) as [HfV _]; [right; by left|].
          assert (Hkeep : forall r, r ∈ f_step f :: dvalues (f_updates f) -> r ∉ dkeys (st_pss st1) /\
              forall m j, owner (st_heap st1) r = Some (m, j) -> ~ is_subsume (st_heap st1) m).
          { intros r Hr. destruct (Hjr r) as [HrV (j & Hrj)]; [by right|]. split; [by rewrite HkeysV|].
            intros m j' Ho'. rewrite Hown_st1 in Ho' by eauto. rewrite Hrj in Ho'. simplify_eq.
            by rewrite (fr_subsume _ _ Hfr1). }
          assert (Hstep : step = f_step f). { destruct (Hkeep (f_step f)) as [K1 K2]; [by left|]. by apply H14. }
          assert (Hus : us = dvalues (f_updates f)).
          { apply list_eq. intros a. destruct (dvalues (f_updates f) !! a) as [u|] eqn:Hua.
            - destruct (Hkeep u) as [K1 K2]; [right; by eapply elem_of_list_lookup_2|]. by eapply H15.
            - apply lookup_ge_None. apply lookup_ge_None in Hua. rewrite H4'.
              unfold dkeys. unfold dvalues in Hua. rewrite map_length in *. done. }
          apply (IH (l1 ++ [rv]) (upd first n tau) (upd sigma rv x)
             (foldl (fun s p => upd s p.1 p.2) ups (zip (dkeys (f_updates f)) ys)) sigma' ups' st1' st2); try done.
          constructor.
          * intros u Hu. unfold upd. rewrite decide_False; [by apply (si_out _ _ _ _ _ Hsi)|].
            intros ->. apply Hu. rewrite <- HkeysV. by apply Hin1.
          * intros k w Hkw. rewrite H1, dget_dset in Hkw. unfold upd. case_decide as Hk.
            -- injection Hkw as <-. exists x. split; [done|].
               destruct (Hval (f_step f) x) as [E1 E2]; [by left|done|]. rewrite Hstep. by apply (finished_ev st1 st1').
            -- destruct (si_val _ _ _ _ _ Hsi _ _ Hkw) as (y & Hy & Hev). exists y. split; [done|].
               apply (finished_ev st1 st1'); [done| |done]. apply (inv_finished h0); [done|].
               apply dget_Some_in in Hkw. apply elem_of_list_fmap. by exists (k, w).
          * intros r2 g2 Hin Hob' Hc'. apply elem_of_app in Hin as [Hin| ->%elem_of_list_singleton].
            -- destruct (si_first _ _ _ _ _ Hsi r2 g2 Hin Hob' Hc') as (m & j & tau' & Hm & Hft).
               exists m, j. unfold upd. case_decide; eauto.
            -- rewrite Hch in Hc'. injection Hc' as <-. exists n, i, tau. split; [done|]. unfold upd. by rewrite decide_True.
          * intros m tau' Hm. unfold upd in Hm.
            assert (Hm' : first m = Some tau') by (case_decide; [subst m; congruence|done]). clear Hm.
            destruct (si_tau _ _ _ _ _ Hsi m tau' Hm') as (r3 & g3 & i3 & C1 & C2 & C3 & C4 & C5).
            exists r3, g3, i3. split_and!; try done; [apply elem_of_app; by left|].
            intros E1 E2 r j y Hr HrV Hev. destruct (C5 E1 E2 r j y Hr HrV Hev) as [C6 C7].
            split; [by apply (finished_ev st1 st1')|]. by apply (fr_finished _ _ Hfr1').
          * intros k y Hk. pose proof (Forall2_length _ _ _ Hys) as Hylen.
            assert (HlenK : length (dkeys (f_updates f)) = length (dvalues (f_updates f))).
            { unfold dkeys, dvalues. by rewrite !map_length. }
            rewrite foldl_upd_get in Hk by (rewrite fst_zip by lia; done).
            destruct (list_find _ (zip (dkeys (f_updates f)) ys)) as [[a [k' y']]|] eqn:Hf.
            -- apply list_find_Some in Hf as (Hl & Hk' & _). cbn in Hk, Hk'. simplify_eq.
               rewrite lookup_zip_with in Hl. destruct (dkeys (f_updates f) !! a) as [k'|] eqn:HKa; [|done].
               cbn in Hl. destruct (ys !! a) as [y'|] eqn:Hya; [|done]. cbn in Hl. simplify_eq.
               destruct (Forall2_lookup_r _ _ _ _ _ Hys Hya) as (u & Hua & Hevu).
               assert (Huin : u ∈ dvalues (f_updates f)) by (by eapply elem_of_list_lookup_2).
               destruct (Hval u y) as [E1 E2]; [by right|done|].
               exists u. split_and!.
               ++ rewrite H4. apply dget_dupdate_nodup.
                  { change (map fst (zip (dkeys (f_updates f)) (dvalues (f_updates f))))
                      with ((zip (dkeys (f_updates f)) (dvalues (f_updates f))).*1).
                    rewrite fst_zip by lia. done. }
                  apply elem_of_list_lookup. exists a. rewrite lookup_zip_with, HKa. cbn. by rewrite Hua.
               ++ by apply (fr_finished _ _ Hfr1').
               ++ by apply (finished_ev st1 st1').
            -- destruct (si_ups _ _ _ _ _ Hsi k y Hk) as (u & Hu & Hfu & Heu). exists u. split_and!.
               ++ rewrite H4, dget_dupdate_notin; [done|].
                  change (map fst (zip (dkeys (f_updates f)) us)) with ((zip (dkeys (f_updates f)) us).*1).
                  rewrite fst_zip by lia. intros Hin. apply list_find_None in Hf.
                  assert (Hin' : k ∈ (zip (dkeys (f_updates f)) ys).*1) by (rewrite fst_zip by lia; done).
                  apply elem_of_list_fmap in Hin' as (p & Hpk & Hpin).
                  rewrite Forall_forall in Hf. by apply (Hf p).
               ++ by apply (fr_finished _ _ Hfr1').
               ++ by apply (finished_ev st1 st1').
    Qed.
  End main.
End scan_lemmas.
