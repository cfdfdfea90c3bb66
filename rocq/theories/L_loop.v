(** replace_all and expand_subsumptions as wholes. *)
From Verif Require Export L_inline.

(** variables are kept, nodes keep their op, outputs and number of inputs *)
Definition evolves (h h' : heap) : Prop :=
  (forall v x, hv h v = Some x -> hv h' v = Some x) /\
  (forall n nd, hn h n = Some nd -> exists nd', hn h' n = Some nd' /\ n_op nd' = n_op nd /\
      n_outs nd' = n_outs nd /\ length (n_ins nd') = length (n_ins nd)).

Lemma evolves_refl h : evolves h h.
Proof. split; [done|]. intros n nd Hn. exists nd. done. Qed.
Lemma evolves_trans h1 h2 h3 : evolves h1 h2 -> evolves h2 h3 -> evolves h1 h3.
Proof.
  intros [A1 A2] [B1 B2]. split; [auto|]. intros n nd Hn.
  destruct (A2 _ _ Hn) as (nd1 & H1 & Ho1 & Hu1 & Hl1).
  destruct (B2 _ _ H1) as (nd2 & H2 & Ho2 & Hu2 & Hl2). exists nd2. split_and!; congruence.
Qed.
Lemma extends_evolves h h' : extends h h' -> evolves h h'.
Proof. intros [A B]. split; [done|]. intros n nd Hn. exists nd. split_and!; auto. Qed.
Lemma replace_evolves h roots o w : evolves h (replace h roots o w).1.
Proof.
  split; [done|]. intros n nd Hn. unfold replace. cbn [fst]. rewrite hn_map_nodes, Hn. cbn.
  eexists. split; [done|]. case_decide; cbn; by rewrite ?fmap_length.
Qed.
Lemma evolves_some h h' v : evolves h h' -> is_Some (hv h v) -> is_Some (hv h' v).
Proof. intros [Hv _] [x Hx]. eauto. Qed.
Lemma evolves_owner h h' v : evolves h h' -> is_Some (hv h v) -> owner h' v = owner h v.
Proof. intros [Hv _] [x Hx]. unfold owner. by rewrite Hx, (Hv _ _ Hx). Qed.
Lemma evolves_ty h h' v : evolves h h' -> is_Some (hv h v) -> ty_of h' v = ty_of h v.
Proof. intros [Hv _] [x Hx]. unfold ty_of. by rewrite Hx, (Hv _ _ Hx). Qed.

Lemma replace_subsume_ok h roots o w : subsume_ok h -> subsume_ok (replace h roots o w).1.
Proof.
  intros Hok n nd s args Hn Hop.
  destruct (replace_n_op _ _ _ _ _ _ Hn) as (nd0 & Hn0 & Ho & Hu & Hl).
  rewrite Hu, Hl. apply (Hok n nd0 s args); [done|]. by rewrite <- Ho.
Qed.
Lemma replace_is_subsume h roots o w n : is_subsume (replace h roots o w).1 n <-> is_subsume h n.
Proof.
  split; intros (nd & s & args & Hn & Hop).
  - destruct (replace_n_op _ _ _ _ _ _ Hn) as (nd0 & Hn0 & Ho & _). exists nd0, s, args. split; [done|congruence].
  - destruct (replace_evolves h roots o w) as [_ H]. destruct (H _ _ Hn) as (nd' & Hn' & Ho & _).
    exists nd', s, args. split; [done|congruence].
Qed.

Lemma agree_trans x h h1 h2 :
  agree_on (reachable h [x]) h h1 -> agree_on (reachable h1 [x]) h1 h2 ->
  agree_on (reachable h [x]) h h2.
Proof.
  intros H1 H2. pose proof (agree_reachable h h1 x H1) as Hr.
  destruct H1 as [A1 A2], H2 as [B1 B2]. split.
  - intros v Hv. rewrite B1 by by apply Hr. auto.
  - intros v n i Hv Ho. rewrite (B2 v n i).
    + by eapply A2.
    + by apply Hr.
    + unfold owner. by rewrite A1.
Qed.

Lemma agree_evals {D} (base : op -> list D -> option (list D)) cval h h' (rho rho' : vid -> option D) x y :
  agree_on (reachable h [x]) h h' -> (forall v, reachable h [x] v -> rho' v = rho v) ->
  evals base cval h rho x y -> evals base cval h' rho' x y.
Proof.
  intros Ha Hr He. eapply (evals_agree base cval (reachable h [x]) h h' rho rho'); try done.
  - intros. by eapply reachable_step.
  - apply reachable_root. by left.
Qed.

(** the environment in which the listed variables have the listed values *)
Fixpoint given_env {D} (rho : vid -> option D) (vs : list vid) (xs : list D) (u : vid) : option D :=
  match vs, xs with
  | v :: vs', x :: xs' => if decide (u = v) then Some x else given_env rho vs' xs' u
  | _, _ => rho u
  end.

Lemma given_env_notin {D} (rho : vid -> option D) vs xs u : u ∉ vs -> given_env rho vs xs u = rho u.
Proof.
  revert xs. induction vs as [|v vs IH]; intros xs Hu; [done|]. destruct xs as [|x xs]; [done|].
  apply not_elem_of_cons in Hu as [Hne Hu]. cbn. rewrite decide_False by done. auto.
Qed.

Section replace_all.
  Implicit Types (h : heap) (pairs : list (vid * vid)).

  Definition avoiding h pairs : Prop :=
    forall o w, o ∈ pairs.*1 -> w ∈ pairs.*2 -> ~ reachable h [w] o.

  Lemma replace_all_spec pairs : forall h roots h' roots',
    replace_all h roots pairs = Ok (h', roots') ->
    good_heap h -> (forall r, r ∈ roots -> is_Some (hv h r)) ->
    (forall w, w ∈ pairs.*2 -> is_Some (hv h w)) -> avoiding h pairs ->
    good_heap h' /\ evolves h h' /\ (forall v, hv h' v = hv h v) /\
    (forall r, r ∈ roots' -> is_Some (hv h' r)) /\ length roots' = length roots /\
    (forall n, is_subsume h' n <-> is_subsume h n) /\
    (forall u, reachable h' roots' u ->
        u ∉ pairs.*1 /\ (reachable h roots u \/ exists w, w ∈ pairs.*2 /\ reachable h [w] u)) /\
    (forall x, (forall o, o ∈ pairs.*1 -> ~ reachable h [x] o) -> agree_on (reachable h [x]) h h') /\
    (forall n nd, hn h n = Some nd -> (forall o, o ∈ pairs.*1 -> o ∉ n_ins nd) -> hn h' n = Some nd) /\
    (forall n, ~ node_reachable h roots n -> hn h' n = hn h n) /\
    (forall i r, roots !! i = Some r -> r ∉ pairs.*1 -> roots' !! i = Some r) /\
    (forall D (base : op -> list D -> option (list D)) cval rho xs,
       Forall2 (evals base cval h rho) pairs.*2 xs ->
       forall i r r' x, roots !! i = Some r -> roots' !! i = Some r' ->
       evals base cval h (given_env rho pairs.*1 xs) r x -> evals base cval h' rho r' x) /\
    (forall D (base : op -> list D -> option (list D)) cval rho xs,
       Forall2 (evals base cval h rho) pairs.*2 xs ->
       forall r0 r n i j x, r0 ∈ roots -> r0 ∉ pairs.*1 -> owner h r0 = Some (n, i) ->
       owner h r = Some (n, j) -> r ∉ pairs.*1 ->
       evals base cval h (given_env rho pairs.*1 xs) r x -> evals base cval h' rho r x).
  Proof.
    induction pairs as [|[o w] pairs IH]; intros h roots h' roots' Hr Hgood Hroots Hws Hav.
    { cbn in Hr. injection Hr as <- <-. split_and!; try done.
      - apply evolves_refl.
      - intros u Hu. split; [by intros ?%elem_of_nil|by left].
      - intros D base cval rho xs _ i r r' x Hi Hi' He. assert (r = r') as -> by congruence. exact He. }
    cbn [replace_all] in Hr. unfold replace_checked in Hr.
    destruct (decide (ty_of h o = ty_of h w)) as [Hty|]; [|done].
    cbn [fmap list_fmap] in *. cbn [fst snd] in *.
    assert (Hwo : ~ reachable h [w] o) by (apply Hav; left).
    assert (Hwsome : is_Some (hv h w)) by (apply Hws; left).
    assert (Hav' : avoiding h pairs) by (intros ? ? ? ?; apply Hav; by right).
    destruct (decide (o ∈ reach_set h roots)) as [Ho|Ho]; cbn [rbind] in Hr.
    - (* the variable is in the graph *)
      destruct (replace h roots o w) as [h1 roots1] eqn:Hre.
      destruct Hgood as (Hwf & Hac & Hok).
      pose proof (replace_wf h roots o w Hwf Hwsome) as Hwf1.
      pose proof (replace_acyclic h roots o w Hwo Hac) as Hac1.
      pose proof (replace_subsume_ok h roots o w Hok) as Hok1.
      pose proof (replace_evolves h roots o w) as Hev1.
      pose proof (replace_roots_some h roots o w Hwsome Hroots) as Hroots1.
      pose proof (replace_is_subsume h roots o w) as Hsub1.
      pose proof (fun u => replace_reachable h roots o w u Hwo) as Hreach1.
      pose proof (replace_agree h roots o w) as Hagree1.
      pose proof (replace_hn_id h roots o w) as Hid1.
      pose proof (replace_hn_out h roots o w) as Hout1.
      pose proof (replace_reachable_avoid h roots o w) as Hra1.
      pose proof (@replace_evals_r h roots o w) as Hevals1.
      assert (Hhv1 : forall v, hv h1 v = hv h v) by (intros v; by injection Hre as <- _).
      assert (Hroots1eq : roots1 = subst1 o w <$> roots) by (by injection Hre as _ <-).
      rewrite Hre in *. cbn [fst snd] in *.
      assert (Hfr : forall w', w' ∈ pairs.*2 -> forall u, reachable h1 [w'] u <-> reachable h [w'] u).
      { intros w' Hw'. apply Hra1. apply Hav; [left|by right]. }
      destruct (IH _ _ _ _ Hr) as (Hg2 & Hev2 & Hhv2 & Hr2 & Hl2 & Hs2 & Hreach2 & Hag2 & Hid2 & Hout2 & Hrt2 & He2 & Hsi2).
      { done. }
      { done. }
      { intros w' Hw'. eapply evolves_some; [done|]. apply Hws. by right. }
      { intros o' w' Ho' Hw'. rewrite (Hfr w' Hw'). by apply Hav'. }
      assert (Houtstep : forall n, ~ node_reachable h roots n -> hn h' n = hn h n).
      { intros n Hn. destruct (hn h n) as [nd|] eqn:Hnd.
        - assert (Hn1 : hn h1 n = Some nd) by (by rewrite Hout1).
          destruct (decide (n ∈ fg_nodes h1 roots1)) as [Hin|Hin].
          + apply elem_of_fg_nodes in Hin as (v & i & Hv & Hown).
            destruct (Hreach1 v Hv) as [[Hv1 _]|Hv1].
            * exfalso. apply Hn. exists v, i. split; [done|].
              unfold owner in *. by rewrite Hhv1 in Hown.
            * apply Hid2; [done|]. intros o' Ho' Hin'.
              apply (Hav o' w); [by right|left|]. eapply reachable_step; [exact Hv1|].
              unfold input_of, parents. unfold owner in Hown. rewrite Hhv1 in Hown.
              unfold owner. rewrite Hown. by rewrite Hnd.
          + rewrite Hout2; [done|]. by rewrite <- elem_of_fg_nodes.
        - rewrite Hout2; [by rewrite Hout1|]. intros (v & i & Hv & Hown).
          destruct (wf_owner h1 Hwf1 _ _ _ Hown) as (nd & Hnd1 & _).
          rewrite Hout1 in Hnd1 by done. congruence. }
      assert (Hval1 : forall D (base : op -> list D -> option (list D)) cval rho xs',
        Forall2 (evals base cval h rho) pairs.*2 xs' -> Forall2 (evals base cval h1 rho) pairs.*2 xs').
      { intros D base cval rho xs' Hxs'.
        eapply Forall2_impl with (P := fun w' y => evals base cval h rho w' y /\ w' ∈ pairs.*2).
        - apply Forall2_same_length_lookup_2; [by eapply Forall2_length|].
          intros j w' y Hj Hy. split; [by eapply Forall2_lookup_lr|by eapply elem_of_list_lookup_2].
        - cbn. intros w' y [Hy Hw']. eapply agree_evals; [|done|exact Hy].
          apply Hagree1. apply Hav; [left|by right]. }
      assert (Hone : forall D (base : op -> list D -> option (list D)) cval rho xw xs' r x,
        Forall2 (evals base cval h rho) pairs.*2 xs' -> evals base cval h rho w xw ->
        evals base cval h (given_env rho (o :: pairs.*1) (xw :: xs')) r x -> in_graph h roots r ->
        evals base cval h1 (given_env rho pairs.*1 xs') (subst1 o w r) x).
      { intros D base cval rho xw xs' r x Hxs' Hxw He Hrr. cbn [given_env] in He.
        apply (proj1 (Hevals1 D base cval (given_env rho pairs.*1 xs') xw
            ltac:(eapply agree_evals; [by apply Hagree1| |exact Hxw];
                  intros v Hv; apply given_env_notin; intros Hin; apply (Hav v w); [by right|left|done])) r x He Hrr). }
      split_and!.
      + done.
      + by eapply evolves_trans.
      + intros v. by rewrite Hhv2.
      + done.
      + rewrite Hl2, Hroots1eq. by rewrite fmap_length.
      + intros n. rewrite Hs2. apply Hsub1.
      + intros u Hu. destruct (Hreach2 u Hu) as [Hu1 Hu2].
        destruct Hu2 as [Hu2|(w' & Hw' & Hu2)].
        * destruct (Hreach1 u Hu2) as [[Hu3 Hne]|Hu3].
          -- split; [by apply not_elem_of_cons|by left].
          -- split; [|right; exists w; split; [by left|done]].
             apply not_elem_of_cons. split; [|done]. intros ->. done.
        * rewrite (Hfr w' Hw') in Hu2. split; [|right; exists w'; split; [by right|done]].
          apply not_elem_of_cons. split; [|done]. intros ->. by apply (Hav o w'); [left|right|].
      + intros x Hx. eapply agree_trans; [apply Hagree1; apply Hx; by left|].
        apply Hag2. intros o' Ho'. rewrite Hra1 by (apply Hx; by left). apply Hx. by right.
      + intros n nd Hn Hins. apply Hid2.
        * apply Hid1; [done|]. apply Hins. by left.
        * intros o' Ho'. apply Hins. by right.
      + done.
      + intros i r Hi Hne. apply not_elem_of_cons in Hne as [Hne1 Hne2]. apply Hrt2; [|done].
        rewrite Hroots1eq, list_lookup_fmap, Hi. cbn. by rewrite subst1_ne.
      + intros D base cval rho xs Hxs i r r' x Hi Hi' He.
        apply Forall2_cons_inv_l in Hxs as (xw & xs' & Hxw & Hxs' & ->).
        apply (He2 D base cval rho xs') with (i := i) (r := subst1 o w r); [by eapply Hval1| |done|].
        * rewrite Hroots1eq, list_lookup_fmap, Hi. done.
        * eapply Hone; [done|exact Hxw|exact He|]. left. apply reachable_root. by eapply elem_of_list_lookup_2.
      + intros D base cval rho xs Hxs r0 r n i j x Hr0 Hr0n Hown0 Hown Hrn He.
        apply Forall2_cons_inv_l in Hxs as (xw & xs' & Hxw & Hxs' & ->).
        apply not_elem_of_cons in Hr0n as [Hr01 Hr02]. apply not_elem_of_cons in Hrn as [Hr1 Hr2'].
        eapply (Hsi2 D base cval rho xs') with (r0 := r0) (n := n) (i := i) (j := j); try done.
        * by eapply Hval1.
        * rewrite Hroots1eq. apply elem_of_list_fmap. exists r0. by rewrite subst1_ne.
        * unfold owner. by rewrite Hhv1.
        * unfold owner. by rewrite Hhv1.
        * rewrite <- (subst1_ne o w r) by done. eapply Hone; [done|exact Hxw|exact He|].
          right. exists n, j. split; [done|]. exists r0, i. split; [by apply reachable_root|done].
    - (* the variable is not in the graph *)
      rewrite elem_of_reach_set in Ho.
      destruct (IH _ _ _ _ Hr) as (Hg2 & Hev2 & Hhv2 & Hr2 & Hl2 & Hs2 & Hreach2 & Hag2 & Hid2 & Hout2 & Hrt2 & He2 & Hsi2).
      { done. }
      { done. }
      { intros w' Hw'. apply Hws. by right. }
      { done. }
      split_and!; try done.
      + intros u Hu. destruct (Hreach2 u Hu) as [Hu1 Hu2]. split.
        * apply not_elem_of_cons. split; [|done]. intros ->.
          destruct Hu2 as [Hu2|(w' & Hw' & Hu2)]; [done|]. by apply (Hav o w'); [left|right|].
        * destruct Hu2 as [Hu2|(w' & Hw' & Hu2)]; [by left|right]. exists w'. split; [by right|done].
      + intros x Hx. apply Hag2. intros o' Ho'. apply Hx. by right.
      + intros n nd Hn Hins. apply Hid2; [done|]. intros o' Ho'. apply Hins. by right.
      + intros i r Hi Hne. apply not_elem_of_cons in Hne as [Hne1 Hne2]. by apply Hrt2.
      + intros D base cval rho xs Hxs i r r' x Hi Hi' He.
        apply Forall2_cons_inv_l in Hxs as (xw & xs' & Hxw & Hxs' & ->).
        apply (He2 D base cval rho xs' Hxs' i r r' x Hi Hi').
        cbn [given_env] in He.
        eapply (evals_agree base cval (reachable h roots)); [| | |exact He|].
        * intros. by eapply reachable_step.
        * done.
        * intros v Hv. cbn. rewrite decide_False; [done|]. by intros ->.
        * apply reachable_root. by eapply elem_of_list_lookup_2.
      + intros D base cval rho xs Hxs r0 r n i j x Hr0 Hr0n Hown0 Hown Hrn He.
        apply Forall2_cons_inv_l in Hxs as (xw & xs' & Hxw & Hxs' & ->).
        apply not_elem_of_cons in Hr0n as [Hr01 Hr02]. apply not_elem_of_cons in Hrn as [Hr1 Hr2'].
        apply (Hsi2 D base cval rho xs' Hxs' r0 r n i j x); try done.
        cbn [given_env] in He.
        eapply (evals_agree base cval (fun v => v <> o /\ in_graph h roots v)); [| | |exact He|].
        * intros v u [Hv1 Hv2] Hvu.
          assert (reachable h roots u) as Hu.
          { unfold input_of, parents in Hvu. destruct (owner h v) as [[m k]|] eqn:Hvo; [|by apply elem_of_nil in Hvu].
            destruct (hn h m) as [nd|] eqn:Hm; [|by apply elem_of_nil in Hvu].
            eapply node_reachable_ins; [|exact Hm|exact Hvu]. by eapply in_graph_node. }
          split; [|by left]. by intros ->.
        * done.
        * intros v [Hv _]. by rewrite decide_False.
        * split; [done|]. right. exists n, j. split; [done|]. exists r0, i. split; [by apply reachable_root|done].
  Qed.

  (** it succeeds when the values have the types of the variables *)
  Lemma replace_all_total pairs : forall h roots,
    (forall o w, (o, w) ∈ pairs -> ty_of h o = ty_of h w) ->
    exists h' roots', replace_all h roots pairs = Ok (h', roots').
  Proof.
    induction pairs as [|[o w] pairs IH]; intros h roots Hty; [by eauto|].
    cbn. unfold replace_checked. rewrite decide_True by (apply Hty; by left).
    case_decide; cbn.
    - destruct (replace h roots o w) as [h1 roots1] eqn:Hre. apply IH. intros o' w' Hin.
      injection Hre as <- _. rewrite !ty_of_map_nodes. apply Hty. by right.
    - apply IH. intros. apply Hty. by right.
  Qed.
End replace_all.

(** ** expand_subsumptions *)

(** the values of a graph are kept when [old] is replaced by something of the same value *)
Lemma replace_evals_same {D} (base : op -> list D -> option (list D)) cval h roots old new rho :
  (forall x, evals base cval h rho old x -> evals base cval (replace h roots old new).1 rho new x) ->
  forall u x, evals base cval h rho u x -> in_graph h roots u ->
    evals base cval (replace h roots old new).1 rho (subst1 old new u) x.
Proof.
  intros Hnew.
  assert ((forall u x, evals base cval h rho u x -> in_graph h roots u ->
      evals base cval (replace h roots old new).1 rho (subst1 old new u) x) /\
    (forall us xs, evals_list base cval h rho us xs -> (forall u, u ∈ us -> reachable h roots u) ->
      evals_list base cval (replace h roots old new).1 rho (subst1 old new <$> us) xs)) as [H _]; [|exact H].
  apply evals_mutind.
  - intros u x Hu Hr. unfold subst1. case_decide as Hd.
    + subst. apply Hnew. by apply ev_given.
    + by apply ev_given.
  - intros u y c Hu Hy Ho Hk Hr. unfold subst1. case_decide as Hd.
    + subst. apply Hnew. by eapply ev_const.
    + by eapply ev_const.
  - intros u n i nd xs ys x Hu Ho Hn Hl IH Hs Hi Hr. unfold subst1. case_decide as Hd.
    + subst. apply Hnew. by eapply ev_app.
    + assert (node_reachable h roots n) as Hnr by (by eapply in_graph_node).
      eapply (ev_app _ _ _ _ _ n i (set_ins nd (subst1 old new))); eauto.
      * unfold replace. cbn [fst]. rewrite hn_map_nodes, Hn. cbn.
        by rewrite decide_True by by apply elem_of_fg_nodes.
      * apply IH. intros v Hv. by eapply node_reachable_ins.
  - intros _. constructor.
  - intros u us x xs _ IH1 _ IH2 Hus. cbn. constructor.
    + apply IH1. left. apply Hus. by left.
    + apply IH2. intros. apply Hus. by right.
Qed.

(** environments that give values to leaves only *)
Definition leaf_env {D} (h : heap) (rho : vid -> option D) : Prop :=
  forall v, is_Some (rho v) -> is_Some (hv h v) /\ owner h v = None.

Lemma leaf_env_on {D} h (rho : vid -> option D) : leaf_env h rho -> env_on h rho.
Proof.
  intros Hl v Hv. destruct (rho v) as [x|] eqn:Hx; [|done].
  destruct (Hl v) as [[? ?] _]; [by eauto|congruence].
Qed.
Lemma leaf_env_evolves {D} h h' (rho : vid -> option D) : evolves h h' -> leaf_env h rho -> leaf_env h' rho.
Proof.
  intros Hev Hl v Hv. destruct (Hl v Hv) as [H1 H2]. split; [by eapply evolves_some|].
  by rewrite (evolves_owner h h').
Qed.

(** no SubsumingElemwise among the nodes of [x] *)
Definition plain (h : heap) (x : vid) : Prop :=
  forall v n i, reachable h [x] v -> owner h v = Some (n, i) -> ~ is_subsume h n.

Lemma inline_all_spec ns : forall h roots h' roots',
  inline_all h roots ns = (h', roots') ->
  good_heap h -> (forall r, r ∈ roots -> is_Some (hv h r)) ->
  good_heap h' /\ evolves h h' /\
  (forall r, r ∈ roots' -> is_Some (hv h' r)) /\ length roots' = length roots /\
  (forall n, is_subsume h' n <-> is_subsume h n) /\
  (forall u, reachable h' roots' u -> reachable h roots u \/ hv h u = None) /\
  (forall n, is_subsume h' n -> node_reachable h' roots' n -> node_reachable h roots n /\ n ∉ ns) /\
  (forall x, is_Some (hv h x) -> plain h x -> agree_on (reachable h [x]) h h') /\
  (forall n nd, hn h n = Some nd -> (forall u m i, u ∈ n_ins nd -> owner h u = Some (m, i) -> ~ is_subsume h m) ->
      hn h' n = Some nd) /\
  (forall n nd, hn h n = Some nd -> ~ node_reachable h roots n -> hn h' n = Some nd) /\
  (forall i r, roots !! i = Some r -> (forall n j, owner h r = Some (n, j) -> ~ is_subsume h n) ->
      roots' !! i = Some r) /\
  (forall D (base : op -> list D -> option (list D)) cval rho,
     leaf_env h rho ->
     forall i r r' x, roots !! i = Some r -> roots' !! i = Some r' ->
     evals base cval h rho r x -> evals base cval h' rho r' x) /\
  (forall D (base : op -> list D -> option (list D)) cval rho,
     leaf_env h rho ->
     forall r0 r n i j x, r0 ∈ roots -> owner h r0 = Some (n, i) ->
     owner h r = Some (n, j) -> ~ is_subsume h n ->
     evals base cval h rho r x -> evals base cval h' rho r x).
Proof.
  induction ns as [|n ns IH]; intros h roots h' roots' Hi Hgood Hroots.
  { cbn in Hi. simplify_eq. split_and!; try done.
    - apply evolves_refl.
    - intros u Hu. by left.
    - intros m Hm Hn. split; [done|by intros ?%elem_of_nil].
    - intros D base cval rho _ i r r' x Hi Hi' He. by simplify_eq. }
  cbn in Hi. destruct Hgood as (Hwf & Hac & Hok).
  destruct (inline_node h n) as [[[h1 old] new]|] eqn:Hin.
  - destruct (inline_node_spec h n h1 old new Hwf Hac Hin) as
      (Hex & Hwf1 & Hac1 & Hns & Hsn & Hown & Hfresh & Hty & Hnsome & Hrnew & _ & Hevn).
    assert (Hsub01 : forall m, is_subsume h1 m <-> is_subsume h m).
    { intros m. split; intros (nd & s & args & Hm & Hop).
      - destruct (hn h m) as [nd0|] eqn:Hm0.
        + pose proof (proj2 Hex _ _ Hm0). simplify_eq. by exists nd, s, args.
        + specialize (Hns _ _ Hm0 Hm). by rewrite Hop in Hns.
      - exists nd, s, args. split; [by apply Hex|done]. }
    assert (Holds : is_Some (hv h old)).
    { unfold owner in Hown. destruct (hv h old); [done|by cbn in Hown]. }
    assert (Hnew_old : ~ reachable h1 [new] old).
    { intros Hr. destruct (Hrnew _ Hr) as [Hn|[_ Hn]]; [|done]. destruct Holds. congruence. }
    assert (Hok1 : subsume_ok h1) by (by eapply no_new_subsume_ok).
    destruct (replace h1 roots old new) as [h2 roots2] eqn:Hre.
    pose proof (replace_wf h1 roots old new Hwf1 Hnsome) as Hwf2.
    pose proof (replace_acyclic h1 roots old new Hnew_old Hac1) as Hac2.
    pose proof (replace_subsume_ok h1 roots old new Hok1) as Hok2.
    pose proof (replace_evolves h1 roots old new) as Hev2.
    assert (Hroots1 : forall r, r ∈ roots -> is_Some (hv h1 r)) by (intros; eapply extends_some; eauto).
    pose proof (replace_roots_some h1 roots old new Hnsome Hroots1) as Hroots2.
    pose proof (replace_is_subsume h1 roots old new) as Hsub2.
    pose proof (fun u => replace_reachable h1 roots old new u Hnew_old) as Hreach2.
    pose proof (replace_agree h1 roots old new) as Hagree2.
    pose proof (replace_hn_id h1 roots old new) as Hid2.
    pose proof (replace_hn_out h1 roots old new) as Hout2.
    pose proof (fun D base cval => @replace_evals_same D base cval h1 roots old new) as Hevals2.
    assert (Hhv2 : forall v, hv h2 v = hv h1 v) by (intros v; by injection Hre as <- _).
    assert (Hroots2eq : roots2 = subst1 old new <$> roots) by (by injection Hre as _ <-).
    rewrite Hre in *. cbn [fst snd] in *.
    assert (Hev02 : evolves h h2) by (eapply evolves_trans; [by apply extends_evolves|done]).
    assert (Hsub02 : forall m, is_subsume h2 m <-> is_subsume h m) by (intros m; by rewrite Hsub2, Hsub01).
    assert (Hreach02 : forall u, reachable h2 roots2 u -> (reachable h roots u /\ u <> old) \/ hv h u = None).
    { intros u Hu. destruct (decide (old ∈ reach_set h roots)) as [Hor|Hor].
      - apply elem_of_reach_set in Hor. destruct (Hreach2 u Hu) as [[Hu1 Hne]|Hu1].
        + left. split; [|done]. by apply (extends_reachable_list h h1) in Hu1.
        + destruct (Hrnew u Hu1) as [Hu2|[Hu2 Hne]]; [by right|].
          left. split; [|done].
          eapply reachable_trans; [|exact Hu2]. by intros r ->%elem_of_list_singleton.
      - (* [old] not in the graph: nothing was replaced *)
        rewrite elem_of_reach_set in Hor.
        assert (Hall : forall v, reachable h2 roots2 v -> reachable h roots v).
        { intros v (r & Hr & Hrv). rewrite Hroots2eq in Hr.
          apply elem_of_list_fmap in Hr as (r0 & -> & Hr0).
          rewrite subst1_ne in Hrv; [|intros ->; apply Hor; by apply reachable_root].
          apply rtc_nsteps in Hrv as [k Hk]. revert v Hk. induction k as [|k IHk]; intros v Hk.
          - inversion Hk; subst. by apply reachable_root.
          - apply nsteps_inv_r in Hk as (z & Hz & Hzv). apply IHk in Hz.
            assert (Hzs : is_Some (hv h z)) by (by eapply wf_reachable).
            assert (input_of h1 z v \/ (v = new /\ input_of h1 z old)) as [Hzv'|[-> Hzv']].
            { pose proof (replace_input_of h1 roots old new z v) as Hri. rewrite Hre in Hri. by apply Hri. }
            + apply (extends_input_of h h1) in Hzv'; [|done..]. by eapply reachable_step.
            + apply (extends_input_of h h1) in Hzv'; [|done..]. exfalso. apply Hor. by eapply reachable_step. }
        left. split; [by apply Hall|]. intros ->. apply Hor. by apply Hall. }
    destruct (IH _ _ _ _ Hi) as (Hg3 & Hev3 & Hr3 & Hl3 & Hs3 & Hreach3 & Hord3 & Hag3 & Hid3 & Hout3 & Hrt3 & He3 & Hsi3).
    { done. }
    { done. }
    assert (Hh_none : forall v, hv h2 v = None -> hv h v = None).
    { intros v Hv. destruct (hv h v) as [x|] eqn:Hx; [|done]. apply Hev02 in Hx. congruence. }
    assert (Hreach03 : forall u, reachable h' roots' u -> (reachable h roots u /\ u <> old) \/ hv h u = None).
    { intros u Hu. destruct (Hreach3 u Hu) as [Hu'|Hu']; [by apply Hreach02|right; by apply Hh_none]. }
    assert (Hag02 : forall x, is_Some (hv h x) -> plain h x -> agree_on (reachable h [x]) h h2).
    { intros x Hx Hpl. eapply agree_trans; [by apply extends_agree|]. apply Hagree2.
      rewrite (extends_reachable h h1) by done. intros Hr. by apply (Hpl old n 0). }
    assert (Hhn_none : forall m nd, hn h m = Some nd -> ~ node_reachable h roots m -> hn h2 m = Some nd).
    { intros m nd Hm Hnr. destruct (decide (old ∈ reach_set h roots)) as [Hor|Hor].
      - rewrite Hout2; [by apply Hex|]. intros (v & i & Hv & Hvo).
        apply (extends_reachable_list h h1) in Hv; [|done..]. apply Hnr. exists v, i. split; [done|].
        rewrite (extends_owner_old h h1) in Hvo; [done|done|]. by eapply wf_reachable.
      - rewrite Hout2; [by apply Hex|]. intros (v & i & Hv & Hvo).
        apply (extends_reachable_list h h1) in Hv; [|done..]. apply Hnr. exists v, i. split; [done|].
        rewrite (extends_owner_old h h1) in Hvo; [done|done|]. by eapply wf_reachable. }
    assert (Hsing : forall nd, hn h n = Some nd -> n_outs nd = [old]).
    { intros nd Hnd. destruct Hsn as (nd' & s & args & Hn' & Hop). simplify_eq.
      destruct (Hok _ _ _ _ Hn' Hop) as [[o Ho] _].
      destruct (wf_owner h Hwf _ _ _ Hown) as (nd2 & Hnd2 & Ho2). simplify_eq.
      rewrite Ho in Ho2. cbn in Ho2. congruence. }
    assert (Hone : forall D (base : op -> list D -> option (list D)) cval rho r x,
      leaf_env h rho -> is_Some (hv h r) -> evals base cval h rho r x -> in_graph h1 roots r ->
      evals base cval h2 rho (subst1 old new r) x).
    { intros D base cval rho r x Hrho Hrs He Hrr.
      apply Hevals2; [|eapply extends_evals; [exact Hwf|exact Hex| |exact He]; done|done].
      intros y Hy. assert (Hro : rho old = None).
      { destruct (rho old) as [z|] eqn:Hz; [|done]. destruct (Hrho old) as [_ Hc]; [by eauto|congruence]. }
      assert (Hy0 : evals base cval h rho old y).
      { eapply (agree_evals base cval h1 h rho rho); [|done|exact Hy].
        destruct (extends_agree h h1 old Hwf Hex Holds) as [A1 A2].
        pose proof (fun u => extends_reachable h h1 old u Hwf Hex Holds) as Hrr0. split.
        - intros v Hv. symmetry. apply A1. by apply Hrr0.
        - intros v m j Hv Hvo. symmetry. eapply A2; [by apply Hrr0|].
          rewrite (extends_owner_old h h1) in Hvo; [exact Hvo|done|]. eapply wf_reachable; [done| |by apply Hrr0].
          by intros ? ->%elem_of_list_singleton. }
      eapply (agree_evals base cval h1); [by apply Hagree2|done|].
      apply Hevn; [by apply leaf_env_on|done|done]. }
    split_and!.
    + done.
    + by eapply evolves_trans.
    + done.
    + rewrite Hl3, Hroots2eq. by rewrite fmap_length.
    + intros m. rewrite Hs3. apply Hsub02.
    + intros u Hu. destruct (Hreach03 u Hu) as [[Hu' _]|Hu']; auto.
    + intros m Hm Hr. destruct (Hord3 m Hm Hr) as [Hr2 Hnin].
      destruct Hr2 as (v & i & Hv & Hvo).
      assert (Hsm : is_subsume h m) by (by apply Hsub02, Hs3).
      destruct (Hreach02 v Hv) as [[Hv' Hne]|Hv'].
      * assert (Hvs : is_Some (hv h v)) by (by eapply wf_reachable).
        assert (Hvo' : owner h v = Some (m, i)) by (by rewrite (evolves_owner h h2) in Hvo).
        split; [by exists v, i|]. apply not_elem_of_cons. split; [|done]. intros ->.
        destruct (wf_owner h Hwf _ _ _ Hvo') as (nd & Hnd & Hout).
        rewrite (Hsing _ Hnd) in Hout. destruct i as [|i]; cbn in Hout; simplify_eq.
      * (* a fresh variable is not computed by an old node *)
        exfalso. destruct Hsm as (nd & s & args & Hnd & Hop).
        destruct (wf_owner h2 Hwf2 _ _ _ Hvo) as (nd2 & Hnd2 & Hout).
        destruct (proj2 Hev02 _ _ Hnd) as (nd3 & Hnd3 & _ & Houts & _). simplify_eq.
        rewrite Houts in Hout. pose proof (wf_outs h Hwf _ _ _ _ Hnd Hout) as Ho.
        unfold owner in Ho. by rewrite Hv' in Ho.
    + intros x Hx Hpl. pose proof (Hag02 x Hx Hpl) as Ha. eapply agree_trans; [exact Ha|].
      apply Hag3; [by eapply evolves_some|]. intros v m i Hv Hvo.
      apply (agree_reachable h h2 x Ha) in Hv. rewrite Hsub02. eapply Hpl; [exact Hv|].
      rewrite (evolves_owner h h2) in Hvo; [done|done|]. eapply wf_reachable; [done| |exact Hv].
      by intros r ->%elem_of_list_singleton.
    + intros m nd Hm Hins. apply Hid3.
      * apply Hid2; [by apply Hex|]. intros Ho. by apply (Hins _ _ _ Ho Hown).
      * intros u k i Hu Hku. rewrite Hsub02. eapply (Hins u); [done|].
        rewrite (evolves_owner h h2) in Hku; [done|done|]. by eapply (wf_ins h Hwf).
    + intros m nd Hm Hnr. apply Hout3; [by apply Hhn_none|].
      intros (v & i & Hv & Hvo). destruct (Hreach02 v Hv) as [[Hv' Hne]|Hv'].
      * apply Hnr. exists v, i. split; [done|]. rewrite (evolves_owner h h2) in Hvo; [done|done|].
        by eapply wf_reachable.
      * destruct (wf_owner h2 Hwf2 _ _ _ Hvo) as (nd2 & Hnd2 & Hout).
        rewrite (Hhn_none _ _ Hm Hnr) in Hnd2. simplify_eq.
        pose proof (wf_outs h Hwf _ _ _ _ Hm Hout) as Ho. unfold owner in Ho. by rewrite Hv' in Ho.
    + intros i r Hir Hrs. apply Hrt3.
      * rewrite Hroots2eq, list_lookup_fmap, Hir. cbn. rewrite subst1_ne; [done|].
        intros ->. by apply (Hrs n 0).
      * intros m j Hmj. rewrite Hsub02. eapply Hrs.
        rewrite (evolves_owner h h2) in Hmj; [done|done|]. apply Hroots. by eapply elem_of_list_lookup_2.
    + intros D base cval rho Hrho i r r' x Hir Hir' He.
      apply (He3 D base cval rho) with (i := i) (r := subst1 old new r); [| |done|].
      * by eapply leaf_env_evolves.
      * rewrite Hroots2eq, list_lookup_fmap, Hir. done.
      * eapply Hone; [done| |done|].
        -- apply Hroots. by eapply elem_of_list_lookup_2.
        -- left. apply reachable_root. by eapply elem_of_list_lookup_2.
    + intros D base cval rho Hrho r0 r m i j x Hr0 Hown0 Hownr Hm He.
      assert (Hr0s : is_Some (hv h r0)) by (by apply Hroots).
      assert (Hrs : is_Some (hv h r)).
      { unfold owner in Hownr. destruct (hv h r); [done|by cbn in Hownr]. }
      assert (r0 <> old) by (intros ->; congruence).
      assert (r <> old) by (intros ->; congruence).
      eapply (Hsi3 D base cval rho) with (r0 := r0) (n := m) (i := i) (j := j); try done.
      * by eapply leaf_env_evolves.
      * rewrite Hroots2eq. apply elem_of_list_fmap. exists r0. by rewrite subst1_ne.
      * by rewrite (evolves_owner h h2).
      * by rewrite (evolves_owner h h2).
      * by rewrite Hsub02.
      * rewrite <- (subst1_ne old new r) by done. eapply Hone; [done|done|done|].
        right. exists m, j. rewrite (extends_owner_old h h1) by done. split; [done|].
        exists r0, i. rewrite (extends_owner_old h h1) by done. split; [by apply reachable_root|done].
  - destruct (IH _ _ _ _ Hi) as (Hg3 & Hev3 & Hr3 & Hl3 & Hs3 & Hreach3 & Hord3 & Hag3 & Hid3 & Hout3 & Hrt3 & He3 & Hsi3).
    { done. }
    { done. }
    split_and!; try done.
    intros m Hm Hr. destruct (Hord3 m Hm Hr) as [Hr2 Hnin]. split; [done|].
    apply not_elem_of_cons. split; [|done]. intros ->. apply Hs3 in Hm as (nd & s & args & Hn & Hop).
    destruct (inline_node_total h n nd s args Hwf Hok Hn Hop) as (h1 & old & new & Heq & _). congruence.
Qed.

(** ** sets of variables closed under inputs *)
Definition closed (S : vid -> Prop) (h : heap) : Prop :=
  forall v u, S v -> input_of h v u -> S u.

Lemma closed_reachable S h roots u :
  closed S h -> (forall r, r ∈ roots -> S r) -> reachable h roots u -> S u.
Proof.
  intros Hc Hr (r & Hin & Hru). apply Hr in Hin. induction Hru; [done|]. by eauto.
Qed.

Lemma replace_closed S h roots o w : closed S h -> S w -> closed S (replace h roots o w).1.
Proof. intros Hc Hw v u Hv Hvu. apply replace_input_of in Hvu as [Hvu|[-> _]]; eauto. Qed.

Lemma replace_all_closed S pairs : forall h roots h' roots',
  replace_all h roots pairs = Ok (h', roots') ->
  closed S h -> (forall w, w ∈ pairs.*2 -> S w) -> (forall r, r ∈ roots -> S r) ->
  closed S h' /\ (forall r, r ∈ roots' -> S r).
Proof.
  induction pairs as [|[o w] pairs IH]; intros h roots h' roots' Hr Hc Hw Hroots.
  { cbn in Hr. by simplify_eq. }
  cbn in Hr. unfold replace_checked in Hr. case_decide; [|done].
  assert (Hsw : S w) by (apply Hw; cbn; by left).
  assert (Hw' : forall w', w' ∈ pairs.*2 -> S w') by (intros; apply Hw; cbn; by right).
  case_decide; cbn [rbind] in Hr.
  - pose proof (replace_closed S h roots o w Hc Hsw) as Hc1.
    assert (Hroots1 : forall r, r ∈ (replace h roots o w).2 -> S r).
    { intros r Hin. unfold replace in Hin. cbn in Hin. apply elem_of_list_fmap in Hin as (r0 & -> & Hr0).
      unfold subst1. case_decide; auto. }
    destruct (replace h roots o w) as [h1 roots1]. cbn [fst snd] in *.
    by eapply IH.
  - by eapply IH.
Qed.

Lemma inline_all_closed S ns : forall h roots h' roots',
  inline_all h roots ns = (h', roots') ->
  good_heap h -> closed S h ->
  (forall v, hv h v = None -> S v) -> (forall r, r ∈ roots -> S r) ->
  (forall r, r ∈ roots -> is_Some (hv h r)) ->
  (forall n v i, n ∈ ns -> is_subsume h n -> owner h v = Some (n, i) -> S v) ->
  closed S h' /\ (forall r, r ∈ roots' -> S r).
Proof.
  induction ns as [|n ns IH]; intros h roots h' roots' Hi Hgood Hc Hfresh Hroots Hsome Hns.
  { cbn in Hi. by simplify_eq. }
  cbn in Hi. destruct Hgood as (Hwf & Hac & Hok).
  destruct (inline_node h n) as [[[h1 old] new]|] eqn:Hin.
  - destruct (inline_node_spec h n h1 old new Hwf Hac Hin) as
      (Hex & Hwf1 & Hac1 & Hnns & Hsn & Hown & Hnew & Hty & Hnsome & Hrnew & Hz & Hevn).
    assert (Hsold : S old) by (eapply Hns; [by left|done|done]).
    assert (Hold : forall u, reachable h [old] u -> S u).
    { intros u. apply closed_reachable; [done|]. by intros r ->%elem_of_list_singleton. }
    assert (Hc1 : closed S h1).
    { intros v u Hv Hvu. destruct (hv h v) as [x|] eqn:Hx.
      - apply (Hc v u Hv). apply (extends_input_of h h1); eauto.
      - destruct (Hz v u Hx Hvu); auto. }
    assert (Hsnew : S new) by auto.
    assert (Holds : is_Some (hv h old)).
    { unfold owner in Hown. destruct (hv h old); [done|by cbn in Hown]. }
    assert (Hnew_old : ~ reachable h1 [new] old).
    { intros Hr. destruct (Hrnew _ Hr) as [Hn|[_ Hn]]; [|done]. destruct Holds. congruence. }
    pose proof (replace_closed S h1 roots old new Hc1 Hsnew) as Hc2.
    assert (Hroots2 : forall r, r ∈ (replace h1 roots old new).2 -> S r).
    { intros r Hr. unfold replace in Hr. cbn in Hr. apply elem_of_list_fmap in Hr as (r0 & -> & Hr0).
      unfold subst1. case_decide; auto. }
    pose proof (replace_wf h1 roots old new Hwf1 Hnsome) as Hwf2.
    pose proof (replace_acyclic h1 roots old new Hnew_old Hac1) as Hac2.
    pose proof (replace_subsume_ok h1 roots old new ltac:(by eapply no_new_subsume_ok)) as Hok2.
    pose proof (replace_hv h1 roots old new) as Hhv2.
    pose proof (replace_is_subsume h1 roots old new) as Hsub2.
    pose proof (replace_roots_some h1 roots old new Hnsome
      ltac:(intros r Hr; eapply extends_some; [done|by apply Hsome])) as Hs2.
    destruct (replace h1 roots old new) as [h2 roots2]. cbn [fst snd] in *.
    eapply IH; [exact Hi|done|done| |done|done|].
    + intros v Hv. apply Hfresh. rewrite Hhv2 in Hv. destruct (hv h v) as [x|] eqn:Hx; [|done].
      apply Hex in Hx. congruence.
    + intros m v i Hm Hsm Ho. destruct (hv h v) as [x|] eqn:Hx.
      * assert (is_subsume h m) as Hsm0.
        { apply Hsub2 in Hsm as (nd & s & args & Hmd & Hop). destruct (hn h m) as [nd0|] eqn:Hm0.
          - pose proof (proj2 Hex _ _ Hm0). simplify_eq. by exists nd, s, args.
          - specialize (Hnns _ _ Hm0 Hmd). by rewrite Hop in Hnns. }
        eapply (Hns m v i); [by right|done|]. unfold owner in *. rewrite Hhv2 in Ho.
        rewrite Hx. by rewrite (proj1 Hex _ _ Hx) in Ho.
      * by apply Hfresh.
  - eapply IH; [exact Hi|done..|]. intros m v i Hm. apply Hns. by right.
Qed.
