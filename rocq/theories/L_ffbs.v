(** Proofs about forward filtering - backward sampling. *)
From Verif Require Export L_dist S_ffbs.
From Coq Require FinFun.

Section core.
  Context (M : nat) (g0 : nat -> R).

  (** forward quantities without any rescaling; steps are listed last first *)
  Fixpoint Fwd (sr : list hmm_step) (s : nat) : R :=
    match sr with
    | [] => g0 s
    | (L, G) :: sr' => nsum M (fun i => Fwd sr' i * G i s) * L s
    end.

  (** the joint weight, both lists last first *)
  Fixpoint J (sr : list hmm_step) (ssr : list nat) : R :=
    match sr, ssr with
    | (L, G) :: sr', s :: ssr' =>
        match sr', ssr' with
        | [], [] => nsum M (fun i => g0 i * G i s) * L s
        | _, s' :: _ => J sr' ssr' * G s' s * L s
        | _, [] => 0
        end
    | _, _ => 0
    end.

  Definition jw (steps : list hmm_step) (ss : list nat) : R :=
    nsum M (fun s0 => g0 s0 * path_weight s0 steps ss).

  Lemma path_weight_length s steps ss : length steps <> length ss -> path_weight s steps ss = 0.
  Proof.
    revert s ss. induction steps as [|[L G] steps IH]; intros s [|s' ss]; simpl; intros H;
      try reflexivity; [lia|]. rewrite IH by lia. lra.
  Qed.

  Lemma path_weight_snoc s steps ss L G s' : length steps = length ss ->
    path_weight s (steps ++ [(L, G)]) (ss ++ [s'])
    = path_weight s steps ss * (G (last ss s) s' * L s').
  Proof.
    revert s ss. induction steps as [|[L1 G1] steps IH]; intros s [|s1 ss] H; simpl in H;
      try lia.
    - simpl. lra.
    - change (((L1, G1) :: steps) ++ [(L, G)]) with ((L1, G1) :: (steps ++ [(L, G)])).
      change ((s1 :: ss) ++ [s']) with (s1 :: (ss ++ [s'])).
      cbn [path_weight]. rewrite IH by lia.
      replace (last (s1 :: ss) s) with (last ss s1); [lra|].
      destruct ss as [|s2 ss]; [reflexivity|]. simpl.
      clear. revert s2. induction ss as [|s3 ss IH]; intros s2; [reflexivity|]. apply (IH s3).
  Qed.

  Lemma J_length sr ssr : sr <> [] -> length sr <> length ssr -> J sr ssr = 0.
  Proof.
    revert ssr. induction sr as [|[L G] sr IH]; intros ssr Hne Hl; [congruence|].
    destruct ssr as [|s ssr]; [reflexivity|]. simpl in Hl. simpl.
    destruct sr as [|st sr]; destruct ssr as [|s' ssr]; try reflexivity.
    - simpl in Hl. lia.
    - simpl. lra.
    - rewrite IH; [lra|congruence|lia].
  Qed.

  Lemma jw_J sr ssr : sr <> [] -> jw (rev sr) (rev ssr) = J sr ssr.
  Proof.
    intros Hne.
    destruct (Nat.eq_dec (length sr) (length ssr)) as [Hl|Hl].
    2:{ rewrite J_length by auto. unfold jw. apply nsum_zero. intros i _.
        rewrite path_weight_length by (rewrite !rev_length; auto). lra. }
    revert ssr Hl Hne. induction sr as [|[L G] sr IH]; intros ssr Hl Hne; [congruence|].
    destruct ssr as [|s ssr]; [simpl in Hl; lia|]. simpl in Hl.
    cbn [rev J]. unfold jw.
    rewrite (nsum_ext M _ (fun s0 => g0 s0 * (path_weight s0 (rev sr) (rev ssr) *
      (G (last (rev ssr) s0) s * L s)))).
    2:{ intros i _. rewrite path_weight_snoc; [reflexivity|]. rewrite !rev_length. lia. }
    destruct sr as [|st sr]; destruct ssr as [|s' ssr]; try (simpl in Hl; lia).
    - simpl. rewrite <- nsum_scal_r. apply nsum_ext. intros i _. lra.
    - rewrite <- (IH (s' :: ssr)) by (simpl in *; try lia; congruence).
      unfold jw.
      rewrite Rmult_assoc, <- nsum_scal_r.
      apply nsum_ext. intros i _. cbn [rev]. rewrite last_last. lra.
  Qed.

  Context (Hg0 : forall i, (i < M)%nat -> 0 <= g0 i).

  Definition okstep (st : hmm_step) : Prop :=
    (forall s, 0 <= fst st s) /\ (forall s, (M <= s)%nat -> fst st s = 0) /\
    (forall i j, 0 <= snd st i j).

  Lemma Fwd_nonneg sr s : Forall okstep sr -> (s < M)%nat -> 0 <= Fwd sr s.
  Proof.
    intros Hok. revert s. induction Hok as [|[L G] sr (HL & _ & HG) Hok IH]; intros s Hs.
    - apply Hg0. exact Hs.
    - simpl. apply Rmult_le_pos; [|apply HL].
      apply nsum_nonneg. intros i Hi. apply Rmult_le_pos; [apply IH; auto|apply HG].
  Qed.

  Lemma Fwd_out sr s : sr <> [] -> Forall okstep sr -> (M <= s)%nat -> Fwd sr s = 0.
  Proof.
    intros Hne Hok Hs. destruct Hok as [|[L G] sr (_ & HL & _) Hok]; [congruence|].
    simpl. simpl in HL. rewrite HL by auto. lra.
  Qed.

  (** summing the joint over all earlier states gives the forward quantity *)
  Lemma sum_J sr L G s :
    lsum (map (fun ss => J ((L, G) :: sr) (s :: rev ss)) (sequences M (length sr)))
    = Fwd ((L, G) :: sr) s.
  Proof.
    revert L G s. induction sr as [|[L' G'] sr IH]; intros L G s.
    - simpl. lra.
    - cbn [length sequences]. rewrite flat_map_concat_map.
      rewrite concat_map, map_map.
      rewrite <- flat_map_concat_map, lsum_flat_map.
      rewrite (lsum_map_ext _ _ (fun ss => lsum (map (fun s' =>
          J ((L', G') :: sr) (s' :: rev ss) * (G s' s * L s)) (seq 0 M)))).
      2:{ intros ss _. rewrite map_map. apply lsum_map_ext. intros s' _.
          rewrite rev_app_distr. cbn [rev app J]. lra. }
      rewrite lsum_swap.
      cbn [Fwd]. rewrite <- nsum_scal_r. apply lsum_map_ext. intros s' _.
      rewrite lsum_map_scal_r, IH. cbn [Fwd]. lra.
  Qed.

  Lemma sum_J_all sr : sr <> [] ->
    lsum (map (fun ss => J sr (rev ss)) (sequences M (length sr))) = nsum M (Fwd sr).
  Proof.
    destruct sr as [|[L G] sr]; [congruence|]. intros _.
    cbn [length sequences]. rewrite flat_map_concat_map, concat_map, map_map.
    rewrite <- flat_map_concat_map, lsum_flat_map.
    rewrite (lsum_map_ext _ _ (fun ss => lsum (map (fun s =>
        J ((L, G) :: sr) (s :: rev ss)) (seq 0 M)))).
    2:{ intros ss _. rewrite map_map. apply lsum_map_ext. intros s' _.
        rewrite rev_app_distr. reflexivity. }
    rewrite lsum_swap. apply lsum_map_ext. intros s _. apply sum_J.
  Qed.

  (** ** The program: weights proportional to the forward quantities *)
  Definition scaled (a : vec) (F : nat -> R) : Prop :=
    length a = M /\ exists c, 0 < c /\ forall i, (i < M)%nat -> vget a i = c * F i.

  Lemma normed_categorical_spec a F g : scaled a F ->
    dexp (normed_categorical a) g
    = if Req_EM_T (nsum M F) 0 then g None
      else nsum M (fun i => F i / nsum M F * g (Some i)).
  Proof.
    intros (Hl & c & Hc & Ha). unfold normed_categorical.
    assert (Hs : lsum a = c * nsum M F).
    { rewrite lsum_nsum, Hl, <- nsum_scal. apply nsum_ext. exact Ha. }
    rewrite Hs.
    destruct (Req_EM_T (nsum M F) 0) as [E|E].
    - destruct (Req_EM_T (c * nsum M F) 0) as [_|E']; [apply dexp_fail|].
      exfalso. apply E'. rewrite E. lra.
    - destruct (Req_EM_T (c * nsum M F) 0) as [E'|_].
      { exfalso. apply Rmult_integral in E' as [E'|E']; [lra|contradiction]. }
      rewrite dexp_cat, map_length, Hl. apply nsum_ext. intros i Hi.
      rewrite nth_indep with (d' := 0 / (c * nsum M F)) by (rewrite map_length; lia).
      rewrite (map_nth (fun x => x / (c * nsum M F)) a 0 i).
      change (nth i a 0) with (vget a i). rewrite (Ha i Hi). field. lra.
  Qed.

  Fixpoint prel (sr : list hmm_step) (pairs : list (vec * mat)) : Prop :=
    match sr with
    | [] => False
    | (L, G) :: sr' =>
        match sr' with
        | [] => pairs = []
        | _ => match pairs with
               | [] => False
               | (a, Gm) :: pairs' =>
                   (forall i j, mget Gm i j = G i j) /\ scaled a (Fwd sr') /\ prel sr' pairs'
               end
        end
    end.

  Lemma vget_seq (f : nat -> R) i : (i < M)%nat -> vget (map f (seq 0 M)) i = f i.
  Proof.
    intros Hi. unfold vget.
    rewrite nth_indep with (d' := f 0%nat) by (rewrite map_length, seq_length; auto).
    rewrite map_nth, seq_nth by auto. reflexivity.
  Qed.

  Lemma scaled_step a F Gm (G : nat -> nat -> R) s : scaled a F -> (forall i j, mget Gm i j = G i j) ->
    scaled (vmul M a (map (fun i => mget Gm i s) (seq 0 M))) (fun i => F i * G i s).
  Proof.
    intros (Hl & c & Hc & Ha) HG. split; [unfold vmul; rewrite map_length, seq_length; reflexivity|].
    exists c. split; [exact Hc|]. intros i Hi. unfold vmul. rewrite vget_seq by exact Hi.
    rewrite vget_seq by exact Hi. rewrite (Ha i Hi), HG. ring.
  Qed.

  Lemma is_seq_cons s ss x (d : fdist (list nat)) :
    dexp (dbind d (fun rest => dret (s :: rest))) (fun o => if is_seq (x :: ss) o then 1 else 0)
    = (if Nat.eq_dec x s then 1 else 0) * dexp d (fun o => if is_seq ss o then 1 else 0).
  Proof.
    rewrite dexp_bind.
    induction d as [|[o w] d IH]; [simpl; lra|]. cbn [dexp]. rewrite IH.
    destruct o as [rest|]; [|simpl; destruct (Nat.eq_dec x s); lra].
    rewrite dexp_ret. unfold is_seq.
    destruct (list_eq_dec Nat.eq_dec (x :: ss) (s :: rest)) as [E|E];
      destruct (Nat.eq_dec x s) as [E1|E1];
      destruct (list_eq_dec Nat.eq_dec ss rest) as [E2|E2]; try lra; try congruence.
  Qed.

  Lemma dexp_cons_nil s (d : fdist (list nat)) :
    dexp (dbind d (fun rest => dret (s :: rest))) (fun o => if is_seq [] o then 1 else 0) = 0.
  Proof.
    rewrite dexp_bind. induction d as [|[o w] d IH]; [reflexivity|]. cbn [dexp]. rewrite IH.
    destruct o; [rewrite dexp_ret|]; simpl; lra.
  Qed.

  Lemma fail_cons s (d : fdist (list nat)) :
    dexp (dbind d (fun rest => dret (s :: rest))) (fun o => if is_failure o then 1 else 0)
    = dexp d (fun o => if is_failure o then 1 else 0).
  Proof.
    rewrite dexp_bind. apply dexp_ext. intros [x|]; [rewrite dexp_ret|]; reflexivity.
  Qed.

  (** the backward pass, times the forward quantity of its starting state, gives the joint *)
  Lemma backward_prob sr L G pairs s ss :
    Forall okstep ((L, G) :: sr) -> prel ((L, G) :: sr) pairs -> (s < M)%nat ->
    dprob (backward M pairs s) (is_seq ss) * Fwd ((L, G) :: sr) s = J ((L, G) :: sr) (s :: ss).
  Proof.
    revert L G pairs s ss. induction sr as [|[L' G'] sr IH]; intros L G pairs s ss Hok Hp Hs.
    - cbn [prel] in Hp. subst pairs. cbn [backward]. rewrite dprob_dexp, dexp_ret.
      destruct ss as [|s' ss]; simpl; lra.
    - apply Forall_cons_iff in Hok as [Hok1 Hok].
      cbn [prel] in Hp. destruct pairs as [|[a Gm] pairs]; [contradiction|].
      destruct Hp as (HG & Ha & Hp).
      pose proof (scaled_step a _ Gm G s Ha HG) as Hsc.
      rewrite dprob_dexp. cbn [backward]. rewrite dexp_bind. unfold backward_step.
      rewrite (normed_categorical_spec _ _ _ Hsc).
      set (D := nsum M (fun i => Fwd ((L', G') :: sr) i * G i s)).
      assert (HF : Fwd ((L, G) :: (L', G') :: sr) s = D * L s) by reflexivity.
      rewrite HF.
      assert (Hnn : forall i, (i < M)%nat -> 0 <= Fwd ((L', G') :: sr) i * G i s).
      { intros i Hi. apply Rmult_le_pos; [apply Fwd_nonneg; auto|apply Hok1]. }
      destruct ss as [|s' ss].
      { (* too short *)
        cbn [J].
        destruct (Req_EM_T D 0) as [E|E]; [rewrite E; ring|].
        rewrite nsum_zero; [ring|]. intros i _. rewrite dexp_cons_nil. ring. }
      change (J ((L, G) :: (L', G') :: sr) (s :: s' :: ss))
        with (J ((L', G') :: sr) (s' :: ss) * G s' s * L s).
      destruct (Nat.lt_ge_cases s' M) as [Hs'|Hs'].
      2:{ (* an impossible earlier state *)
        assert (HJ : J ((L', G') :: sr) (s' :: ss) = 0).
        { apply Forall_cons_iff in Hok as [(_ & HL' & _) _]. simpl in HL'.
          cbn [J]. rewrite (HL' s') by auto. destruct sr, ss; ring. }
        rewrite HJ.
        destruct (Req_EM_T D 0) as [E|E]; [rewrite E; ring|].
        rewrite nsum_zero; [ring|]. intros i Hi. rewrite is_seq_cons.
        destruct (Nat.eq_dec s' i) as [->|_]; [lia|ring]. }
      destruct (Req_EM_T D 0) as [E|E].
      { (* the state is impossible *)
        rewrite E. rewrite <- (IH L' G' pairs s' ss Hok Hp Hs').
        pose proof (nsum_zero_all M _ Hnn E s' Hs') as Hz.
        replace (dprob (backward M pairs s') (is_seq ss) * Fwd ((L', G') :: sr) s' * G s' s)
          with (dprob (backward M pairs s') (is_seq ss) * (Fwd ((L', G') :: sr) s' * G s' s)) by ring.
        rewrite Hz. ring. }
      rewrite (nsum_single M _ s' Hs').
      2:{ intros i _ Hne. rewrite is_seq_cons. destruct (Nat.eq_dec s' i); [congruence|ring]. }
      rewrite is_seq_cons. destruct (Nat.eq_dec s' s') as [_|]; [|congruence].
      rewrite <- (IH L' G' pairs s' ss Hok Hp Hs'), dprob_dexp. field. exact E.
  Qed.

  Lemma backward_fail sr L G pairs s :
    Forall okstep ((L, G) :: sr) -> prel ((L, G) :: sr) pairs -> (s < M)%nat ->
    dprob (backward M pairs s) is_failure * Fwd ((L, G) :: sr) s = 0.
  Proof.
    revert L G pairs s. induction sr as [|[L' G'] sr IH]; intros L G pairs s Hok Hp Hs.
    - cbn [prel] in Hp. subst pairs. cbn [backward]. rewrite dprob_dexp, dexp_ret. simpl. lra.
    - apply Forall_cons_iff in Hok as [Hok1 Hok].
      cbn [prel] in Hp. destruct pairs as [|[a Gm] pairs]; [contradiction|].
      destruct Hp as (HG & Ha & Hp).
      pose proof (scaled_step a _ Gm G s Ha HG) as Hsc.
      rewrite dprob_dexp. cbn [backward]. rewrite dexp_bind. unfold backward_step.
      rewrite (normed_categorical_spec _ _ _ Hsc).
      set (D := nsum M (fun i => Fwd ((L', G') :: sr) i * G i s)).
      assert (HF : Fwd ((L, G) :: (L', G') :: sr) s = D * L s) by reflexivity.
      rewrite HF.
      destruct (Req_EM_T D 0) as [E|E]; [rewrite E; ring|].
      rewrite nsum_zero; [ring|]. intros i Hi. rewrite fail_cons, <- dprob_dexp.
      replace (Fwd ((L', G') :: sr) i * G i s / D * dprob (backward M pairs i) is_failure)
        with (dprob (backward M pairs i) is_failure * Fwd ((L', G') :: sr) i * (G i s / D))
        by (field; exact E).
      rewrite (IH L' G' pairs i Hok Hp Hi). ring.
  Qed.
End core.

(** ** Likelihoods *)
Lemma lmax_none ll : lmax ll = None -> forall s, elik (nth s ll None) = 0.
Proof.
  induction ll as [|x ll IH]; simpl; intros H s; [destruct s; reflexivity|].
  change (omax x (lmax ll) = None) in H.
  destruct x as [a|]; [destruct (lmax ll); discriminate|].
  destruct s; [reflexivity|]. apply IH. exact H.
Qed.

Lemma lik_spec ll m l s : lmax ll = Some m -> lik ll = Some l ->
  vget l s = exp (- m) * elik (nth s ll None).
Proof.
  unfold lik. intros Hm. rewrite Hm. intros [= <-].
  unfold vget. clear Hm. revert s. induction ll as [|x ll IH]; intros s.
  - destruct s; simpl; ring.
  - destruct s; simpl; [|apply IH].
    destruct x; simpl; [|ring]. unfold Rminus. rewrite exp_plus. ring.
Qed.

Lemma lmax_ge ll m a : lmax ll = Some m -> In (Some a) ll -> a <= m.
Proof.
  revert m. induction ll as [|x ll IH]; simpl; intros m H Hin; [tauto|].
  change (omax x (lmax ll) = Some m) in H.
  destruct Hin as [->|Hin].
  - destruct (lmax ll); simpl in H; injection H as <-; [apply Rmax_l|lra].
  - destruct (lmax ll) as [m'|] eqn:E.
    + pose proof (IH m' eq_refl Hin) as Hle. destruct x; simpl in H; injection H as <-.
      * eapply Rle_trans; [exact Hle|apply Rmax_r].
      * exact Hle.
    + exfalso. clear -E Hin. induction ll as [|y ll IH]; simpl in *; [tauto|].
      change (omax y (lmax ll) = None) in E.
      destruct Hin as [->|Hin]; [destruct (lmax ll); discriminate|].
      destruct y; [destruct (lmax ll); discriminate|]. auto.
Qed.

Lemma lik_bounds ll l : lik ll = Some l -> forall s, 0 <= vget l s <= 1.
Proof.
  unfold lik. destruct (lmax ll) as [m|] eqn:E; [|discriminate]. intros [= <-] s.
  unfold vget.
  assert (Hb : forall x, In x ll -> 0 <= match x with Some a => exp (a - m) | None => 0 end <= 1).
  { intros [a|] Hx; [|lra]. pose proof (exp_pos (a - m)).
    pose proof (lmax_ge _ _ _ E Hx). split; [lra|].
    rewrite <- exp_0. destruct (Rle_lt_or_eq_dec a m) as [Hlt|Heq]; [exact H0| |subst].
    - left. apply exp_increasing. lra.
    - right. f_equal. ring. }
  clear E. revert s. induction ll as [|x ll IH]; intros s; [destruct s; simpl; lra|].
  destruct s; simpl.
  - apply (Hb x). simpl. auto.
  - apply IH. intros y Hy. apply Hb. simpl. auto.
Qed.

Section program.
  Context (M : nat) (g0 : nat -> R) (bound : R) (Hb : 0 < bound).

  Definition crel (p : list (option R) * mat) (q : hmm_step) : Prop :=
    (forall s, fst q s = elik (nth s (fst p) None)) /\ (forall i j, mget (snd p) i j = snd q i j).

  Fixpoint arel (sr : list hmm_step) (acc : list vec) : Prop :=
    match sr, acc with
    | [], [] => True
    | st :: sr', a :: acc' => scaled M a (Fwd M g0 (st :: sr')) /\ arel sr' acc'
    | _, _ => False
    end.

  Lemma Fwd_zero sr l : (forall s, Fwd M g0 sr s = 0) -> forall s, Fwd M g0 (l ++ sr) s = 0.
  Proof.
    intros H. induction l as [|[L G] l IH]; intros s; [apply H|]. simpl.
    rewrite nsum_zero; [ring|]. intros i _. rewrite IH. ring.
  Qed.

  Lemma forward_spec steps fs sr alpha acc :
    Forall2 crel steps fs -> scaled M alpha (Fwd M g0 sr) -> arel sr acc ->
    match forward bound M steps alpha acc with
    | Some l => arel (rev fs ++ sr) l
    | None => forall s, Fwd M g0 (rev fs ++ sr) s = 0
    end.
  Proof.
    intros H. revert sr alpha acc.
    induction H as [|[ll Gm] [L G] steps fs Hc H IH]; intros sr alpha acc Hal Har; [exact Har|].
    destruct Hc as [HL HG]. cbn [fst snd] in HL, HG.
    cbn [forward rev]. rewrite <- app_assoc. cbn [app]. unfold forward_step.
    destruct (lmax ll) as [m|] eqn:Em.
    2:{ unfold lik. rewrite Em. apply Fwd_zero. intros s. simpl.
        rewrite HL, lmax_none by exact Em. ring. }
    destruct (lik ll) as [l|] eqn:El; [|unfold lik in El; rewrite Em in El; discriminate].
    assert (Hs : scaled M (vmul M (vdot M alpha Gm) l) (Fwd M g0 ((L, G) :: sr))).
    { destruct Hal as (Hlen & c & Hc & Ha).
      split; [unfold vmul; rewrite map_length, seq_length; reflexivity|].
      exists (c * exp (- m)). split; [apply Rmult_lt_0_compat; [exact Hc|apply exp_pos]|].
      intros i Hi. unfold vmul. rewrite vget_seq by exact Hi. unfold vdot.
      rewrite vget_seq by exact Hi. rewrite (lik_spec _ _ _ _ Em El). cbn [Fwd].
      rewrite HL.
      rewrite (nsum_ext M _ (fun k => c * (Fwd M g0 sr k * G k i))).
      2:{ intros k Hk. rewrite (Ha k Hk), HG. ring. }
      rewrite nsum_scal. ring. }
    apply IH; [|split; [|exact Har]].
    all: destruct (Rlt_dec _ bound) as [_|_]; [|exact Hs].
    all: destruct Hs as (Hlen & c & Hc & Ha); split; [rewrite map_length; exact Hlen|].
    all: exists (c / bound); split; [apply Rdiv_lt_0_compat; assumption|].
    all: intros i Hi; unfold vget.
    all: rewrite nth_indep with (d' := 0 / bound) by (rewrite map_length, Hlen; exact Hi).
    all: rewrite (map_nth (fun x => x / bound)).
    all: change (nth i (vmul M (vdot M alpha Gm) l) 0) with (vget (vmul M (vdot M alpha Gm) l) i).
    all: rewrite (Ha i Hi); field; lra.
  Qed.

  Lemma arel_prel sr a earlier Grev :
    sr <> [] -> arel sr (a :: earlier) ->
    Forall2 (fun Gm (st : hmm_step) => forall i j, mget Gm i j = snd st i j) Grev sr ->
    prel M g0 sr (combine earlier Grev).
  Proof.
    revert a earlier Grev. induction sr as [|[L G] sr IH]; intros a earlier Grev Hne Har HF; [congruence|].
    destruct Har as [_ Har].
    inversion HF as [|Gm ? Grev' ? HG HF' E1 E2]; subst Grev. subst.
    destruct sr as [|st sr].
    - destruct earlier; [reflexivity|contradiction].
    - destruct earlier as [|a' earlier]; [contradiction|]. cbn [combine prel].
      split; [exact HG|]. split; [exact (proj1 Har)|].
      apply IH with (a := a'); [congruence|exact Har|exact HF'].
  Qed.

  (** forward quantities stay in the unit interval *)
  Lemma forward_bounded steps alpha acc l :
    Forall (fun p => (forall i j, 0 <= mget (snd p) i j) /\
                     (forall i, (i < M)%nat -> nsum M (fun j => mget (snd p) i j) <= 1)) steps ->
    length alpha = M -> (forall i, 0 <= vget alpha i) -> nsum M (vget alpha) <= 1 ->
    Forall (fun a => forall x, In x a -> 0 <= x <= 1) acc ->
    forward bound M steps alpha acc = Some l ->
    Forall (fun a => forall x, In x a -> 0 <= x <= 1) l.
  Proof.
    intros Hst. revert alpha acc.
    induction Hst as [|[ll Gm] steps [HG HGs] Hst IH]; intros alpha acc Hlen Hnn Hsum Hacc Hf.
    { simpl in Hf. congruence. }
    cbn [forward] in Hf. unfold forward_step in Hf.
    destruct (lik ll) as [l'|] eqn:El; [|discriminate].
    pose proof (lik_bounds _ _ El) as Hl'. cbn [snd] in HG, HGs.
    set (al := vmul M (vdot M alpha Gm) l') in *.
    assert (Hal : length al = M) by (unfold al, vmul; rewrite map_length, seq_length; reflexivity).
    assert (Hd : forall j, 0 <= vget (vdot M alpha Gm) j).
    { intros j. destruct (Nat.lt_ge_cases j M) as [Hj|Hj].
      - unfold vdot. rewrite vget_seq by exact Hj. apply nsum_nonneg. intros i _.
        apply Rmult_le_pos; auto.
      - unfold vget. rewrite nth_overflow; [lra|]. unfold vdot. rewrite map_length, seq_length. exact Hj. }
    assert (Halnn : forall i, 0 <= vget al i).
    { intros i. destruct (Nat.lt_ge_cases i M) as [Hi|Hi].
      - unfold al, vmul. rewrite vget_seq by exact Hi. apply Rmult_le_pos; [apply Hd|apply Hl'].
      - unfold vget. rewrite nth_overflow; [lra|]. lia. }
    assert (Hals : nsum M (vget al) <= 1).
    { eapply Rle_trans; [|exact Hsum].
      eapply Rle_trans.
      { apply nsum_le with (g := fun j => nsum M (fun i => vget alpha i * mget Gm i j)).
        intros j Hj. unfold al, vmul. rewrite vget_seq by exact Hj.
        unfold vdot at 1. rewrite vget_seq by exact Hj.
        rewrite <- (Rmult_1_r (nsum M _)) at 2. apply Rmult_le_compat_l; [|apply Hl'].
        apply nsum_nonneg. intros i _. apply Rmult_le_pos; auto. }
      rewrite nsum_swap.
      apply nsum_le. intros i Hi. rewrite nsum_scal.
      rewrite <- (Rmult_1_r (vget alpha i)) at 2. apply Rmult_le_compat_l; auto. }
    assert (Hsumal : lsum al = nsum M (vget al)) by (rewrite lsum_nsum, Hal; reflexivity).
    assert (Hin : forall v, length v = M -> (forall i, 0 <= vget v i) -> nsum M (vget v) <= 1 ->
              forall x, In x v -> 0 <= x <= 1).
    { intros v Hv Hv0 Hv1 x Hx. apply In_nth with (d := 0) in Hx as (i & Hi & <-).
      split; [apply Hv0|]. eapply Rle_trans; [|exact Hv1].
      apply (nsum_mem_le M (vget v) i); [intros; apply Hv0|lia]. }
    destruct (Rlt_dec (lsum al) bound) as [Hlt|_].
    - set (al' := map (fun x => x / bound) al) in *.
      assert (Hg : forall i, vget al' i = vget al i / bound).
      { intros i. unfold al', vget. destruct (Nat.lt_ge_cases i M) as [Hi|Hi].
        - rewrite nth_indep with (d' := 0 / bound) by (rewrite map_length, Hal; exact Hi).
          apply (map_nth (fun x => x / bound)).
        - rewrite !nth_overflow; [field; lra| |]; rewrite ?map_length, Hal; exact Hi. }
      assert (Hal' : length al' = M) by (unfold al'; rewrite map_length; exact Hal).
      assert (Hnn' : forall i, 0 <= vget al' i).
      { intros i. rewrite Hg. apply Rmult_le_pos; [apply Halnn|]. left. apply Rinv_0_lt_compat. exact Hb. }
      assert (Hs' : nsum M (vget al') <= 1).
      { rewrite (nsum_ext M _ (fun i => vget al i * / bound)) by (intros i _; apply Hg).
        rewrite nsum_scal_r, <- Hsumal. apply (Rmult_le_reg_r bound); [exact Hb|].
        rewrite Rmult_assoc, Rinv_l by lra. lra. }
      apply (IH al' (al' :: acc)); auto. constructor; [|exact Hacc]. apply Hin; auto.
    - apply (IH al (al :: acc)); auto. constructor; [|exact Hacc]. apply Hin; auto.
  Qed.
End program.

Lemma is_seq_rev ss o :
  is_seq ss (match o with Some l => Some (rev l) | None => None end) = is_seq (rev ss) o.
Proof.
  destruct o as [l|]; [|reflexivity]. unfold is_seq.
  destruct (list_eq_dec Nat.eq_dec ss (rev l)) as [->|E];
    destruct (list_eq_dec Nat.eq_dec (rev _) l) as [E'|E']; try reflexivity.
  - rewrite rev_involutive in E'. congruence.
  - exfalso. apply E. rewrite <- E', rev_involutive. reflexivity.
Qed.

Lemma combine_map {A B C} (f : A -> B) (g : A -> C) l :
  combine (map f l) (map g l) = map (fun x => (f x, g x)) l.
Proof. induction l; simpl; congruence. Qed.

Lemma combine_app_l {A B} (l : list A) (l1 l2 : list B) : length l = length l1 ->
  combine l (l1 ++ l2) = combine l l1.
Proof.
  revert l1. induction l as [|a l IH]; intros [|b l1] H; simpl in *; try lia; [reflexivity..|].
  f_equal. apply IH. lia.
Qed.

Lemma broadcast_select (Gammas : list mat) N : length Gammas = 1%nat \/ length Gammas = N ->
  broadcast Gammas N
  = Some (map (fun n => nth (if Nat.eqb (length Gammas) 1 then 0%nat else n) Gammas []) (seq 0 N)).
Proof.
  unfold broadcast. intros [Hl|Hl].
  - rewrite Hl. destruct Gammas as [|G [|]]; try (simpl in Hl; lia). clear Hl.
    assert (Hr : forall k, repeat G N = map (fun _ => nth 0 [G] []) (seq k N)).
    { simpl. induction N; intros k; simpl; f_equal; auto. }
    simpl. destruct N as [|[|n]]; [reflexivity|reflexivity|]. f_equal. exact (Hr 0%nat).
  - rewrite Hl, Nat.eqb_refl. f_equal.
    destruct (Nat.eqb_spec N 1) as [E|E].
    + rewrite E in *. destruct Gammas as [|G [|]]; try (simpl in Hl; lia). reflexivity.
    + rewrite <- Hl. clear.
      apply nth_ext with (d := []) (d' := []); [rewrite map_length, seq_length; reflexivity|].
      intros n Hn.
      rewrite nth_indep with (d' := nth 0 Gammas []) (l := map _ _) by (rewrite map_length, seq_length; auto).
      rewrite (map_nth (fun i => nth i Gammas []) (seq 0 (length Gammas)) 0%nat).
      rewrite seq_nth by auto. reflexivity.
Qed.

Section ffbs.
  Context (gamma_0 : vec) (Gammas : list mat) (log_lik : list (list (option R))) (N : nat) (bound : R).
  Context (Hargs : ffbs_args gamma_0 Gammas log_lik N) (Hb : 0 < bound).

  Let M := length gamma_0.
  Let gsel (n : nat) : mat := nth (if Nat.eqb (length Gammas) 1 then 0%nat else n) Gammas [].
  Let fs := hmm_of Gammas log_lik N.
  Let total := lsum gamma_0.
  Let g0 := fun i => vget gamma_0 i / nsum M (vget gamma_0).

  Lemma broadcast_spec : broadcast Gammas N = Some (map gsel (seq 0 N)).
  Proof using Hargs. apply broadcast_select. apply (fa_Gs _ _ _ _ Hargs). Qed.

  Lemma steps_crel :
    Forall2 crel (combine (transpose log_lik N) (map gsel (seq 0 N))) fs.
  Proof using Hargs.
    unfold transpose, fs, hmm_of. rewrite combine_map.
    assert (H : forall l, Forall2 crel (map (fun x => (column log_lik x, gsel x)) l)
      (map (fun n => ((fun s => elik (nth n (nth s log_lik []) None)),
                      (fun i j => mget (gsel n) i j))) l)); [|apply H].
    induction l as [|n l IH]; simpl; constructor; [|exact IH].
    split; cbn [fst snd]; [|reflexivity].
    intros s. unfold column.
    destruct (Nat.lt_ge_cases s (length log_lik)) as [Hs|Hs].
    - rewrite nth_indep with (d' := nth n [] None) (l := map _ _) by (rewrite map_length; exact Hs).
      rewrite (map_nth (fun row => nth n row None) log_lik [] s). reflexivity.
    - rewrite !nth_overflow; [reflexivity|rewrite map_length; exact Hs|rewrite nth_overflow by exact Hs; simpl; lia].
  Qed.

  Lemma gsel_nonneg n i j : 0 <= mget (gsel n) i j.
  Proof using Hargs.
    unfold mget, vget, gsel.
    match goal with |- 0 <= nth j (nth i (nth ?k Gammas []) []) 0 => generalize k end. intros k.
    destruct (Nat.lt_ge_cases k (length Gammas)) as [Hk|Hk].
    2:{ rewrite (nth_overflow Gammas) by exact Hk. destruct i, j; simpl; lra. }
    pose proof (nth_In Gammas [] Hk) as HG. set (G := nth k Gammas []) in *.
    destruct (Nat.lt_ge_cases i (length G)) as [Hi|Hi].
    2:{ rewrite (nth_overflow G) by exact Hi. destruct j; simpl; lra. }
    pose proof (nth_In G [] Hi) as Hrow. set (row := nth i G []) in *.
    destruct (Nat.lt_ge_cases j (length row)) as [Hj|Hj].
    2:{ rewrite nth_overflow by exact Hj. lra. }
    eapply (fa_G _ _ _ _ Hargs); [exact HG|exact Hrow|]. apply nth_In. exact Hj.
  Qed.

  Lemma fs_ok : Forall (okstep M) fs.
  Proof using Hargs.
    unfold fs, hmm_of. apply Forall_forall. intros st Hst.
    apply in_map_iff in Hst as (n & <- & _). split; [|split]; cbn [fst snd].
    - intros s. destruct (nth n (nth s log_lik []) None); simpl; [left; apply exp_pos|lra].
    - intros s Hs. rewrite (nth_overflow log_lik); [destruct n; reflexivity|].
      rewrite (fa_ll _ _ _ _ Hargs). exact Hs.
    - intros i j. apply (gsel_nonneg n i j).
  Qed.

  Lemma g0_nonneg i : 0 <= vget gamma_0 i.
  Proof using Hargs.
    unfold vget. destruct (Nat.lt_ge_cases i (length gamma_0)) as [Hi|Hi].
    - apply (fa_g0 _ _ _ _ Hargs). apply nth_In. exact Hi.
    - rewrite nth_overflow by exact Hi. lra.
  Qed.

  Lemma total_nsum : total = nsum M (vget gamma_0).
  Proof using. unfold total. rewrite lsum_nsum. reflexivity. Qed.

  Lemma g0n_nonneg i : 0 <= g0 i.
  Proof using Hargs.
    unfold g0. pose proof (nsum_nonneg M (vget gamma_0) (fun i _ => g0_nonneg i)) as H.
    destruct (Req_EM_T (nsum M (vget gamma_0)) 0) as [E|E].
    - destruct (Nat.lt_ge_cases i M) as [Hi|Hi].
      + rewrite (nsum_zero_all M _ (fun i _ => g0_nonneg i) E i Hi). unfold Rdiv. lra.
      + unfold vget. rewrite nth_overflow by exact Hi. unfold Rdiv. lra.
    - apply Rmult_le_pos; [apply g0_nonneg|]. left. apply Rinv_0_lt_compat. lra.
  Qed.

  Lemma fs_length : length fs = N.
  Proof using. unfold fs, hmm_of. rewrite map_length, seq_length. reflexivity. Qed.

  Lemma fs_ne : rev fs <> [].
  Proof using Hargs.
    pose proof fs_length as H. pose proof (fa_N _ _ _ _ Hargs). intros E.
    assert (length (rev fs) = 0%nat) by (rewrite E; reflexivity).
    rewrite rev_length in H1. lia.
  Qed.

  Lemma joint_J ss : joint M (vget gamma_0) fs ss = J M g0 (rev fs) (rev ss).
  Proof using Hargs.
    rewrite <- jw_J by apply fs_ne. rewrite !rev_involutive. reflexivity.
  Qed.

  Lemma evidence_Fwd : evidence M (vget gamma_0) fs = nsum M (Fwd M g0 (rev fs)).
  Proof using Hargs.
    rewrite <- sum_J_all by apply fs_ne. unfold evidence. rewrite rev_length.
    apply lsum_map_ext. intros ss _. apply joint_J.
  Qed.

  Lemma evidence_nonneg : 0 <= evidence M (vget gamma_0) fs.
  Proof using Hargs.
    rewrite evidence_Fwd. apply nsum_nonneg. intros i Hi. apply Fwd_nonneg; auto.
    - intros k _. apply g0n_nonneg.
    - apply Forall_rev, fs_ok.
  Qed.

  Lemma evidence_total : evidence M (vget gamma_0) fs <> 0 -> total <> 0.
  Proof using Hargs.
    intros H E. apply H. rewrite evidence_Fwd. apply nsum_zero. intros i _.
    replace (rev fs) with (rev fs ++ []) by apply app_nil_r. apply Fwd_zero.
    intros s. simpl. unfold g0. rewrite <- total_nsum, E.
    destruct (Nat.lt_ge_cases s M) as [Hs|Hs].
    - rewrite total_nsum in E. rewrite (nsum_zero_all M _ (fun i _ => g0_nonneg i) E s Hs).
      unfold Rdiv. ring.
    - unfold vget. rewrite nth_overflow by exact Hs. unfold Rdiv. ring.
  Qed.

  (** what the program computes, as an expectation *)
  Lemma ffbs_dexp g :
    dexp (ffbs_step gamma_0 Gammas log_lik N bound) g = g None /\ evidence M (vget gamma_0) fs = 0 \/
    exists aN pairs, scaled M aN (Fwd M g0 (rev fs)) /\ prel M g0 (rev fs) pairs /\
      dexp (ffbs_step gamma_0 Gammas log_lik N bound) g =
      dexp (normed_categorical aN) (fun o => match o with
         | Some s => dexp (backward M pairs s) (fun o' => match o' with
             | Some rest => g (Some (rev (s :: rest)))
             | None => g None end)
         | None => g None end).
  Proof using Hargs Hb.
    unfold ffbs_step. fold M total.
    destruct (Req_EM_T total 0) as [E|E].
    { left. rewrite dexp_fail. split; [reflexivity|].
      destruct (Req_EM_T (evidence M (vget gamma_0) fs) 0) as [E0|E0]; [exact E0|].
      exfalso. exact (evidence_total E0 E). }
    rewrite broadcast_spec.
    pose proof (forward_spec M g0 bound Hb _ _ [] (map (fun x => x / total) gamma_0) [] steps_crel) as HF.
    rewrite app_nil_r in HF.
    match type of HF with ?A -> _ => assert (H0 : A) end.
    { split; [rewrite map_length; reflexivity|]. exists 1. split; [lra|]. intros i Hi.
      unfold vget at 1. rewrite nth_indep with (d' := 0 / total) by (rewrite map_length; exact Hi).
      rewrite (map_nth (fun x => x / total)). simpl. unfold g0. rewrite <- total_nsum. unfold vget. ring. }
    specialize (HF H0 I).
    destruct (forward bound M _ _ []) as [l|] eqn:Ef.
    2:{ left. rewrite dexp_fail. split; [reflexivity|]. rewrite evidence_Fwd. apply nsum_zero.
        intros i _. apply HF. }
    pose proof fs_ne as Hne.
    destruct (rev fs) as [|st sr] eqn:Er; [congruence|].
    destruct l as [|aN earlier]; [contradiction|].
    right. exists aN, (combine earlier (rev (tl (map gsel (seq 0 N))))).
    split; [exact (proj1 HF)|]. split.
    - assert (HGs : Forall2 (fun Gm (st : hmm_step) => forall i j, mget Gm i j = snd st i j)
                 (rev (map gsel (seq 0 N))) (st :: sr)).
      { rewrite <- Er. unfold fs, hmm_of. rewrite <- !map_rev.
        generalize (rev (seq 0 N)). induction l as [|n l IH]; simpl; constructor; [|exact IH].
        intros i j. reflexivity. }
      pose proof (arel_prel M g0 (st :: sr) aN earlier _ ltac:(congruence) HF HGs) as Hp.
      assert (Hlen : length earlier = length (rev (tl (map gsel (seq 0 N))))).
      { assert (Hal : forall sr acc, arel M g0 sr acc -> length sr = length acc).
        { clear. induction sr as [|st sr IH]; intros [|a acc]; simpl; try tauto.
          intros [_ H]. f_equal. auto. }
        pose proof (Hal _ _ HF) as Hl. simpl in Hl.
        pose proof fs_length as Hfl. rewrite <- rev_length, Er in Hfl. simpl in Hfl.
        rewrite rev_length. pose proof (fa_N _ _ _ _ Hargs).
        destruct N as [|n]; [lia|]. simpl. rewrite map_length, seq_length. lia. }
      destruct (map gsel (seq 0 N)) as [|G1 Gtl] eqn:EG; [exact Hp|].
      cbn [rev] in Hp. cbn [tl] in Hlen |- *. rewrite (combine_app_l _ _ _ Hlen) in Hp. exact Hp.
    - rewrite dexp_bind. apply dexp_ext. intros [s|]; [|reflexivity].
      rewrite dexp_bind. apply dexp_ext. intros [rest|]; [|reflexivity].
      rewrite dexp_ret. reflexivity.
  Qed.

  Lemma ffbs_exact ss : 0 < evidence M (vget gamma_0) fs ->
    dprob (ffbs_step gamma_0 Gammas log_lik N bound) (is_seq ss) = posterior M (vget gamma_0) fs ss.
  Proof using Hargs Hb.
    intros Hev. rewrite dprob_dexp.
    destruct (ffbs_dexp (fun o => if is_seq ss o then 1 else 0))
      as [[_ E]|(aN & pairs & Ha & Hp & ->)]; [lra|].
    rewrite (normed_categorical_spec M _ _ _ Ha).
    unfold posterior. rewrite joint_J, evidence_Fwd. rewrite evidence_Fwd in Hev.
    destruct (Req_EM_T _ 0) as [E|_]; [lra|].
    assert (Hin : forall s, dexp (backward M pairs s) (fun o' => match o' with
             | Some rest => if is_seq ss (Some (rev (s :: rest))) then 1 else 0
             | None => if is_seq ss (@None (list nat)) then 1 else 0 end)
           = dexp (backward M pairs s) (fun o' => if is_seq (rev ss)
               (match o' with Some rest => Some (s :: rest) | None => None end) then 1 else 0)).
    { intros s. apply dexp_ext. intros [rest|]; [|reflexivity].
      rewrite <- (is_seq_rev ss (Some (s :: rest))). reflexivity. }
    rewrite (nsum_ext M _ _ (fun s _ => f_equal (Rmult _) (Hin s))). clear Hin.
    pose proof fs_ok as Hok. apply Forall_rev in Hok.
    destruct (rev fs) as [|[L G] sr] eqn:Er; [exfalso; exact (fs_ne Er)|].
    set (Z := nsum M (Fwd M g0 ((L, G) :: sr))) in *.
    destruct (rev ss) as [|s ssr].
    { rewrite nsum_zero; [simpl; unfold Rdiv; ring|]. intros i _.
      rewrite (dexp_ext _ _ (fun _ => 0)).
      2:{ intros [rest|]; reflexivity. }
      replace (dexp (backward M pairs i) (fun _ => 0)) with 0; [ring|].
      generalize (backward M pairs i). intros d. induction d as [|[o w] d IHd]; simpl; [reflexivity|].
      rewrite <- IHd. ring. }
    assert (Hsel : forall i, dexp (backward M pairs i) (fun o' => if is_seq (s :: ssr)
               (match o' with Some rest => Some (i :: rest) | None => None end) then 1 else 0)
            = (if Nat.eq_dec s i then 1 else 0) * dprob (backward M pairs i) (is_seq ssr)).
    { intros i. rewrite dprob_dexp, <- (is_seq_cons i ssr s), dexp_bind.
      apply dexp_ext. intros [rest|]; [rewrite dexp_ret|]; reflexivity. }
    rewrite (nsum_ext M _ _ (fun i _ => f_equal (Rmult _) (Hsel i))).
    destruct (Nat.lt_ge_cases s M) as [Hs|Hs].
    - rewrite (nsum_single M _ s Hs).
      2:{ intros i _ Hne. destruct (Nat.eq_dec s i); [congruence|ring]. }
      destruct (Nat.eq_dec s s) as [_|]; [|congruence].
      rewrite <- (backward_prob M g0 (fun i _ => g0n_nonneg i) sr L G pairs s ssr Hok Hp Hs).
      unfold Rdiv. ring.
    - rewrite nsum_zero.
      2:{ intros i Hi. destruct (Nat.eq_dec s i); [lia|ring]. }
      apply Forall_cons_iff in Hok as [(_ & HL & _) _]. simpl in HL.
      cbn [J]. rewrite (HL s Hs). destruct sr, ssr; unfold Rdiv; ring.
  Qed.

  Lemma ffbs_no_failure : 0 < evidence M (vget gamma_0) fs ->
    dprob (ffbs_step gamma_0 Gammas log_lik N bound) is_failure = 0.
  Proof using Hargs Hb.
    intros Hev. rewrite dprob_dexp.
    destruct (ffbs_dexp (fun o => if is_failure o then 1 else 0))
      as [[_ E]|(aN & pairs & Ha & Hp & ->)]; [lra|].
    rewrite (normed_categorical_spec M _ _ _ Ha). rewrite evidence_Fwd in Hev.
    destruct (Req_EM_T _ 0) as [E|E]; [lra|].
    apply nsum_zero. intros i Hi.
    rewrite (dexp_ext _ _ (fun o => if is_failure o then 1 else 0)).
    2:{ intros [rest|]; reflexivity. }
    rewrite <- dprob_dexp.
    pose proof fs_ok as Hok. apply Forall_rev in Hok.
    destruct (rev fs) as [|[L G] sr] eqn:Er; [exfalso; exact (fs_ne Er)|].
    pose proof (backward_fail M g0 sr L G pairs i Hok Hp Hi) as Hf.
    set (Z := nsum M (Fwd M g0 ((L, G) :: sr))) in *.
    replace (Fwd M g0 ((L, G) :: sr) i / Z * dprob (backward M pairs i) is_failure)
      with (dprob (backward M pairs i) is_failure * Fwd M g0 ((L, G) :: sr) i * / Z)
      by (unfold Rdiv; ring).
    rewrite Hf. ring.
  Qed.

  Lemma ffbs_impossible : evidence M (vget gamma_0) fs = 0 ->
    dprob (ffbs_step gamma_0 Gammas log_lik N bound) is_failure = 1 /\
    forall ss, dprob (ffbs_step gamma_0 Gammas log_lik N bound) (is_seq ss) = 0.
  Proof using Hargs Hb.
    intros Hev.
    assert (H : forall g, dexp (ffbs_step gamma_0 Gammas log_lik N bound) g = g None).
    { intros g. destruct (ffbs_dexp g) as [[H _]|(aN & pairs & Ha & Hp & ->)]; [exact H|].
      rewrite (normed_categorical_spec M _ _ _ Ha). rewrite evidence_Fwd in Hev.
      destruct (Req_EM_T _ 0) as [_|E]; [reflexivity|contradiction]. }
    split; [|intros ss]; rewrite dprob_dexp, H; reflexivity.
  Qed.
End ffbs.

Lemma ffbs_bound_irrelevant gamma_0 Gammas log_lik N b1 b2 :
  ffbs_args gamma_0 Gammas log_lik N -> 0 < b1 -> 0 < b2 ->
  (forall ss, dprob (ffbs_step gamma_0 Gammas log_lik N b1) (is_seq ss)
            = dprob (ffbs_step gamma_0 Gammas log_lik N b2) (is_seq ss)) /\
  dprob (ffbs_step gamma_0 Gammas log_lik N b1) is_failure
  = dprob (ffbs_step gamma_0 Gammas log_lik N b2) is_failure.
Proof.
  intros Ha H1 H2.
  destruct (Rle_lt_or_eq_dec 0 _ (evidence_nonneg gamma_0 Gammas log_lik N Ha)) as [Hev|Hev].
  - split; [intros ss; rewrite !ffbs_exact by assumption; reflexivity|].
    rewrite !ffbs_no_failure by assumption. reflexivity.
  - symmetry in Hev.
    destruct (ffbs_impossible _ _ _ _ _ Ha H1 Hev) as [F1 S1].
    destruct (ffbs_impossible _ _ _ _ _ Ha H2 Hev) as [F2 S2].
    split; [intros ss; rewrite S1, S2|rewrite F1, F2]; reflexivity.
Qed.

(** ** The specification is a probability over the sequences of [N] states *)
Lemma sequences_spec M n ss : In ss (sequences M n) <-> length ss = n /\ forall s, In s ss -> (s < M)%nat.
Proof.
  revert ss. induction n as [|n IH]; intros ss; simpl.
  - split; [intros [<-|[]]; split; [reflexivity|simpl; tauto]|].
    intros [H _]. left. destruct ss; [reflexivity|discriminate].
  - rewrite in_flat_map. split.
    + intros (ss' & Hss' & Hin). apply in_map_iff in Hin as (s & <- & Hs). apply in_seq in Hs.
      apply IH in Hss' as [Hl Hall]. rewrite app_length. simpl. split; [lia|].
      intros x Hx. apply in_app_iff in Hx as [Hx|[<-|[]]]; [auto|lia].
    + intros [Hl Hall]. destruct (exists_last (l := ss)) as (ss' & s & ->); [destruct ss; [discriminate|congruence]|].
      rewrite app_length in Hl. simpl in Hl. exists ss'. split.
      * apply IH. split; [lia|]. intros x Hx. apply Hall. apply in_app_iff. auto.
      * apply in_map_iff. exists s. split; [reflexivity|]. apply in_seq.
        specialize (Hall s). rewrite in_app_iff in Hall. simpl in Hall. split; [lia|]. apply Hall. auto.
Qed.

Lemma sequences_NoDup M n : NoDup (sequences M n).
Proof.
  induction n as [|n IH]; simpl; [constructor; [simpl; tauto|constructor]|].
  assert (H : forall l, NoDup l -> NoDup (flat_map (fun ss : list nat => map (fun s => ss ++ [s]) (seq 0 M)) l)).
  { induction l as [|ss l IHl]; simpl; intros Hnd; [constructor|].
    inversion Hnd as [|? ? Hnin Hnd']; subst.
    assert (Hm : NoDup (map (fun s => ss ++ [s]) (seq 0 M))).
    { apply FinFun.Injective_map_NoDup; [|apply seq_NoDup].
      intros a b E. apply app_inj_tail in E. tauto. }
    specialize (IHl Hnd'). clear Hnd Hnd' IH.
    assert (Hdis : forall x, In x (map (fun s => ss ++ [s]) (seq 0 M)) ->
       ~ In x (flat_map (fun ss : list nat => map (fun s => ss ++ [s]) (seq 0 M)) l)).
    { intros x Hx Hx'. apply in_map_iff in Hx as (s & <- & _).
      apply in_flat_map in Hx' as (ss' & Hss' & Hin). apply in_map_iff in Hin as (s' & E & _).
      apply app_inj_tail in E as [-> _]. contradiction. }
    clear Hnin. revert Hdis. induction Hm as [|x m Hx Hm IHm]; simpl; intros Hdis; [exact IHl|].
    constructor; [rewrite in_app_iff|].
    - intros [H|H]; [contradiction|]. apply (Hdis x); auto.
    - apply IHm. intros y Hy. apply Hdis. auto. }
  apply H. exact IH.
Qed.

Lemma posterior_sums M g0 steps : evidence M g0 steps <> 0 ->
  lsum (map (posterior M g0 steps) (sequences M (length steps))) = 1.
Proof.
  intros H. unfold posterior. unfold Rdiv. rewrite lsum_map_scal_r.
  fold (evidence M g0 steps). apply Rinv_r. exact H.
Qed.

Lemma joint_outside gamma_0 Gammas log_lik N ss : ffbs_args gamma_0 Gammas log_lik N ->
  joint (length gamma_0) (vget gamma_0) (hmm_of Gammas log_lik N) ss <> 0 ->
  In ss (sequences (length gamma_0) N).
Proof.
  intros Ha Hj. apply sequences_spec.
  assert (H : forall steps s0 ss, Forall (okstep (length gamma_0)) steps ->
     path_weight s0 steps ss <> 0 ->
     length ss = length steps /\ forall s, In s ss -> (s < length gamma_0)%nat).
  { clear. induction steps as [|[L G] steps IH]; intros s0 ss Hok Hp.
    - destruct ss; simpl in *; [split; [reflexivity|tauto]|congruence].
    - destruct ss as [|s ss]; [simpl in Hp; congruence|].
      apply Forall_cons_iff in Hok as [(_ & HL & _) Hok]. simpl in HL. simpl in Hp.
      assert (Hp' : path_weight s steps ss <> 0) by (intros E; apply Hp; rewrite E; ring).
      destruct (IH s ss Hok Hp') as [Hl Hall]. split; [simpl; lia|].
      intros x [<-|Hx]; [|auto]. destruct (Nat.lt_ge_cases s (length gamma_0)); [assumption|].
      exfalso. apply Hp. rewrite HL by assumption. ring. }
  assert (Hex : exists s0, path_weight s0 (hmm_of Gammas log_lik N) ss <> 0).
  { unfold joint in Hj. apply nsum_nonzero in Hj as (i & _ & Hi). exists i. intros E.
    apply Hi. rewrite E. ring. }
  destruct Hex as [s0 Hs0]. apply H in Hs0 as [Hl Hall]; [|apply fs_ok; exact Ha].
  rewrite fs_length in Hl. auto.
Qed.

Lemma ffbs_valid gamma_0 Gammas log_lik N bound ss : ffbs_args gamma_0 Gammas log_lik N -> 0 < bound ->
  dprob (ffbs_step gamma_0 Gammas log_lik N bound) (is_seq ss) <> 0 ->
  length ss = N /\ forall s, In s ss -> (s < length gamma_0)%nat.
Proof.
  intros Ha Hb Hp.
  destruct (Rle_lt_or_eq_dec 0 _ (evidence_nonneg gamma_0 Gammas log_lik N Ha)) as [Hev|Hev].
  - rewrite ffbs_exact in Hp by assumption. apply sequences_spec. apply (joint_outside gamma_0 Gammas log_lik N); [exact Ha|].
    intros E. apply Hp. unfold posterior. rewrite E. unfold Rdiv. ring.
  - exfalso. apply Hp. apply ffbs_impossible; auto.
Qed.

Lemma ffbs_forward_bounded gamma_0 Gammas log_lik N bound Gs alphas :
  ffbs_args gamma_0 Gammas log_lik N -> 0 < bound -> lsum gamma_0 <> 0 ->
  (forall G row, In G Gammas -> In row G -> lsum row <= 1) ->
  broadcast Gammas N = Some Gs ->
  forward bound (length gamma_0) (combine (transpose log_lik N) Gs)
    (map (fun x => x / lsum gamma_0) gamma_0) [] = Some alphas ->
  forall alpha x, In alpha alphas -> In x alpha -> 0 <= x <= 1.
Proof.
  intros Ha Hb Ht Hrows HG Hf alpha x Hal Hx.
  assert (HF : Forall (fun a => forall x, In x a -> 0 <= x <= 1) alphas).
  2:{ rewrite Forall_forall in HF. exact (HF alpha Hal x Hx). }
  rewrite (broadcast_spec _ _ _ _ Ha) in HG. injection HG as <-.
  set (M := length gamma_0) in *.
  assert (Hpos : 0 < lsum gamma_0).
  { destruct (Rle_lt_or_eq_dec 0 (lsum gamma_0)) as [H|H]; [|exact H|congruence].
    apply lsum_nonneg. apply (fa_g0 _ _ _ _ Ha). }
  assert (Hget : forall i, vget (map (fun x => x / lsum gamma_0) gamma_0) i = vget gamma_0 i / lsum gamma_0).
  { intros i. unfold vget. destruct (Nat.lt_ge_cases i M) as [Hi|Hi].
    - rewrite nth_indep with (d' := 0 / lsum gamma_0) by (rewrite map_length; exact Hi).
      apply (map_nth (fun x => x / lsum gamma_0)).
    - rewrite !nth_overflow; [field; lra| |]; rewrite ?map_length; exact Hi. }
  eapply (forward_bounded M bound Hb); [| | | | |exact Hf].
  - unfold transpose. rewrite combine_map. apply Forall_forall. intros p Hp.
    apply in_map_iff in Hp as (n & <- & Hn). cbn [snd]. split.
    + intros i j. apply (gsel_nonneg _ _ _ _ Ha).
    + intros i Hi. unfold mget.
      match goal with |- nsum M (fun j => vget (nth i (nth ?k Gammas []) []) j) <= 1 => set (kk := k) end.
      assert (Hk : (kk < length Gammas)%nat).
      { unfold kk. apply in_seq in Hn. destruct (fa_Gs _ _ _ _ Ha) as [E|E]; rewrite E.
        - simpl. lia.
        - destruct (Nat.eqb_spec N 1); lia. }
      pose proof (nth_In Gammas [] Hk) as HGin.
      destruct (fa_Gshape _ _ _ _ Ha _ HGin) as [HGl HGr].
      assert (Hi' : (i < length (nth kk Gammas []))%nat) by (rewrite HGl; exact Hi).
      pose proof (nth_In _ [] Hi') as Hrow.
      pose proof (HGr _ Hrow) as Hrl. pose proof (Hrows _ _ HGin Hrow) as Hle.
      rewrite lsum_nsum, Hrl in Hle. exact Hle.
  - rewrite map_length. reflexivity.
  - intros i. rewrite Hget. apply Rmult_le_pos; [apply (g0_nonneg _ _ _ _ Ha)|].
    left. apply Rinv_0_lt_compat. exact Hpos.
  - rewrite (nsum_ext M _ (fun i => vget gamma_0 i * / lsum gamma_0)) by (intros i _; apply Hget).
    rewrite nsum_scal_r. rewrite <- (lsum_nsum gamma_0 : lsum gamma_0 = nsum M (vget gamma_0)).
    right. apply Rinv_r. exact Ht.
  - constructor.
Qed.
