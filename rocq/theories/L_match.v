(** Lemmas for pattern matching. *)
From Verif Require Import S_match L_LibPy L_tensor L_eval S_subsume.

Section pat_ind.
  Context (P : pat -> Prop) (Hlv : forall i, P (PLv i)) (Hany : P PAny)
    (Het : forall o ps, Forall P ps -> P (PEt o ps)).
  Fixpoint pat_ind' (p : pat) : P p :=
    match p with
    | PLv i => Hlv i
    | PAny => Hany
    | PEt o ps => Het o ps ((fix go (ps : list pat) : Forall P ps :=
        match ps with [] => Forall_nil_2 _ | p :: ps' => Forall_cons_2 _ _ _ (pat_ind' p) (go ps') end) ps)
    end.
End pat_ind.

Fixpoint umatches (h : heap) (ps : list pat) (vs : list vid) (s : dict nat nat) : option (dict nat nat) :=
  match ps, vs with
  | [], [] => Some s
  | p :: ps', v :: vs' => match umatch h p v s with Some s' => umatches h ps' vs' s' | None => None end
  | _, _ => None
  end.

Lemma umatch_et h o ps v s :
  umatch h (PEt o ps) v s =
  match owner h v with
  | None => None
  | Some (n, _) => match hn h n with
                   | None => None
                   | Some nd => if op_unify o (n_op nd) then umatches h ps (n_ins nd) s else None
                   end
  end.
Proof.
  cbn. destruct (owner h v) as [[n k]|]; [|done]. destruct (hn h n) as [nd|]; [|done].
  destruct (op_unify o (n_op nd)); [|done].
  generalize (n_ins nd) s. induction ps as [|p ps IH]; intros [|w ws] s0; try done.
  cbn. destruct (umatch h p w s0); [|done]. apply IH.
Qed.

Lemma op_unify_spec o o' : op_unify o o' = true <-> stands_for o' o.
Proof. unfold op_unify, stands_for. destruct o'; rewrite bool_decide_eq_true; done. Qed.

Lemma dget_app (d1 d2 : dict nat nat) k : dget (d1 ++ d2) k = match dget d1 k with Some v => Some v | None => dget d2 k end.
Proof. induction d1 as [|[k' v'] d1 IH]; [done|]. cbn. by case_decide. Qed.

Lemma dset_new (d : dict nat nat) k v : k ∉ dkeys d -> dset d k v = d ++ [(k, v)].
Proof.
  induction d as [|[k' v'] d IH]; [done|]. cbn. intros [Hne Hk]%not_elem_of_cons.
  rewrite decide_False by done. by rewrite IH.
Qed.

Lemma dget_None (d : dict nat nat) k : k ∉ dkeys d -> dget d k = None.
Proof.
  induction d as [|[k' v'] d IH]; [done|]. cbn. intros [Hne Hk]%not_elem_of_cons.
  rewrite decide_False by done. by apply IH.
Qed.

Scheme instance_ind2 := Induction for instance Sort Prop
  with instances_ind2 := Induction for instances Sort Prop.
Combined Scheme instance_mutind from instance_ind2, instances_ind2.

Lemma instance_ext h s1 s2 p v :
  (forall i x, s1 i = Some x -> s2 i = Some x) -> instance h s1 p v -> instance h s2 p v.
Proof.
  intros Hext Hi. revert p v Hi.
  apply (instance_ind2 h s1 (fun p v _ => instance h s2 p v) (fun ps vs _ => instances h s2 ps vs)); econstructor; eauto.
Qed.

Lemma umatch_sound h p : forall v s s',
  NoDup (dkeys s ++ pat_lvs p) -> umatch h p v s = Some s' ->
  exists e, s' = s ++ e /\ dkeys e = pat_lvs p /\ instance h (dget s') p v.
Proof.
  induction p as [i| |o ps IH] using pat_ind'; intros v s s' Hnd Hm.
  - cbn in Hm. injection Hm as <-. cbn in Hnd. apply NoDup_app in Hnd as (_ & Hd & _).
    assert (Hi : i ∉ dkeys s) by (intros Hi; apply (Hd i Hi); by left).
    exists [(i, v)]. rewrite dset_new by done. split_and!; [done..|]. constructor.
    rewrite dget_app, dget_None by done. cbn. by rewrite decide_True.
  - cbn in Hm. injection Hm as <-. exists []. rewrite app_nil_r. split_and!; [done..|constructor].
  - rewrite umatch_et in Hm. destruct (owner h v) as [[n k]|] eqn:Ho; [|done].
    destruct (hn h n) as [nd|] eqn:Hn; [|done]. destruct (op_unify o (n_op nd)) eqn:Hop; [|done].
    apply op_unify_spec in Hop.
    assert (Hl : forall vs s s', NoDup (dkeys s ++ flat_map pat_lvs ps) -> umatches h ps vs s = Some s' ->
      exists e, s' = s ++ e /\ dkeys e = flat_map pat_lvs ps /\ instances h (dget s') ps vs).
    { clear -IH. induction IH as [|p ps Hp Hps IHps]; intros [|w ws] s s' Hnd Hm; cbn in Hm; try done.
      - injection Hm as <-. exists []. rewrite app_nil_r. split_and!; [done..|constructor].
      - destruct (umatch h p w s) as [s1|] eqn:H1; [|done]. cbn [flat_map] in Hnd. rewrite app_assoc in Hnd.
        pose proof Hnd as Hnd'. apply NoDup_app in Hnd as (Hnd1 & Hd & Hnd2).
        destruct (Hp w s s1 Hnd1 H1) as (e1 & -> & Hk1 & Hi1).
        destruct (IHps ws (s ++ e1) s') as (e2 & -> & Hk2 & Hi2); [|done|].
        { unfold dkeys in *. rewrite map_app, Hk1. done. }
        exists (e1 ++ e2). rewrite app_assoc. split_and!; [done| |].
        + unfold dkeys in *. rewrite map_app. cbn. congruence.
        + constructor; [|done]. eapply instance_ext; [|exact Hi1]. intros i x Hx. by rewrite dget_app, Hx. }
    destruct (Hl _ _ _ Hnd Hm) as (e & -> & Hk & Hi). exists e. split_and!; [done..|]. by econstructor.
Qed.

Lemma umatch_complete h sigma p v s : instance h sigma p v -> is_Some (umatch h p v s).
Proof.
  intros Hi. revert p v Hi s.
  apply (instance_ind2 h sigma (fun p v _ => forall s, is_Some (umatch h p v s))
    (fun ps vs _ => forall s, is_Some (umatches h ps vs s))).
  - intros; eexists; reflexivity.
  - intros; eexists; reflexivity.
  - intros o ps v n k nd Ho Hn Hop _ IH s. rewrite umatch_et, Ho, Hn.
    apply op_unify_spec in Hop. rewrite Hop. apply IH.
  - intros; eexists; reflexivity.
  - intros p ps v vs _ IH1 _ IH2 s. cbn. destruct (IH1 s) as [s1 ->]. apply IH2.
Qed.

Lemma instance_unique h s1 s2 p v :
  instance h s1 p v -> instance h s2 p v -> forall i, i ∈ pat_lvs p -> s1 i = s2 i.
Proof.
  intros Hi. revert p v Hi.
  apply (instance_ind2 h s1 (fun p v _ => instance h s2 p v -> forall i, i ∈ pat_lvs p -> s1 i = s2 i)
    (fun ps vs _ => instances h s2 ps vs -> forall i, i ∈ flat_map pat_lvs ps -> s1 i = s2 i)).
  - intros i v Hv H2 j Hj. inversion H2; subst. apply elem_of_list_singleton in Hj as ->. congruence.
  - intros v _ j Hj. by apply elem_of_nil in Hj.
  - intros o ps v n k nd Ho Hn Hop _ IH H2 j Hj. inversion H2; subst. simplify_eq. by apply IH.
  - intros _ j Hj. by apply elem_of_nil in Hj.
  - intros p ps v vs _ IH1 _ IH2 H2 j Hj. inversion H2; subst. cbn in Hj. apply elem_of_app in Hj as [Hj|Hj]; auto.
Qed.

(** ** Values *)
Lemma elemwise_ranks {A} f (ys : list (tensor A)) x :
  elemwise f ys = Some x -> exists n, Forall (fun y => rank y = n) ys.
Proof.
  destruct ys as [|y0 ys]; [done|]. cbn [elemwise]. unfold broadcast_shape.
  intros H. case_decide as Hf; [|done]. exists (rank y0). apply Forall_fmap in Hf. exact Hf.
Qed.

Lemma dimshuffle_rank {A} order (x y : tensor A) : dimshuffle order x = Some y -> rank y = length order.
Proof.
  unfold dimshuffle. destruct (dimshuffle_ok order (t_shape x)); [|done]. intros Hb. unfold rank.
  rewrite (build_shape _ _ _ Hb). apply shuffled_shape_length.
Qed.

Lemma foldr_max_le l n : (forall m, m ∈ l -> m <= n) -> foldr Nat.max 0 l <= n.
Proof. induction l as [|m l IH]; cbn; intros H; [lia|]. pose proof (H m ltac:(by left)). assert (foldr Nat.max 0 l <= n) by (apply IH; intros; apply H; by right). lia. Qed.
Lemma foldr_max_ge l n : n ∈ l -> n <= foldr Nat.max 0 l.
Proof. induction 1; cbn; lia. Qed.

Lemma numpy_equal {A} f (ys : list (tensor A)) x : elemwise f ys = Some x -> numpy_elemwise f ys = Some x.
Proof.
  intros He. destruct (elemwise_ranks f ys x He) as [n Hn]. unfold numpy_elemwise.
  assert (Hmax : ys = [] \/ foldr Nat.max 0 (rank <$> ys) = n).
  { destruct ys as [|y0 ys]; [by left|right]. apply Nat.le_antisymm.
    - apply foldr_max_le. intros m Hm. apply elem_of_list_fmap in Hm as (y & -> & Hy).
      rewrite Forall_forall in Hn. rewrite (Hn y Hy). lia.
    - apply foldr_max_ge. apply Forall_cons in Hn as [Hn _]. rewrite <- Hn. by left. }
  destruct Hmax as [->|Hmax]; [done|]. rewrite Hmax.
  assert (mapM (pad n) ys = Some ys) as ->; [|done].
  clear -Hn. induction Hn as [|y ys Hy Hys IH]; [done|]. assert (Hp : pad n y = Some y) by (unfold pad; by rewrite decide_True).
  change (mapM (pad n) (y :: ys)) with (z ← pad n y; k ← mapM (pad n) ys; Some (z :: k)). by rewrite Hp, IH.
Qed.

Lemma evals_list_lookup {D} (base : op -> list D -> option (list D)) cval h rho vs xs i v :
  evals_list base cval h rho vs xs -> vs !! i = Some v -> exists x, xs !! i = Some x /\ evals base cval h rho v x.
Proof.
  intros Hl. revert i. induction Hl as [|w ws y ys Hy Hl IH]; intros i Hi; [done|].
  destruct i as [|i]; cbn in *; [|by apply IH]. injection Hi as <-. eauto.
Qed.


Lemma evals_list_length {D} (base : op -> list D -> option (list D)) cval h rho vs xs :
  evals_list base cval h rho vs xs -> length xs = length vs.
Proof. induction 1; cbn; lia. Qed.

Lemma mapM_lookups {X Y} (f : X -> option Y) l ys :
  length ys = length l -> (forall i x, l !! i = Some x -> f x = ys !! i) -> mapM f l = Some ys.
Proof.
  revert ys. induction l as [|x l IH]; intros [|y ys] Hlen Hf; try done.
  change (mapM f (x :: l)) with (z ← f x; k ← mapM f l; Some (z :: k)).
  rewrite (Hf 0 x eq_refl). cbn. rewrite (IH ys); [done| |].
  - cbn in Hlen. lia.
  - intros i w Hi. apply (Hf (S i) w Hi).
Qed.

Section value.
  Context {A : Type} (scalar : nat -> list A -> option A) (other : op -> list (tensor A) -> option (list (tensor A))).
  Context (T : typing) (cval : nat -> tensor A) (h : heap) (rho : vid -> option (tensor A)).
  Notation ev := (evals (tensor_base scalar other) cval h rho).

  Hypothesis Hrank : forall v ty x, ty_of h v = Some ty -> ev v x -> rank x = a_ndim T ty.

  Lemma faithful_value s ins args xs ys x :
    faithful T h ins args -> evals_list (tensor_base scalar other) cval h rho ins xs ->
    mapM (sarg_val (tensor_base scalar other) cval xs) args = Some ys ->
    elemwise (scalar s) ys = Some x -> numpy_elemwise (scalar s) xs = Some x.
  Proof.
    intros (Hlen & Hargs & (i0 & k0 & Hi0)) Hins Hys He.
    destruct (elemwise_ranks _ _ _ He) as [n Hn]. rewrite Forall_lookup in Hn.
    pose proof (evals_list_length _ _ _ _ _ _ Hins) as Hlx.
    pose proof (mapM_length _ _ _ Hys) as Hly.
    (* each argument *)
    assert (Hone : forall i v, ins !! i = Some v -> exists a ty xi yi,
      args !! i = Some a /\ xs !! i = Some xi /\ ys !! i = Some yi /\ ty_of h v = Some ty /\ rank xi = a_ndim T ty /\ rank yi = n /\
      ((exists k, a = SIn k None) /\ yi = xi \/
       (exists k j, a = SIn k (Some (replicate j None ++ (Some <$> seq 0 (rank xi)))) /\ 0 < j /\
          dimshuffle (replicate j None ++ (Some <$> seq 0 (rank xi))) xi = Some yi))).
    { intros i v Hi. destruct (lookup_lt_is_Some_2 args i) as [a Ha]; [rewrite Hlen; by eapply lookup_lt_Some|].
      destruct (Hargs i a Ha) as (k & ord & v' & ty & -> & Hi' & Hk & Hty & Hord). rewrite Hi in Hi'. injection Hi' as <-.
      destruct (evals_list_lookup _ _ _ _ _ _ _ _ Hins Hi) as (xi & Hxi & Hev).
      destruct (evals_list_lookup _ _ _ _ _ _ _ _ Hins Hk) as (xk & Hxk & Hevk).
      assert (xk = xi) as -> by (eapply evals_det; eauto).
      destruct (lookup_lt_is_Some_2 ys i) as [yi Hyi]; [rewrite <- Hly; by eapply lookup_lt_Some|].
      pose proof (Hn i yi Hyi) as Hri. pose proof (Hrank v ty xi Hty Hev) as Hrx.
      pose proof (mapM_lookup _ _ _ i _ Hys Ha) as Hyv. rewrite Hyi in Hyv. symmetry in Hyv.
      unfold sarg_val in Hyv. cbn in Hyv. rewrite Hxk in Hyv. cbn in Hyv.
      exists (SIn k ord), ty, xi, yi. split_and!; try done. destruct Hord as [->|(j & Hj & ->)].
      - left. cbn in Hyv. injection Hyv as ->. split; [by eexists|done].
      - right. exists k, j. rewrite Hrx. split_and!; [done..|].
        cbn in Hyv. destruct (dimshuffle _ xi) as [z|]; [|done]. cbn in Hyv. congruence. }
    assert (Hmax : foldr Nat.max 0 (rank <$> xs) = n).
    { apply Nat.le_antisymm.
      - apply foldr_max_le. intros m Hm. apply elem_of_list_fmap in Hm as (xi & -> & Hxi).
        apply elem_of_list_lookup in Hxi as [i Hi].
        destruct (lookup_lt_is_Some_2 ins i) as [v Hv]; [rewrite <- Hlx; by eapply lookup_lt_Some|].
        destruct (Hone i v Hv) as (a & ty & xi' & yi & Ha & Hxi & Hyi & Hty & Hr1 & Hr2 & Hc). simplify_eq.
        destruct Hc as [(_ & ->)|(k & j & _ & Hj & Hd)]; [lia|].
        apply dimshuffle_rank in Hd. rewrite app_length, replicate_length, fmap_length, seq_length in Hd. lia.
      - destruct (lookup_lt_is_Some_2 ins i0) as [v Hv]; [rewrite <- Hlen; by eapply lookup_lt_Some|].
        destruct (Hone i0 v Hv) as (a & ty & xi & yi & Ha & Hxi & Hyi & Hty & Hr1 & Hr2 & Hc). simplify_eq.
        destruct Hc as [(_ & ->)|(k & j & Hbad & _)]; [|discriminate Hbad].
        apply foldr_max_ge. apply elem_of_list_fmap. exists xi. split; [done|]. by eapply elem_of_list_lookup_2. }
    unfold numpy_elemwise. rewrite Hmax.
    assert (mapM (pad n) xs = Some ys) as ->; [|done]. apply mapM_lookups; [lia|].
    intros i xi Hxi. destruct (lookup_lt_is_Some_2 ins i) as [v Hv]; [rewrite <- Hlx; by eapply lookup_lt_Some|].
    destruct (Hone i v Hv) as (a & ty & xi' & yi & Ha & Hxi' & Hyi & Hty & Hr1 & Hr2 & Hc). simplify_eq.
    rewrite Hyi. unfold pad. destruct Hc as [(_ & ->)|(k & j & _ & Hj & Hd)].
    - by rewrite decide_True.
    - pose proof (dimshuffle_rank _ _ _ Hd) as Hr. rewrite app_length, replicate_length, fmap_length, seq_length in Hr.
      rewrite decide_False by lia. rewrite <- Hd. f_equal. f_equal. f_equal. lia.
  Qed.

  Context (sigma : nat -> option vid).

  Lemma instance_value p v : instance h sigma p v -> forall x,
    (forall u, matched_at h p v u -> rho u = None) ->
    (forall u n k nd s args, matched_at h p v u -> owner h u = Some (n, k) -> hn h n = Some nd ->
        n_op nd = OSubsume s args -> faithful T h (n_ins nd) args) ->
    (forall u n k nd, matched_at h p v u -> owner h u = Some (n, k) -> hn h n = Some nd ->
        forall s, stands_for (n_op nd) (OElem s) -> k = 0) ->
    ev v x -> pat_value scalar other cval h rho sigma p x.
  Proof.
    intros Hi. revert p v Hi.
    apply (instance_ind2 h sigma
      (fun p v _ => forall x, (forall u, matched_at h p v u -> rho u = None) ->
         (forall u n k nd s args, matched_at h p v u -> owner h u = Some (n, k) -> hn h n = Some nd ->
            n_op nd = OSubsume s args -> faithful T h (n_ins nd) args) ->
         (forall u n k nd, matched_at h p v u -> owner h u = Some (n, k) -> hn h n = Some nd ->
            forall s, stands_for (n_op nd) (OElem s) -> k = 0) ->
         ev v x -> pat_value scalar other cval h rho sigma p x)
      (fun ps vs _ => forall xs,
         (forall i p v u, ps !! i = Some p -> vs !! i = Some v -> matched_at h p v u -> rho u = None) ->
         (forall i p v u n k nd s args, ps !! i = Some p -> vs !! i = Some v -> matched_at h p v u ->
            owner h u = Some (n, k) -> hn h n = Some nd -> n_op nd = OSubsume s args -> faithful T h (n_ins nd) args) ->
         (forall i p v u n k nd, ps !! i = Some p -> vs !! i = Some v -> matched_at h p v u ->
            owner h u = Some (n, k) -> hn h n = Some nd -> forall s, stands_for (n_op nd) (OElem s) -> k = 0) ->
         evals_list (tensor_base scalar other) cval h rho vs xs -> pat_values scalar other cval h rho sigma ps xs)).
    - intros i v Hs x _ _ _ Hx. by econstructor.
    - intros v x _ _ _ _. constructor.
    - intros o ps v n k nd Ho Hn Hop _ IH x Hr Hf Hk Hx.
      pose proof (Hr v (ma_here _ _ _ _)) as Hrv.
      inversion Hx as [|? w c _ Hw Hwo _|? n' k' nd' xs ys ? _ Ho' Hn' Hl Hsem Hy]; subst; [congruence| |].
      { unfold owner in Ho. rewrite Hw in Ho. cbn in Ho. congruence. }
      rewrite Ho in Ho'. injection Ho' as <- <-. rewrite Hn in Hn'. injection Hn' as <-.
      assert (Hps : pat_values scalar other cval h rho sigma ps xs).
      { apply IH; [| | |done].
        - intros i p w u Hp Hw Hu. apply Hr. by econstructor.
        - intros i p w u m j md s args Hp Hw Hu. apply Hf. by econstructor.
        - intros i p w u m j md Hp Hw Hu. apply Hk. by econstructor. }
      pose proof (Hk v n k nd (ma_here _ _ _ _) Ho Hn) as Hk0.
      pose proof (fun s args => Hf v n k nd s args (ma_here _ _ _ _) Ho Hn) as Hf0.
      unfold stands_for in Hop. destruct (n_op nd) as [d|s|ord|s args|c|gk gi go] eqn:Hnop; subst o.
      + by eapply pv_app.
      + specialize (Hk0 s eq_refl). subst k. cbn in Hsem.
        destruct (elemwise (scalar s) xs) as [y|] eqn:He; [|done]. injection Hsem as <-. cbn in Hy. injection Hy as ->.
        econstructor; [done|]. by apply numpy_equal.
      + by eapply pv_app.
      + specialize (Hk0 s eq_refl). subst k. cbn in Hsem.
        destruct (mapM _ args) as [zs|] eqn:Hz; [|done]. cbn in Hsem.
        destruct (elemwise (scalar s) zs) as [y|] eqn:He; [|done]. injection Hsem as <-. cbn in Hy. injection Hy as ->.
        econstructor; [done|]. eapply faithful_value; eauto.
      + by eapply pv_app.
      + by eapply pv_app.
    - intros xs _ _ _ Hl. inversion Hl; subst. constructor.
    - intros p ps v vs _ IH1 _ IH2 xs Hr Hf Hk Hl. inversion Hl; subst. constructor.
      + apply IH1; [| | |done].
        * intros u Hu. by apply (Hr 0 p v).
        * intros u m j md s args Hu. by apply (Hf 0 p v).
        * intros u m j md Hu. by apply (Hk 0 p v).
      + apply IH2; [| | |done].
        * intros i q w u Hq Hw. by apply (Hr (S i) q w).
        * intros i q w u m j md s args Hq Hw. by apply (Hf (S i) q w).
        * intros i q w u m j md Hq Hw. by apply (Hk (S i) q w).
  Qed.
End value.
