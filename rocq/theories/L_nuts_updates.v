(** Lemmas for nuts.construct_sampler: which shared variable is paired with which update. *)
From Verif Require Export L_nuts_value.

Lemma visits_split h bl st seen o : visits h bl st seen o -> forall st1 st2, st = st1 ++ st2 ->
  exists o1 o2, o = o1 ++ o2 /\ visits h bl st1 seen o1 /\ visits h bl st2 (o1 ++ seen) o2.
Proof.
  induction 1 as [seen|v st seen o Hv H IH|v st seen o Hv H IH]; intros st1 st2 E.
  - symmetry in E. apply app_nil in E as [-> ->]. exists [], []. split; [done|]. split; constructor.
  - destruct st1 as [|v1 st1]; cbn in E.
    + subst st2. exists [], o. split; [done|]. split; [constructor|]. by apply vis_skip.
    + injection E as <- ->. destruct (IH st1 st2 eq_refl) as (o1 & o2 & -> & H1 & H2). exists o1, o2. split; [done|]. split; [by apply vis_skip|done].
  - destruct st1 as [|v1 st1]; cbn in E.
    + subst st2. exists [], (v :: o). split; [done|]. split; [constructor|]. by apply vis_new.
    + injection E as <- ->. destruct (IH (expand h bl v ++ st1) st2) as (o1 & o2 & -> & H1 & H2); [by rewrite app_assoc|].
      exists (v :: o1), o2. split; [done|]. split; [by apply vis_new|]. eapply visits_seen; [exact H2|]. intros u. set_solver.
Qed.

Lemma app_of_fun h v i o ins i' o' ins' : app_of h v i o ins -> app_of h v i' o' ins' -> i = i' /\ o = o' /\ ins = ins'.
Proof.
  intros (n & nd & Ho & Hn & Hop & Hin) (n' & nd' & Ho' & Hn' & Hop' & Hin'). rewrite Ho in Ho'. injection Ho' as <- <-. rewrite Hn in Hn'. injection Hn' as <-.
  split_and!; congruence.
Qed.
Lemma app_of_expand h v i o ins : app_of h v i o ins -> expand h [] v = ins.
Proof.
  intros (n & nd & Ho & Hn & _ & Hin). unfold expand. rewrite decide_False by (by intros ?%elem_of_nil). unfold parents. by rewrite Ho, Hn.
Qed.
Lemma app_of_owner h v i o ins : app_of h v i o ins -> owner h v <> None.
Proof. intros (n & nd & Ho & _). congruence. Qed.

(** the walk over outputs whose last one comes from a node with inputs [q; p; ...] *)
Lemma walk_first h l v i o q p rest op pi mr imm g : 
  app_of h v i o ([q; p] ++ rest) -> app_of h p pi op [mr; imm] -> p <> v -> ~ reachable h [q] p -> ~ reachable h [q; p] g ->
  owner h mr = None ->
  exists l1 l2, graph_inputs h (l ++ [v]) [] = l1 ++ l2 /\ mr ∈ l1 /\ g ∉ l1.
Proof.
  intros Hv Hp Hpv Hqp Hg Hmr. pose proof (walk_enough h [] (l ++ [v])) as Hw. unfold graph_inputs.
  generalize (walk (walk_fuel h (l ++ [v])) h [] (rev (l ++ [v])) []) Hw. intros w Hvis. clear Hw. rewrite rev_app_distr in Hvis. cbn [rev app] in Hvis.
  inversion Hvis as [|? ? ? ? Hin|? ? ? o' Hnin Hvis']; subst; [by apply elem_of_nil in Hin|].
  rewrite (app_of_expand _ _ _ _ _ Hv) in Hvis'. rewrite <- app_assoc in Hvis'.
  destruct (visits_split _ _ _ _ _ Hvis' [q; p] (rest ++ rev l) eq_refl) as (o1 & o2 & -> & H1 & _).
  exists (filter (fun u => owner h u = None) o1), (filter (fun u => owner h u = None) o2). split.
  { rewrite filter_cons_False by (by eapply app_of_owner). by rewrite filter_app. }
  rewrite !elem_of_list_filter. split.
  - split; [done|]. destruct (visits_split _ _ _ _ _ H1 [q] [p] eq_refl) as (oq & op1 & -> & Hq & Hpp).
    assert (Hpn : p ∉ oq ++ [v]).
    { rewrite elem_of_app, elem_of_list_singleton. intros [Hin|Heq]; [|done]. apply Hqp. apply cut_nil. by eapply visits_sound. }
    inversion Hpp as [|? ? ? ? Hin|? ? ? op2 _ Hpp2]; subst; [done|]. rewrite (app_of_expand _ _ _ _ _ Hp) in Hpp2. cbn [app] in Hpp2.
    inversion Hpp2 as [|? ? ? ? Hin|? ? ? op3 _ _]; subst.
    + apply elem_of_app. left. apply elem_of_cons in Hin as [->|Hin]; [exfalso; by eapply app_of_owner in Hp|].
      apply elem_of_app in Hin as [Hin|Hin]; [done|]. apply elem_of_list_singleton in Hin as ->. exfalso; by eapply app_of_owner in Hv.
    + apply elem_of_app. right. right. by left.
  - intros [_ Hin]. apply Hg. apply cut_nil. by eapply visits_sound.
Qed.

Lemma pair_updates_zip outs : forall ins, length outs <= length ins -> pair_updates ins outs = Ok (zip ins outs).
Proof.
  induction outs as [|o outs IH]; intros [|i ins] Hl; cbn in *; try done; [lia|]. rewrite IH by lia. done.
Qed.

Lemma NoDup_zip_fst {A C} (l : list A) : forall k : list C, NoDup l -> NoDup (map fst (zip l k)).
Proof.
  induction l as [|x l IH]; intros [|y k] Hnd; cbn; try constructor; apply NoDup_cons in Hnd as [Hx Hnd].
  - intros Hin. apply Hx. clear -Hin. revert k Hin. induction l as [|z l IH]; intros [|y k] Hin; cbn in Hin; try (by apply elem_of_nil in Hin).
    apply elem_of_cons in Hin as [->|Hin]; [by left|right; by eapply IH].
  - by apply IH.
Qed.

Lemma subseteq_take {A} n (l : list A) x : x ∈ take n l -> x ∈ l.
Proof. intros Hx. rewrite <- (take_drop n l). apply elem_of_app. by left. Qed.

Section construct.
  Context (B : builder) (tr : transforms) (nr : nat) (h : heap) (ts : dict nat nat) (lps : list vid) (h' : heap) (s : nuts_step).
  Hypothesis Hsg : step_graph B tr nr h ts lps h' s.
  Notation outs := (ns_results s ++ dvalues (ns_updates s)).
  Notation shared := (filter (fun v => is_shared h' v = true) (graph_inputs h' outs [])).

  Lemma shared_NoDup : NoDup shared.
  Proof. apply NoDup_filter, graph_inputs_NoDup. Qed.

  (** the generators of the step are among the shared variables, and none of them is the first *)
  Lemma shared_order : 0 < nr -> NoDup (dkeys (ns_updates s)) /\ length (ns_updates s) = nr /\ length (ns_results s) = length ts /\
    dkeys (ns_updates s) ⊆ shared /\
    exists mr l1 l2, shared = l1 ++ l2 /\ mr ∈ l1 /\ mr ∉ dkeys (ns_updates s) /\ forall r, r ∈ dkeys (ns_updates s) -> r ∉ l1.
  Proof.
    intros Hnr. destruct Hsg as [Hex Hg' (tvs & q & newq & p & mr & rngs & rngs' & Hb)].
    destruct (ns_params s) as [eps imm]. cbn zeta in Hb.
    destruct Hb as (Htl & Hts & Htf & Hqf & Hqa & Hpf & Hpa & Hmr & Hrl & Hrnd & Hmrn & Hrr & Hnf & Hna & Hrl' & Hra & Hef & Heo & Hif & Hio & Hns & Hrs & Hup & Hresl & Hress & Hres & Hnreach & Hqp).
    assert (Hkeys : dkeys (ns_updates s) = rngs).
    { rewrite Hup. change (dkeys (zip rngs rngs')) with ((zip rngs rngs').*1). apply fst_zip. lia. }
    assert (Hvals : dvalues (ns_updates s) = rngs').
    { rewrite Hup. change (dvalues (zip rngs rngs')) with ((zip rngs rngs').*2). apply snd_zip. lia. }
    rewrite Hkeys, Hvals. split; [done|]. split. { rewrite Hup. change (length (zip rngs rngs') = nr). rewrite zip_with_length. lia. }
    split; [done|].
    assert (Hlast : exists l v k, rngs' = l ++ [v] /\ rngs' !! k = Some v).
    { destruct (rev rngs') as [|v l] eqn:E.
      - apply (f_equal length) in E. rewrite rev_length in E. cbn in E. lia.
      - exists (rev l), v, (length (rev l)). assert (rngs' = rev l ++ [v]) as -> by (rewrite <- (rev_involutive rngs'), E; done).
        split; [done|]. by rewrite lookup_app_r, Nat.sub_diag by lia. }
    destruct Hlast as (l & v & k & Hl & Hk). destruct (Hra k v Hk) as [Hvf Hva].
    assert (Hrin : rngs ⊆ filter (fun v => is_shared h' v = true) (graph_inputs h' (ns_results s ++ rngs') [])).
    { intros r Hr. destruct (Hrr r Hr) as (_ & Ho & Hsh). apply elem_of_list_filter. split; [done|]. apply graph_inputs_spec. split; [done|].
      apply cut_nil. exists v. split. { apply elem_of_app. right. by eapply elem_of_list_lookup_2. } apply rtc_once.
      destruct Hva as (n & nd & Hvo & Hvn & _ & Hvi). unfold input_of, parents. rewrite Hvo, Hvn, Hvi.
      apply elem_of_app. right. apply elem_of_app. by left. }
    split; [done|].
    destruct Hmr as (Hmf & Hmo & Hms).
    assert (Hpv : p <> v). { intros ->. destruct (app_of_fun _ _ _ _ _ _ _ _ Hpa Hva) as (_ & E & _). discriminate E. }
    pose proof (fun g Hgr => walk_first h' (ns_results s ++ l) v (S k) _ q p _ _ _ mr imm g Hva Hpa Hpv Hqp Hgr Hmo) as Hw.
    rewrite <- app_assoc, <- Hl in Hw.
    (* the same split for all generators *)
    destruct rngs as [|r0 rngs0] eqn:Er; [cbn in Hrl; lia|].
    assert (Hall : exists l1 l2, graph_inputs h' (ns_results s ++ rngs') [] = l1 ++ l2 /\ mr ∈ l1 /\ forall r, r ∈ r0 :: rngs0 -> r ∉ l1).
    { destruct (Hw r0) as (l1 & l2 & E & Hm & _); [apply Hnreach; by left|].
      apply elem_of_list_split in Hm as (a & b & ->). exists (a ++ [mr]), (b ++ l2). split; [rewrite E, <- !app_assoc; done|].
      split; [set_solver|]. intros r Hr Hin. destruct (Hw r) as (m1 & m2 & E2 & Hm2 & Hn2); [by apply Hnreach|].
      apply elem_of_app in Hin as [Hin|Hin]; [|apply elem_of_list_singleton in Hin as ->; done].
      pose proof (graph_inputs_NoDup h' [] (ns_results s ++ rngs')) as Hnd.
      apply elem_of_list_split in Hm2 as (a2 & b2 & ->). rewrite E in E2, Hnd.
      assert (Ha : a = a2).
      { assert (Hn1 : mr ∉ a). { intros Hma. rewrite <- !app_assoc in Hnd. apply NoDup_app in Hnd as (_ & Hd & _). apply (Hd mr Hma). set_solver. }
        assert (Hn3 : mr ∉ a2). { rewrite E2 in Hnd. intros Hma. rewrite <- !app_assoc in Hnd. apply NoDup_app in Hnd as (_ & Hd & _). apply (Hd mr Hma). set_solver. }
        rewrite <- !app_assoc in E2. cbn in E2. clear -E2 Hn1 Hn3. revert a2 E2 Hn3. induction a as [|x a IH]; intros [|x2 a2] E Hn3; cbn in E; [done|..].
        - injection E as <- _. exfalso. apply Hn3. by left.
        - injection E as -> _. exfalso. apply Hn1. by left.
        - injection E as <- E. f_equal. apply IH; [set_solver|done|set_solver]. }
      subst a2. set_solver. }
    destruct Hall as (l1 & l2 & E & Hm & Hn).
    exists mr, (filter (fun v => is_shared h' v = true) l1), (filter (fun v => is_shared h' v = true) l2).
    split; [by rewrite E, filter_app|]. split; [by apply elem_of_list_filter|]. split; [done|].
    intros r Hr Hin. apply elem_of_list_filter in Hin as [_ Hin]. by apply (Hn r Hr).
  Qed.

  Lemma construct_shape kernel : length (ns_updates s) <= length shared -> length (ns_results s) = length ts ->
    exists h2 k posterior n, nuts_construct h' ts s (graph_inputs h' outs []) kernel = Ok (h2, k) /\
      length posterior = length outs /\ (forall j o, posterior !! j = Some o -> owner h2 o = Some (n, j)) /\
      nk_updates k = zip shared (drop (length ts) posterior) /\ nk_results k = zip (dkeys ts) posterior.
  Proof.
    intros Hl Hres. unfold nuts_construct.
    set (inputs := filter (fun v => is_const h' v = false /\ is_shared h' v = false) (graph_inputs h' outs [])).
    change (filter (fun v => M_nuts_graph.is_shared h' v = true) (graph_inputs h' outs [])) with shared.
    destruct (alloc_node_spec h' (OOther kernel) (inputs ++ shared) (var_sig h' <$> outs)) as (Hlen & _ & _ & Hval & _ & _ & _ & _).
    destruct (alloc_node h' (OOther kernel) (inputs ++ shared) (var_sig h' <$> outs)) as [h2 posterior]. cbn [fst snd] in Hlen, Hval. rewrite fmap_length in Hlen.
    assert (Hlu : length (dvalues (ns_updates s)) = length (ns_updates s)) by apply map_length.
    assert (Hlz : length (zip (dkeys ts) posterior) = length ts).
    { rewrite zip_with_length, Hlen, app_length, Hres. assert (length (dkeys ts) = length ts) by apply map_length. lia. }
    rewrite Hlz. rewrite pair_updates_zip.
    2:{ rewrite drop_length, Hlen, app_length, Hres, Hlu. lia. }
    cbn [rbind]. eexists h2, _, posterior, _. split; [done|]. split; [done|]. split.
    { intros j o Hj. destruct (lookup_lt_is_Some_2 (var_sig h' <$> outs) j) as [[nm ty] Ht].
      { rewrite fmap_length, <- Hlen. by eapply lookup_lt_Some. }
      unfold owner. rewrite (Hval j o nm ty Hj Ht). done. }
    split; [|done]. cbn [nk_updates]. apply dof_nodup.
    apply NoDup_zip_fst, shared_NoDup.
  Qed.

  Lemma updates_wrong kernel : 0 < nr -> exists h2 k, nuts_construct h' ts s (graph_inputs h' outs []) kernel = Ok (h2, k) /\ ~ advances h2 s k.
  Proof.
    intros Hnr. destruct (shared_order Hnr) as (Hnd & Hlu & Hlr & Hsub & mr & l1 & l2 & E & Hm & Hmn & Hn).
    assert (Hle : length (ns_updates s) <= length shared).
    { assert (length (dkeys (ns_updates s)) = length (ns_updates s)) as <- by apply map_length.
      apply submseteq_length, NoDup_submseteq; done. }
    destruct (construct_shape kernel Hle Hlr) as (h2 & k & posterior & n & Hc & Hlp & Hown & Hup & _). exists h2, k. split; [done|].
    intros Hadv. destruct l1 as [|s0 l1]; [by apply elem_of_nil in Hm|].
    destruct (lookup_lt_is_Some_2 posterior (length ts)) as [o Ho].
    { rewrite Hlp, app_length, Hlr. assert (length (dvalues (ns_updates s)) = length (ns_updates s)) by apply map_length. lia. }
    assert (Hd : drop (length ts) posterior = o :: drop (S (length ts)) posterior) by (by apply drop_S).
    destruct (Hadv s0 o) as (n' & j & r' & _ & _ & Hin).
    { rewrite Hup, E, Hd. cbn. by rewrite decide_True. }
    apply (Hn s0); [|by left]. rewrite dkeys_fst. exact (elem_of_list_fmap_1 fst _ _ Hin).
  Qed.

  (** what the updates are *)
  Lemma updates_exact kernel : 0 < nr -> exists h2 k, nuts_construct h' ts s (graph_inputs h' outs []) kernel = Ok (h2, k) /\
    NoDup (dkeys (nk_updates k)) /\ length (nk_updates k) = nr /\
    (forall r, r ∈ dkeys (nk_updates k) -> is_shared h' r = true /\ owner h' r = None /\ reachable h' outs r) /\
    (forall r o, (r, o) ∈ nk_updates k -> exists n j r0 r', owner h2 o = Some (n, j) /\ outs !! j = Some r' /\ (r0, r') ∈ ns_updates s) /\
    (forall r0 r', (r0, r') ∈ ns_updates s -> exists r o n j, (r, o) ∈ nk_updates k /\ owner h2 o = Some (n, j) /\ outs !! j = Some r') /\
    exists r, r ∈ dkeys (ns_updates s) /\ r ∉ dkeys (nk_updates k).
  Proof.
    intros Hnr. destruct (shared_order Hnr) as (Hnd & Hlu & Hlr & Hsub & mr & l1 & l2 & E & Hm & Hmn & Hn).
    assert (Hlk : length (dkeys (ns_updates s)) = length (ns_updates s)) by apply map_length.
    assert (Hlv : length (dvalues (ns_updates s)) = length (ns_updates s)) by apply map_length.
    assert (Hle : length (ns_updates s) <= length shared).
    { rewrite <- Hlk. apply submseteq_length, NoDup_submseteq; done. }
    destruct (construct_shape kernel Hle Hlr) as (h2 & k & posterior & n & Hc & Hlp & Hown & Hup & _). exists h2, k. split; [done|].
    assert (Hld : length (drop (length ts) posterior) = nr) by (rewrite drop_length, Hlp, app_length, Hlr, Hlv; lia).
    assert (Hkk : dkeys (nk_updates k) = take nr shared).
    { rewrite Hup. change (dkeys (zip shared (drop (length ts) posterior))) with ((zip shared (drop (length ts) posterior)).*1).
      assert (Hle' : nr <= length shared) by lia. revert Hld Hle'. generalize (drop (length ts) posterior) shared nr. clear.
      intros d l. revert d. induction l as [|a l IH]; intros [|x d] m <- Hle; cbn in *; [done|lia|done|]. f_equal. apply IH; [done|lia]. }
    split; [rewrite Hkk; pose proof shared_NoDup as Hsn; rewrite <- (take_drop nr shared) in Hsn; by apply NoDup_app in Hsn as (Hsn & _)|].
    split; [rewrite Hup, zip_with_length, Hld; lia|]. split.
    { intros r Hr. rewrite Hkk in Hr. assert (Hr' : r ∈ shared) by (eapply subseteq_take; exact Hr). apply elem_of_list_filter in Hr' as [Hs Hg].
      apply graph_inputs_spec in Hg as [Ho Hc']. split; [done|]. split; [done|]. by apply cut_nil. }
    split.
    { intros r o Hin. rewrite Hup in Hin. apply elem_of_list_lookup in Hin as [j Hj].
      apply lookup_zip_with_Some in Hj as (x & y & [= -> ->] & Hx & Hy). rewrite lookup_drop in Hy.
      pose proof (lookup_lt_Some _ _ _ Hy) as Hlt. rewrite Hlp, app_length, Hlr, Hlv in Hlt.
      destruct (lookup_lt_is_Some_2 (ns_updates s) j ltac:(lia)) as [[r1 r'] Hjr].
      exists n, (length ts + j), r1, r'. split; [by apply Hown|]. split; [|by eapply elem_of_list_lookup_2].
      rewrite lookup_app_r by lia. rewrite Hlr. replace (length ts + j - length ts) with j by lia.
      rewrite dvalues_snd. exact (eq_trans (list_lookup_fmap snd (ns_updates s) j) (f_equal (fmap snd) Hjr)). }
    split.
    { intros r0 r' Hin. apply elem_of_list_lookup in Hin as [j Hj]. pose proof (lookup_lt_Some _ _ _ Hj) as Hlt.
      destruct (lookup_lt_is_Some_2 shared j ltac:(lia)) as [r Hr].
      destruct (lookup_lt_is_Some_2 posterior (length ts + j)) as [o Ho]; [rewrite Hlp, app_length, Hlr, Hlv; lia|].
      exists r, o, n, (length ts + j). split.
      { rewrite Hup. apply elem_of_list_lookup. exists j. apply lookup_zip_with_Some. exists r, o. split; [done|]. split; [done|]. by rewrite lookup_drop. }
      split; [by apply Hown|]. rewrite lookup_app_r by lia. rewrite Hlr. replace (length ts + j - length ts) with j by lia.
      rewrite dvalues_snd. exact (eq_trans (list_lookup_fmap snd (ns_updates s) j) (f_equal (fmap snd) Hj)). }
    destruct (decide (Forall (fun r => r ∈ dkeys (nk_updates k)) (dkeys (ns_updates s)))) as [Hall|Hnot].
    - exfalso. rewrite Forall_forall, Hkk in Hall. destruct l1 as [|a l1]; [by apply elem_of_nil in Hm|].
      destruct nr as [|m]; [lia|]. rewrite E in Hall. cbn in Hall.
      assert (Hsub' : dkeys (ns_updates s) ⊆ take m (l1 ++ l2)).
      { intros r Hr. destruct (proj1 (elem_of_cons _ _ _) (Hall r Hr)) as [->|Hin]; [|done]. exfalso. apply (Hn a Hr). by left. }
      pose proof (submseteq_length _ _ (NoDup_submseteq _ _ Hnd Hsub')) as Hl. rewrite take_length in Hl. lia.
    - apply not_Forall_Exists in Hnot; [|intros r; apply _]. apply Exists_exists in Hnot as (r & Hr & Hnr'). by exists r.
  Qed.
End construct.
