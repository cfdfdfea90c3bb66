From Verif Require Export S_types L_LibPy.

Section nub.
  Context {K : Type} `{EqDecision K}.
  Implicit Types l : list K.

  Lemma elem_of_first_uses l x : x ∈ first_uses l <-> x ∈ l.
  Proof.
    induction l as [|y l IH]; simpl; [done|].
    rewrite !elem_of_cons, elem_of_list_filter, IH. destruct (decide (x = y)); naive_solver.
  Qed.

  Lemma NoDup_first_uses l : NoDup (first_uses l).
  Proof.
    induction l as [|y l IH]; simpl; constructor.
    - rewrite elem_of_list_filter. naive_solver.
    - by apply NoDup_filter.
  Qed.

  Lemma filter_comm (P Q : K -> Prop) `{!forall x, Decision (P x), !forall x, Decision (Q x)} l :
    filter P (filter Q l) = filter Q (filter P l).
  Proof.
    induction l as [|x l IH]; [done|]. rewrite !filter_cons.
    destruct (decide (Q x)) as [HQ|HQ], (decide (P x)) as [HP|HP]; rewrite ?filter_cons, ?IH;
      [rewrite (decide_True (P := P x)), (decide_True (P := Q x)) by done
      |rewrite (decide_False (P := P x)) by done
      |rewrite (decide_False (P := Q x)) by done |]; by rewrite ?IH.
  Qed.

  Lemma filter_idem_id (P : K -> Prop) `{!forall x, Decision (P x)} l :
    (forall x, x ∈ l -> P x) -> filter P l = l.
  Proof.
    induction l as [|x l IH]; intros Hall; [done|]. rewrite filter_cons.
    rewrite decide_True by (apply Hall; by left). f_equal. apply IH. intros. apply Hall. by right.
  Qed.

  Lemma first_uses_filter (P : K -> Prop) `{!forall x, Decision (P x)} l :
    first_uses (filter P l) = filter P (first_uses l).
  Proof.
    induction l as [|x l IH]; [done|]. rewrite filter_cons. simpl. rewrite filter_cons.
    destruct (decide (P x)) as [HP|HP]; simpl.
    - by rewrite IH, filter_comm.
    - rewrite IH. rewrite filter_comm. symmetry. apply filter_idem_id.
      intros y Hy. apply elem_of_list_filter in Hy as [Hy _]. congruence.
  Qed.

  Lemma first_uses_app_single l x :
    first_uses (l ++ [x]) = if decide (x ∈ l) then first_uses l else first_uses l ++ [x].
  Proof.
    induction l as [|y l IH]; cbn [first_uses app].
    - by rewrite decide_False by apply not_elem_of_nil.
    - rewrite IH. destruct (decide (x ∈ l)) as [Hx|Hx].
      + by rewrite decide_True by by right.
      + rewrite filter_app, filter_cons. destruct (decide (x <> y)) as [Hxy|Hxy].
        * rewrite decide_False by (rewrite elem_of_cons; naive_solver). done.
        * apply dec_stable in Hxy as ->. rewrite decide_True by by left.
          by rewrite filter_nil, app_nil_r.
  Qed.
End nub.

Section stages.
  Context {K A : Type} `{EqDecision K}.
  Implicit Types (l : list (K * A)) (k : K) (p : K * A).

  Lemma members_nil k : members k ([] : list (K * A)) = [].
  Proof. done. Qed.

  Lemma members_app k l1 l2 : members k (l1 ++ l2) = members k l1 ++ members k l2.
  Proof. unfold members. by rewrite filter_app, fmap_app. Qed.

  Lemma members_single k p : members k [p] = if decide (p.1 = k) then [p.2] else [].
  Proof. unfold members. rewrite filter_cons. by case_decide. Qed.

  Lemma members_not_nil k l : members k l <> [] <-> k ∈ l.*1.
  Proof.
    unfold members. split.
    - intros Hne. destruct (filter _ l) as [|p fl] eqn:Hf; [done|].
      assert (p ∈ filter (fun p => p.1 = k) l) as Hp by (rewrite Hf; by left).
      apply elem_of_list_filter in Hp as [<- Hp]. apply elem_of_list_fmap. by exists p.
    - intros Hk. apply elem_of_list_fmap in Hk as (p & -> & Hp).
      assert (p ∈ filter (fun q => q.1 = p.1) l) as Hp' by by apply elem_of_list_filter.
      destruct (filter _ l); [by apply elem_of_nil in Hp'|done].
  Qed.

  Definition group (l : list (K * A)) : dict K (list A) :=
    (fun k => (k, members k l)) <$> first_uses l.*1.

  Lemma dkeys_group l : dkeys (group l) = first_uses l.*1.
  Proof.
    unfold dkeys, group. change (map fst) with (fmap (M:=list) (@fst K (list A))).
    rewrite <- list_fmap_compose. by rewrite list_fmap_id.
  Qed.

  Lemma dget_group l k : dget (group l) k = if decide (k ∈ l.*1) then Some (members k l) else None.
  Proof.
    case_decide as Hk.
    - apply dget_of_in; [rewrite dkeys_group; apply NoDup_first_uses|].
      unfold group. apply elem_of_list_fmap. exists k. split; [done|]. by apply elem_of_first_uses.
    - apply dget_None. by rewrite dkeys_group, elem_of_first_uses.
  Qed.

  Lemma dset_fmap_in (ks : list K) (f : K -> list A) k v :
    NoDup ks -> k ∈ ks ->
    dset ((fun x => (x, f x)) <$> ks) k v = (fun x => (x, if decide (x = k) then v else f x)) <$> ks.
  Proof.
    induction ks as [|x ks IH]; intros Hnd Hk; [by apply elem_of_nil in Hk|].
    apply NoDup_cons in Hnd as [Hx Hnd]. cbn [fmap list_fmap dset].
    destruct (decide (k = x)) as [->|Hne].
    - rewrite decide_True by done. f_equal.
      apply list_fmap_ext. intros i y Hy. rewrite decide_False; [done|].
      intros ->. apply Hx. by eapply elem_of_list_lookup_2.
    - rewrite decide_False by done. f_equal. apply IH; [done|].
      apply elem_of_cons in Hk as [|]; [done|done].
  Qed.

  Lemma dset_notin (d : dict K (list A)) k v : k ∉ dkeys d -> dset d k v = d ++ [(k, v)].
  Proof.
    induction d as [|[x w] d IH]; simpl; [done|]. intros Hk.
    apply not_elem_of_cons in Hk as [? ?]. rewrite decide_False by done. by rewrite IH.
  Qed.

  Lemma group_snoc l k a : dappend (group l) k a = group (l ++ [(k, a)]).
  Proof.
    unfold dappend. rewrite dget_group. case_decide as Hk.
    - unfold group at 1. rewrite dset_fmap_in; [|apply NoDup_first_uses|by apply elem_of_first_uses].
      unfold group. rewrite fmap_app. simpl. rewrite first_uses_app_single, decide_True by done.
      apply list_fmap_ext. intros i x _. f_equal.
      rewrite members_app, members_single. simpl.
      destruct (decide (x = k)) as [->|]; [by rewrite decide_True|].
      by rewrite decide_False, app_nil_r by congruence.
    - rewrite dset_notin by by rewrite dkeys_group, elem_of_first_uses.
      unfold group. rewrite fmap_app. simpl. rewrite first_uses_app_single, decide_False by done.
      rewrite fmap_app. simpl. f_equal.
      + apply list_fmap_ext. intros i x Hx. f_equal.
        rewrite members_app, members_single. simpl. rewrite decide_False, app_nil_r; [done|].
        intros ->. apply Hk. apply elem_of_first_uses. by eapply elem_of_list_lookup_2.
      + rewrite members_app, members_single. simpl. rewrite decide_True by done.
        destruct (members k l) eqn:Hm; [done|]. exfalso. apply Hk. apply members_not_nil. by rewrite Hm.
  Qed.

  (** Reading the groups one after the other *)
  Definition regroup (l : list (K * A)) : list (K * A) :=
    first_uses l.*1 ≫= (fun k => filter (fun p => p.1 = k) l).

  Lemma concat_dvalues_group l : concat (dvalues (group l)) = (regroup l).*2.
  Proof.
    unfold dvalues, group, regroup, members. change (map snd) with (fmap (M:=list) (@snd K (list A))).
    rewrite <- list_fmap_compose.
    generalize (first_uses l.*1) as ks. induction ks as [|k ks IH]; [done|].
    cbn [mbind list_bind fmap list_fmap concat compose]. rewrite (fmap_app snd). by rewrite <- IH.
  Qed.

  Lemma filter_filter_neq l (k k' : K) :
    k <> k' -> filter (fun p => p.1 = k) (filter (fun p => p.1 <> k') l) = filter (fun p => p.1 = k) l.
  Proof.
    intros Hne. induction l as [|p l IH]; [done|].
    rewrite !filter_cons. destruct (decide (p.1 <> k')) as [H1|H1].
    - rewrite filter_cons. rewrite IH. done.
    - rewrite IH. rewrite decide_False; [done|]. intros Hp. apply H1. congruence.
  Qed.

  Lemma regroup_cons k a l :
    regroup ((k, a) :: l) =
    (k, a) :: filter (fun p => p.1 = k) l ++ regroup (filter (fun p => p.1 <> k) l).
  Proof.
    unfold regroup. cbn [fmap list_fmap fst first_uses mbind list_bind].
    rewrite filter_cons, decide_True by done. cbn [app]. f_equal. f_equal.
    assert (((filter (fun p : K * A => p.1 <> k) l).*1) = filter (fun y => y <> k) l.*1) as ->.
    { clear. induction l as [|p l IH]; [done|]. rewrite filter_cons, fmap_cons, filter_cons.
      destruct (decide (p.1 <> k)); [|done]. by rewrite fmap_cons, IH. }
    rewrite first_uses_filter.
    assert (forall x, x ∈ filter (fun y => y <> k) (first_uses l.*1) -> x <> k) as Hks.
    { intros x Hx. by apply elem_of_list_filter in Hx as [? _]. }
    revert Hks. generalize (filter (fun y => y <> k) (first_uses l.*1)) as ks.
    induction ks as [|x ks IH]; intros Hks; [done|]. cbn [mbind list_bind].
    rewrite IH by (intros; apply Hks; by right). f_equal.
    rewrite filter_cons, decide_False.
    - symmetry. apply filter_filter_neq. apply Hks. by left.
    - simpl. assert (x <> k) by (apply Hks; by left). congruence.
  Qed.

  Lemma regroup_perm l : regroup l ≡ₚ l.
  Proof.
    induction l as [l IH] using (induction_ltof1 _ length). unfold ltof in IH.
    destruct l as [|[k a] l]; [done|]. rewrite regroup_cons. constructor.
    rewrite IH.
    2:{ simpl. pose proof (filter_length (fun p : K * A => p.1 <> k) l). lia. }
    clear IH. induction l as [|p l IH]; [done|]. rewrite !filter_cons.
    destruct (decide (p.1 = k)) as [He|He].
    - rewrite decide_False by tauto. simpl. by rewrite IH.
    - rewrite decide_True by done. rewrite <- Permutation_middle. by rewrite IH.
  Qed.

  Lemma contiguous_tail (x : K) (ks : list K) : contiguous (x :: ks) -> contiguous ks.
  Proof.
    intros H i j m a b Hijm Hi Hj Hm. apply (H (S i) (S j) (S m) a b); simpl; try done. lia.
  Qed.

  (** in a contiguous list the elements equal to the head form a prefix *)
  Lemma contiguous_split k a l :
    contiguous ((k, a) :: l).*1 ->
    l = filter (fun p => p.1 = k) l ++ filter (fun p => p.1 <> k) l.
  Proof.
    revert a. induction l as [|[k' a'] l IH]; intros a Hc; [done|].
    rewrite !filter_cons. simpl. destruct (decide (k' = k)) as [->|Hne].
    - rewrite decide_False by tauto. simpl. f_equal. apply (IH a'). by eapply contiguous_tail.
    - rewrite decide_True by done.
      assert (forall p, p ∈ l -> p.1 <> k) as Hno.
      { intros p Hp Hpk. apply elem_of_list_lookup in Hp as [i Hi].
        apply Hne. apply (Hc 0 1 (S (S i)) k k'); simpl; try done; [lia|].
        rewrite list_lookup_fmap, Hi. simpl. by rewrite Hpk. }
      rewrite (filter_idem_id (fun p => p.1 <> k) l) by done.
      assert (filter (fun p : K * A => p.1 = k) l = []) as ->; [|done].
      destruct (filter (fun p : K * A => p.1 = k) l) as [|p fl] eqn:Hf; [done|]. exfalso.
      assert (p ∈ filter (fun p => p.1 = k) l) as Hp by (rewrite Hf; by left).
      apply elem_of_list_filter in Hp as [Hp1 Hp2]. by eapply Hno.
  Qed.

  Lemma contiguous_app_r (l1 l2 : list K) : contiguous (l1 ++ l2) -> contiguous l2.
  Proof. induction l1 as [|x l1 IH]; [done|]. intros H. apply IH. by eapply contiguous_tail. Qed.

  Lemma contiguous_block k (l1 l2 : list K) :
    (forall x, x ∈ l1 -> x = k) -> k ∉ l2 -> contiguous l2 -> contiguous (l1 ++ l2).
  Proof.
    intros H1 H2 Hc i j m a b Hijm Hi Hj Hm.
    destruct (decide (i < length l1)) as [Hil|Hil].
    - rewrite lookup_app_l in Hi by done.
      assert (a = k) as -> by (apply H1; by eapply elem_of_list_lookup_2).
      destruct (decide (m < length l1)) as [Hml|Hml].
      + rewrite lookup_app_l in Hj by lia. apply H1. by eapply elem_of_list_lookup_2.
      + rewrite lookup_app_r in Hm by lia. exfalso. apply H2. by eapply elem_of_list_lookup_2.
    - rewrite lookup_app_r in Hi by lia. rewrite lookup_app_r in Hj by lia.
      rewrite lookup_app_r in Hm by lia. eapply (Hc (i - length l1) (j - length l1) (m - length l1)); eauto.
      lia.
  Qed.

  Lemma regroup_id_iff l : regroup l = l <-> contiguous l.*1.
  Proof.
    induction l as [l IH] using (induction_ltof1 _ length). unfold ltof in IH.
    destruct l as [|[k a] l].
    { split; [|done]. intros _ i j m x y _ Hi. done. }
    rewrite regroup_cons.
    assert (length (filter (fun p : K * A => p.1 <> k) l) < length ((k, a) :: l)) as Hlt.
    { simpl. pose proof (filter_length (fun p : K * A => p.1 <> k) l). lia. }
    specialize (IH _ Hlt).
    split.
    - intros He. injection He as He.
      set (X := filter (fun p => p.1 = k) l) in *.
      set (R := filter (fun p => p.1 <> k) l) in *.
      assert (R = regroup R) as HR.
      { unfold R at 1. rewrite <- He. rewrite filter_app.
        assert (filter (fun p : K * A => p.1 <> k) X = []) as ->.
        { unfold X. clear. induction l as [|p l IH]; [done|]. rewrite filter_cons.
          case_decide as Hp; [|done]. rewrite filter_cons, decide_False by tauto. done. }
        simpl. apply filter_idem_id. intros p Hp. rewrite regroup_perm in Hp.
        by apply elem_of_list_filter in Hp as [? _]. }
      symmetry in HR. apply IH in HR as Hc.
      rewrite HR in He. rewrite <- He. cbn [fmap list_fmap fst]. rewrite fmap_app.
      apply (contiguous_block k (k :: X.*1) R.*1); [| |done].
      + intros x Hx. apply elem_of_cons in Hx as [->|Hx]; [done|].
        apply elem_of_list_fmap in Hx as (p & -> & Hp). by apply elem_of_list_filter in Hp as [? _].
      + intros Hk. apply elem_of_list_fmap in Hk as (p & Hpk & Hp).
        apply elem_of_list_filter in Hp as [Hp _]. by apply Hp.
    - intros Hc. pose proof (contiguous_split k a l Hc) as Hsp. f_equal.
      rewrite (proj2 IH); [by symmetry|].
      apply contiguous_tail in Hc. apply (f_equal (fmap fst)) in Hsp. rewrite fmap_app in Hsp.
      change (contiguous (l.*1)) in Hc. rewrite Hsp in Hc. by apply contiguous_app_r in Hc.
  Qed.

  Lemma concat_group_iff l :
    NoDup l.*2 -> (concat (dvalues (group l)) = l.*2 <-> contiguous l.*1).
  Proof.
    intros Hnd. rewrite concat_dvalues_group, <- regroup_id_iff. split; [|by intros ->].
    intros He. pose proof (regroup_perm l) as Hp.
    assert (forall p q, p ∈ l -> q ∈ l -> p.2 = q.2 -> p = q) as Hinj.
    { intros p q Hp' Hq' Heq. apply elem_of_list_lookup in Hp' as [i Hi].
      apply elem_of_list_lookup in Hq' as [j Hj].
      assert (i = j) as ->; [|congruence].
      eapply (NoDup_lookup l.*2); [done| |]; rewrite list_lookup_fmap.
      - by rewrite Hi.
      - rewrite Hj. simpl. by rewrite Heq. }
    assert (forall l1 : list (K * A), (forall p, p ∈ l1 -> p ∈ l) -> forall l2,
      (forall p, p ∈ l2 -> p ∈ l) -> l1.*2 = l2.*2 -> l1 = l2) as Hgen.
    { induction l1 as [|p l1 IH]; intros Hl1 [|q l2] Hl2 Heq; try done.
      cbn in Heq. injection Heq as Hpq Heq. f_equal.
      - apply Hinj; [apply Hl1; by left|apply Hl2; by left|done].
      - apply IH; [|  |done]; intros; [apply Hl1|apply Hl2]; by right. }
    apply Hgen; [|done|done]. intros p Hin. by rewrite Hp in Hin.
  Qed.
End stages.

Lemma stages_loop_spec opkey items l0 :
  stages_loop opkey items (group l0) =
  match tagged opkey items with
  | Some l => Ok (group (l0 ++ l))
  | None => Raise AttributeError
  end.
Proof.
  unfold tagged. revert l0. induction items as [|[rv s] items IH]; intros l0; simpl.
  - by rewrite app_nil_r.
  - destruct (opkey s) as [k|]; simpl; [|done].
    rewrite group_snoc, IH. destruct (mapM _ items); simpl; [|done].
    by rewrite <- app_assoc.
Qed.

Lemma sampler_stages_spec opkey steps :
  sampler_stages opkey steps =
  match tagged opkey steps with
  | Some l => Ok (group l)
  | None => Raise AttributeError
  end.
Proof. apply (stages_loop_spec opkey steps []). Qed.

Lemma tagged_snd opkey steps l : tagged opkey steps = Some l -> l.*2 = dkeys steps.
Proof.
  unfold tagged, dkeys. revert l. induction steps as [|[rv s] steps IH]; intros l; simpl.
  - unfold mret, option_ret. intros ?; by simplify_eq.
  - destruct (opkey s) as [k|]; simpl; [|done].
    destruct (mapM _ steps) as [l'|]; simpl; [|done].
    unfold mret, option_ret. intros ?; simplify_eq. simpl. f_equal. by apply IH.
Qed.

Lemma tagged_elem opkey steps l k rv :
  tagged opkey steps = Some l -> (k, rv) ∈ l <-> exists s, (rv, s) ∈ steps /\ opkey s = Some k.
Proof.
  unfold tagged. revert l. induction steps as [|[rv' s] steps IH]; intros l; simpl.
  - unfold mret, option_ret. intros ?; simplify_eq. split; [intros H; by apply elem_of_nil in H|].
    intros (s & Hs & _). by apply elem_of_nil in Hs.
  - destruct (opkey s) as [k'|] eqn:Hk'; simpl; [|done].
    destruct (mapM _ steps) as [l'|]; simpl; [|done].
    unfold mret, option_ret. intros ?; simplify_eq. rewrite elem_of_cons, IH by done.
    setoid_rewrite elem_of_cons. naive_solver.
Qed.

Lemma sampler_stages_total opkey steps :
  (exists st, sampler_stages opkey steps = Ok st) <->
  (forall rv s, (rv, s) ∈ steps -> exists k, opkey s = Some k).
Proof.
  rewrite sampler_stages_spec. unfold tagged.
  induction steps as [|[rv s] steps IH]; simpl.
  - split; [|by eauto]. intros _ rv s H. by apply elem_of_nil in H.
  - destruct (opkey s) as [k|] eqn:Hk; simpl.
    + destruct (mapM _ steps) as [l|]; simpl.
      * split; [|by eauto]. intros _ rv' s' H. apply elem_of_cons in H as [?|H]; simplify_eq; [eauto|].
        destruct IH as [IH _]. eapply IH; eauto.
      * split; [by intros [? ?]|]. intros H. destruct IH as [_ IH]. destruct IH as [? ?]; [|done].
        intros rv' s' H'. eapply (H rv'). by right.
    + split; [by intros [? ?]|]. intros H. destruct (H rv s) as [k ?]; [by left|]. congruence.
Qed.

Lemma sampler_stages_exact opkey steps st l :
  sampler_stages opkey steps = Ok st -> tagged opkey steps = Some l ->
  dkeys st = first_uses l.*1 /\
  forall k, dget st k = if decide (k ∈ l.*1) then Some (members k l) else None.
Proof.
  rewrite sampler_stages_spec. intros Hs Hl. rewrite Hl in Hs. simplify_eq.
  split; [apply dkeys_group|]. intros k. apply dget_group.
Qed.

Lemma sublist_filter {A} (P : A -> Prop) `{!forall x, Decision (P x)} (l : list A) :
  sublist (filter P l) l.
Proof.
  induction l as [|x l IH]; [constructor|]. rewrite filter_cons. case_decide; by constructor.
Qed.

Lemma sublist_fmap {A B} (f : A -> B) (l1 l2 : list A) :
  sublist l1 l2 -> sublist (f <$> l1) (f <$> l2).
Proof. induction 1; simpl; by constructor. Qed.

Lemma sampler_stages_partition opkey steps st :
  NoDup (dkeys steps) -> sampler_stages opkey steps = Ok st ->
  concat (dvalues st) ≡ₚ dkeys steps /\
  NoDup (dkeys st) /\
  (forall k rvs rv, dget st k = Some rvs ->
     (rv ∈ rvs <-> exists s, (rv, s) ∈ steps /\ opkey s = Some k)) /\
  (forall k rvs, dget st k = Some rvs -> sublist rvs (dkeys steps)).
Proof.
  rewrite sampler_stages_spec. intros Hnd Hs. destruct (tagged opkey steps) as [l|] eqn:Hl; [|done].
  simplify_eq. split_and!.
  - rewrite concat_dvalues_group, (regroup_perm l). by rewrite (tagged_snd _ _ _ Hl).
  - rewrite dkeys_group. apply NoDup_first_uses.
  - intros k rvs rv. rewrite dget_group. case_decide as Hk; [|done]. intros ?; simplify_eq.
    rewrite <- (tagged_elem _ _ _ _ _ Hl). unfold members. rewrite elem_of_list_fmap. split.
    + intros ([k' rv'] & -> & Hp). apply elem_of_list_filter in Hp as [Hk' Hp]. simpl in *. by subst.
    + intros Hp. exists (k, rv). split; [done|]. by apply elem_of_list_filter.
  - intros k rvs. rewrite dget_group. case_decide as Hk; [|done]. intros ?; simplify_eq.
    rewrite <- (tagged_snd _ _ _ Hl). apply sublist_fmap, sublist_filter.
Qed.

Lemma sampler_stages_order_iff opkey steps st l :
  NoDup (dkeys steps) -> sampler_stages opkey steps = Ok st -> tagged opkey steps = Some l ->
  (concat (dvalues st) = dkeys steps <-> contiguous l.*1).
Proof.
  rewrite sampler_stages_spec. intros Hnd Hs Hl. rewrite Hl in Hs. simplify_eq.
  rewrite <- (tagged_snd _ _ _ Hl). apply concat_group_iff. by rewrite (tagged_snd _ _ _ Hl).
Qed.
