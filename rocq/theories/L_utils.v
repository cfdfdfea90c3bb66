From Verif Require Export S_utils L_graph.

(** ** ModelInfo *)

Lemma getitems_Ok d ks vs :
  getitems d ks = Ok vs <-> mapM (dget d) ks = Some vs.
Proof.
  revert vs. induction ks as [|k ks IH]; intros vs; simpl.
  - unfold mret, option_ret. naive_solver.
  - destruct (dget d k) as [v|]; simpl; [|done].
    destruct (getitems d ks) as [vs'|e]; simpl.
    + assert (mapM (dget d) ks = Some vs') as -> by by apply IH.
      simpl. unfold mret, option_ret. naive_solver.
    + destruct (mapM (dget d) ks) as [vs''|]; simpl; [|done].
      specialize (IH vs''). naive_solver.
Qed.

Lemma getitems_Raise d ks e :
  getitems d ks = Raise e -> e = KeyError /\ exists k, k ∈ ks /\ k ∉ dkeys d.
Proof.
  induction ks as [|k ks IH]; simpl; [done|].
  destruct (dget d k) as [v|] eqn:Hk; simpl.
  - destruct (getitems d ks); simpl; [done|]. intros ?; simplify_eq.
    destruct IH as (-> & k' & Hk' & Hn); [done|]. split; [done|]. exists k'. split; [by right|done].
  - intros ?; simplify_eq. split; [done|]. exists k. split; [by left|]. by apply dget_None.
Qed.

Lemma getitems_total d ks : (forall k, k ∈ ks -> k ∈ dkeys d) -> exists vs, getitems d ks = Ok vs.
Proof.
  intros H. destruct (getitems d ks) as [vs|e] eqn:He; [by exists vs|].
  apply getitems_Raise in He as (_ & k & Hk & Hn). exfalso. auto.
Qed.

Lemma truthy_name_spec h v s : truthy_name h v = Some s <-> named h v s.
Proof.
  unfold truthy_name, named. destruct (name_of h v) as [s'|]; [|naive_solver].
  case_decide; naive_solver.
Qed.

Lemma mapM_elem {A B} (f : A -> option B) l k :
  mapM f l = Some k -> forall x, x ∈ l -> exists y, f x = Some y /\ y ∈ k.
Proof.
  intros Hm. apply mapM_Some_1 in Hm. intros x Hx.
  apply elem_of_list_lookup in Hx as [i Hi].
  destruct (Forall2_lookup_l _ _ _ _ _ Hm Hi) as (y & Hy & Hf).
  exists y. split; [done|]. by eapply elem_of_list_lookup_2.
Qed.

Lemma length_dset {K V} `{EqDecision K} (d : dict K V) k v :
  length (dset d k v) = if decide (k ∈ dkeys d) then length d else S (length d).
Proof.
  pose proof (dkeys_dset d k v) as H. apply (f_equal length) in H.
  unfold dkeys in *. rewrite map_length in H. rewrite H.
  destruct (decide (k ∈ map fst d)); rewrite ?app_length, !map_length; simpl; lia.
Qed.

Lemma length_dupdate_le {K V} `{EqDecision K} (e : list (K * V)) d :
  length (dupdate d e) <= length d + length e.
Proof.
  revert d. induction e as [|[k v] e IH]; simpl; intros d; [lia|].
  pose proof (IH (dset d k v)) as H. rewrite length_dset in H. case_decide; lia.
Qed.

Lemma dupdate_length_nodup {K V} `{EqDecision K} (e : list (K * V)) d :
  length (dupdate d e) = length d + length e ->
  NoDup (map fst e) /\ (forall k, k ∈ map fst e -> k ∉ dkeys d).
Proof.
  revert d. induction e as [|[k v] e IH]; simpl; intros d Hlen.
  - split; [constructor|]. intros k Hk. by apply elem_of_nil in Hk.
  - pose proof (length_dupdate_le e (dset d k v)) as Hle. rewrite Hlen in Hle.
    rewrite length_dset in Hle. case_decide as Hin; [lia|].
    destruct (IH (dset d k v)) as [Hnd Hdis].
    { rewrite Hlen, length_dset, decide_False by done. lia. }
    split.
    + constructor; [|done]. intros Hk. apply (Hdis k Hk). apply elem_of_dkeys_dset. by left.
    + intros k' Hk'. apply elem_of_cons in Hk' as [->|Hk']; [done|].
      intros Hd. apply (Hdis k' Hk'). apply elem_of_dkeys_dset. by right.
Qed.

Lemma dof_length_iff {K V} `{EqDecision K} (e : list (K * V)) :
  length (dof e) = length e <-> NoDup (map fst e).
Proof.
  split; intros H.
  - by apply (dupdate_length_nodup e []).
  - by rewrite dof_nodup.
Qed.

Lemma map_fst_zip {A B} (l : list A) (k : list B) : length l = length k -> map fst (zip l k) = l.
Proof. revert k. induction l; destruct k; simpl; intros; try done; f_equal; auto. Qed.

Section model_info.
  Context (h : heap) (iter : list vid -> list vid) (Hiter : set_order iter).
  Context (obs : list vid) (r2v : dict nat nat) (det : list vid).
  Hypothesis Hdict : NoDup (dkeys r2v).

  Lemma in_dkeys_iff k : k ∈ dkeys r2v <-> exists w, (k, w) ∈ r2v.
  Proof.
    unfold dkeys. rewrite elem_of_list_fmap. split.
    - intros ([k' w] & -> & Hin). by exists w.
    - intros [w Hw]. by exists (k, w).
  Qed.

  Lemma unobserved_values_Ok :
    exists uv, getitems r2v (filter (fun k => k ∉ obs) (dkeys r2v)) = Ok uv.
  Proof. apply getitems_total. intros k Hk. by apply elem_of_list_filter in Hk as [_ ?]. Qed.

  Lemma tracked_iff uv ov :
    getitems r2v (filter (fun k => k ∉ obs) (dkeys r2v)) = Ok uv ->
    getitems r2v obs = Ok ov ->
    forall v, v ∈ iter (remove_dups ((obs ++ dkeys r2v) ++ det ++ ov ++ uv)) <-> tracked obs r2v det v.
  Proof.
    intros Huv Hov v. rewrite (Hiter _), elem_of_remove_dups, !elem_of_app.
    apply getitems_Ok in Huv. apply getitems_Ok in Hov.
    unfold tracked. rewrite in_dkeys_iff.
    assert (v ∈ ov \/ v ∈ uv <-> exists k, (k, v) ∈ r2v) as ->; [|tauto].
    split.
    - intros [Hv|Hv]; apply elem_of_list_lookup in Hv as [i Hi].
      + apply mapM_Some_1 in Hov. destruct (Forall2_lookup_r _ _ _ _ _ Hov Hi) as (k & _ & Hg).
        exists k. by apply dget_Some_in.
      + apply mapM_Some_1 in Huv. destruct (Forall2_lookup_r _ _ _ _ _ Huv Hi) as (k & _ & Hg).
        exists k. by apply dget_Some_in.
    - intros [k Hk]. pose proof (dget_of_in _ _ _ Hdict Hk) as Hg.
      destruct (decide (k ∈ obs)) as [Ho|Ho].
      + left. destruct (mapM_elem _ _ _ Hov k Ho) as (y & Hy & Hin). by simplify_eq.
      + right. assert (k ∈ filter (fun k => k ∉ obs) (dkeys r2v)) as Hf.
        { apply elem_of_list_filter. split; [done|]. apply in_dkeys_iff. by exists v. }
        destruct (mapM_elem _ _ _ Huv k Hf) as (y & Hy & Hin). by simplify_eq.
  Qed.

  Lemma mapM_names_nodup l names :
    mapM (truthy_name h) l = Some names -> NoDup l ->
    (NoDup names <-> forall v w s, v ∈ l -> w ∈ l -> named h v s -> named h w s -> v = w).
  Proof.
    intros Hm. apply mapM_Some_1 in Hm. intros Hnd. split.
    - intros Hn v w s Hv Hw Hvs Hws.
      apply elem_of_list_lookup in Hv as [i Hi]. apply elem_of_list_lookup in Hw as [j Hj].
      destruct (Forall2_lookup_l _ _ _ _ _ Hm Hi) as (a & Ha & Hfa).
      destruct (Forall2_lookup_l _ _ _ _ _ Hm Hj) as (b & Hb & Hfb).
      apply truthy_name_spec in Hvs. apply truthy_name_spec in Hws. simplify_eq.
      assert (i = j) as -> by (eapply NoDup_lookup; eauto). by simplify_eq.
    - intros Hu. apply NoDup_alt. intros i j s Hi Hj.
      destruct (Forall2_lookup_r _ _ _ _ _ Hm Hi) as (v & Hv & Hfv).
      destruct (Forall2_lookup_r _ _ _ _ _ Hm Hj) as (w & Hw & Hfw).
      apply truthy_name_spec in Hfv. apply truthy_name_spec in Hfw.
      assert (v = w) as ->.
      { eapply Hu; [| |done|done]; by eapply elem_of_list_lookup_2. }
      eapply NoDup_lookup; eauto.
  Qed.

  Lemma model_info_accepts_iff :
    (exists mi, model_info_post_init h iter obs r2v det = Ok mi) <->
    has_values obs r2v /\
    all_named h (tracked obs r2v det) /\ names_unique h (tracked obs r2v det).
  Proof.
    unfold model_info_post_init.
    destruct unobserved_values_Ok as [uv Huv]. rewrite Huv. cbn [rbind].
    destruct (getitems r2v obs) as [ov|e] eqn:Hov; cbn [rbind].
    2:{ split; [by intros [? ?]|]. intros (Hv & _).
        apply getitems_Raise in Hov as (_ & k & Hk & Hnk). exfalso. apply Hnk.
        apply in_dkeys_iff. by apply Hv. }
    pose proof (tracked_iff uv ov Huv Hov) as Htr.
    set (all := iter _) in *.
    assert (NoDup all) as Hnd.
    { unfold all. rewrite (Hiter _). apply NoDup_remove_dups. }
    assert (has_values obs r2v) as Hhv.
    { intros o Ho. apply getitems_Ok in Hov. destruct (mapM_elem _ _ _ Hov o Ho) as (y & Hy & _).
      exists y. by apply dget_Some_in. }
    destruct (mapM (truthy_name h) all) as [names|] eqn:Hm.
    - assert (length names = length all) as Hlen by (symmetry; by eapply mapM_length).
      pose proof (mapM_names_nodup _ _ Hm Hnd) as Huniq.
      assert (all_named h (tracked obs r2v det)) as Han.
      { intros v Hv. apply Htr in Hv. destruct (mapM_elem _ _ _ Hm v Hv) as (s & Hs & _).
        exists s. by apply truthy_name_spec. }
      assert (length (dof (zip names all)) = length all <-> NoDup names) as Hdof.
      { rewrite <- (map_fst_zip names all Hlen) at 2. rewrite <- dof_length_iff.
        rewrite zip_with_length_r by lia. done. }
      assert (NoDup names <-> names_unique h (tracked obs r2v det)) as Hnu.
      { rewrite Huniq. unfold names_unique. setoid_rewrite Htr. done. }
      case_decide as Hd.
      + split; [|by eauto]. intros _. split_and!; [done..|]. by apply Hnu, Hdof.
      + split; [by intros [? ?]|]. intros (_ & _ & Hu). exfalso. apply Hd, Hdof, Hnu. done.
    - split; [by intros [? ?]|]. intros (_ & Han & _). exfalso.
      apply mapM_None_1 in Hm. apply Exists_exists in Hm as (v & Hv & Hn).
      apply Htr in Hv. destruct (Han v Hv) as [s Hs]. apply truthy_name_spec in Hs. congruence.
  Qed.

  Lemma model_info_error e :
    model_info_post_init h iter obs r2v det = Raise e ->
    (e = KeyError <-> ~ has_values obs r2v) /\ (e = KeyError \/ e = ValueError).
  Proof.
    unfold model_info_post_init.
    destruct unobserved_values_Ok as [uv Huv]. rewrite Huv. cbn [rbind].
    destruct (getitems r2v obs) as [ov|e'] eqn:Hov; cbn [rbind].
    2:{ intros ?; simplify_eq. apply getitems_Raise in Hov as (-> & k & Hk & Hnk).
        split; [|by left]. split; [|done]. intros _ Hv. apply Hnk. apply in_dkeys_iff. by apply Hv. }
    assert (has_values obs r2v) as Hhv.
    { intros o Ho. apply getitems_Ok in Hov. destruct (mapM_elem _ _ _ Hov o Ho) as (y & Hy & _).
      exists y. by apply dget_Some_in. }
    set (all := iter _) in *.
    destruct (mapM _ _); [case_decide|]; intros ?; simplify_eq; naive_solver.
  Qed.

  Lemma model_info_fields mi :
    model_info_post_init h iter obs r2v det = Ok mi ->
    mi_observed_rvs mi = obs /\
    mi_unobserved_rvs mi = filter (fun k => k ∉ obs) (dkeys r2v) /\
    Forall2 (fun k v => (k, v) ∈ r2v) (mi_observed_rvs mi) (mi_observed_values mi) /\
    Forall2 (fun k v => (k, v) ∈ r2v) (mi_unobserved_rvs mi) (mi_unobserved_values mi) /\
    (forall s v, dget (mi_names_to_vars mi) s = Some v <-> tracked obs r2v det v /\ named h v s).
  Proof.
    unfold model_info_post_init.
    destruct unobserved_values_Ok as [uv Huv]. rewrite Huv. cbn [rbind].
    destruct (getitems r2v obs) as [ov|e'] eqn:Hov; cbn [rbind]; [|done].
    pose proof (tracked_iff uv ov Huv Hov) as Htr.
    set (all := iter _) in *.
    destruct (mapM (truthy_name h) all) as [names|] eqn:Hm; [|done].
    case_decide as Hd; [|done]. intros ?; simplify_eq. cbn.
    assert (length names = length all) as Hlen by (symmetry; by eapply mapM_length).
    apply getitems_Ok in Huv. apply getitems_Ok in Hov.
    apply mapM_Some_1 in Huv. apply mapM_Some_1 in Hov. apply mapM_Some_1 in Hm.
    split_and!; [done|done| | |].
    - eapply Forall2_impl; [done|]. intros. by apply dget_Some_in.
    - eapply Forall2_impl; [done|]. intros. by apply dget_Some_in.
    - assert (NoDup (map fst (zip names all))) as Hnd.
      { apply dof_length_iff. rewrite Hd, zip_with_length_r by lia. done. }
      rewrite dof_nodup by done. intros s v. rewrite <- Htr. split.
      + intros Hg. apply dget_Some_in in Hg.
        apply elem_of_list_lookup in Hg as [i Hi]. apply lookup_zip_with_Some in Hi.
        destruct Hi as (s' & v' & Heq & Hs & Hv). simplify_eq.
        split; [by eapply elem_of_list_lookup_2|].
        apply truthy_name_spec. exact (Forall2_lookup_lr _ _ _ _ _ _ Hm Hv Hs).
      + intros [Hv Hs]. apply dget_of_in; [done|].
        apply elem_of_list_lookup in Hv as [i Hi].
        destruct (Forall2_lookup_l _ _ _ _ _ Hm Hi) as (s' & Hs' & Hf).
        apply truthy_name_spec in Hs. simplify_eq.
        apply elem_of_list_lookup. exists i. rewrite lookup_zip_with, Hs'. simpl. by rewrite Hi.
  Qed.

  Lemma values_to_rvs_sound mi v k :
    model_info_post_init h iter obs r2v det = Ok mi ->
    dget (mi_values_to_rvs mi) v = Some k -> dget r2v k = Some v.
  Proof.
    unfold model_info_post_init.
    destruct (getitems _ _) as [uv|]; [|done]. cbn [rbind].
    destruct (getitems r2v obs) as [ov|e'] eqn:Hov; cbn [rbind]; [|done].
    destruct (mapM _ _); [|done]. case_decide; [|done]. intros ?; simplify_eq. cbn.
    intros Hg. apply dget_of_in; [done|].
    assert (forall (e : list (nat * nat)) d, (forall x y, dget d x = Some y -> (y, x) ∈ r2v) ->
      (forall x y, (x, y) ∈ e -> (y, x) ∈ r2v) ->
      forall x y, dget (dupdate d e) x = Some y -> (y, x) ∈ r2v) as Hgen.
    { induction e as [|[a b] e IH]; simpl; intros d0 Hd0 He; [done|].
      apply IH.
      - intros x y. rewrite dget_dset. case_decide; [|by apply Hd0].
        intros ?; simplify_eq. apply He. by left.
      - intros x y Hxy. apply He. by right. }
    eapply (Hgen _ []); [done| |exact Hg].
    intros x y Hin. apply elem_of_list_fmap in Hin as ([k' v'] & Heq & Hin). by simplify_eq.
  Qed.

  Lemma values_to_rvs_total mi v k :
    model_info_post_init h iter obs r2v det = Ok mi ->
    dget r2v k = Some v -> exists k', dget (mi_values_to_rvs mi) v = Some k'.
  Proof.
    unfold model_info_post_init.
    destruct (getitems _ _) as [uv|]; [|done]. cbn [rbind].
    destruct (getitems r2v obs) as [ov|e'] eqn:Hov; cbn [rbind]; [|done].
    destruct (mapM _ _); [|done]. case_decide; [|done]. intros ?; simplify_eq. cbn.
    intros Hg. apply dget_Some_in in Hg. apply dget_in. apply elem_of_dkeys_dupdate. right.
    rewrite map_map. apply elem_of_list_fmap. by exists (k, v).
  Qed.

  Lemma values_to_rvs_inverse mi :
    model_info_post_init h iter obs r2v det = Ok mi ->
    (forall k k' v, dget r2v k = Some v -> dget r2v k' = Some v -> k = k') ->
    forall k v, dget (mi_values_to_rvs mi) v = Some k <-> dget r2v k = Some v.
  Proof.
    intros Hmi Hinj k v. split; [by apply values_to_rvs_sound|].
    intros Hg. destruct (values_to_rvs_total mi v k Hmi Hg) as [k' Hk'].
    pose proof (values_to_rvs_sound mi v k' Hmi Hk'). by rewrite (Hinj k k' v).
  Qed.
End model_info.

(** ** remove_constants *)

Lemma remove_constants_filter h inputs :
  remove_constants h inputs =
  omap (fun i => match i with PVar v => if is_constant h v then None else Some v | PNum _ => None end)
    inputs.
Proof.
  induction inputs as [|[v|z] inputs IH]; simpl; [done| |done].
  rewrite IH. by destruct (is_constant h v).
Qed.

(** ** get_rv_updates *)

Section updates.
  Context (h : heap) (su : list (vid * vid)).
  Hypothesis Hsu : NoDup (map fst su).

  Lemma dget_su v u : dget (dof su) v = Some u <-> (v, u) ∈ su.
  Proof.
    split; [rewrite dof_nodup by done; apply dget_Some_in|].
    intros. by apply dget_dupdate_nodup.
  Qed.

  Lemma wanted_update_fun v u u' :
    wanted_update h su v u -> wanted_update h su v u' -> u = u'.
  Proof.
    intros (x & Hx & H1) (x' & Hx' & H2). simplify_eq.
    destruct H1 as [H1|[H1 H1']], H2 as [H2|[H2 H2']]; try congruence.
    apply dget_su in H1'. apply dget_su in H2'. congruence.
  Qed.

  Lemma rv_updates_loop_spec anc acc res :
    rv_updates_loop h (dof su) anc acc = Ok res ->
    (forall v, v ∈ anc -> ~ rng_not_shared h v /\ ~ conflicting_update h su v) /\
    (forall v u, dget res v = Some u <->
       (v ∈ anc /\ wanted_update h su v u) \/
       (dget acc v = Some u /\ ~ (v ∈ anc /\ exists u', wanted_update h su v u'))) /\
    (NoDup (dkeys acc) -> NoDup (dkeys res)).
  Proof.
    revert acc. induction anc as [|w anc IH]; intros acc; cbn [rv_updates_loop].
    { intros ?; simplify_eq. split_and!; [|intros v u|done].
      - intros v Hv. by apply elem_of_nil in Hv.
      - split; [|by intros [[Hv _]|[? _]]; [apply elem_of_nil in Hv|]].
        intros. right. split; [done|]. intros [Hv _]. by apply elem_of_nil in Hv. }
    (* every successful branch either sets [w] to its wanted update or skips it *)
    assert (Hset : forall u, wanted_update h su w u ->
        (~ rng_not_shared h w /\ ~ conflicting_update h su w) ->
        rv_updates_loop h (dof su) anc (dset acc w u) = Ok res ->
        (forall v, v ∈ w :: anc -> ~ rng_not_shared h v /\ ~ conflicting_update h su v) /\
        (forall v u, dget res v = Some u <->
           (v ∈ w :: anc /\ wanted_update h su v u) \/
           (dget acc v = Some u /\ ~ (v ∈ w :: anc /\ exists u', wanted_update h su v u'))) /\
        (NoDup (dkeys acc) -> NoDup (dkeys res))).
    { intros u Hu Hgood Hl. apply IH in Hl as (Hg & Hr & Hn). split_and!.
      - intros v Hv. apply elem_of_cons in Hv as [->|Hv]; auto.
      - intros v u'. rewrite Hr, elem_of_cons, dget_dset.
        destruct (decide (v = w)) as [->|Hne]; [|naive_solver].
        split.
        + intros [[Hv Hw]|[Heq _]]; [left; by auto|]. simplify_eq. left. auto.
        + intros [[_ Hw]|[_ Hno]].
          * rewrite (wanted_update_fun w u u') by done.
            destruct (decide (w ∈ anc)) as [Ha|Ha]; [left; done|].
            right. split; [done|]. naive_solver.
          * exfalso. apply Hno. split; [by left|]. by exists u.
      - intros Hnd. apply Hn. by apply NoDup_dkeys_dset. }
    assert (Hskip : (forall u, ~ wanted_update h su w u) ->
        (~ rng_not_shared h w /\ ~ conflicting_update h su w) ->
        rv_updates_loop h (dof su) anc acc = Ok res ->
        (forall v, v ∈ w :: anc -> ~ rng_not_shared h v /\ ~ conflicting_update h su v) /\
        (forall v u, dget res v = Some u <->
           (v ∈ w :: anc /\ wanted_update h su v u) \/
           (dget acc v = Some u /\ ~ (v ∈ w :: anc /\ exists u', wanted_update h su v u'))) /\
        (NoDup (dkeys acc) -> NoDup (dkeys res))).
    { intros Hno Hgood Hl. apply IH in Hl as (Hg & Hr & Hn). split_and!.
      - intros v Hv. apply elem_of_cons in Hv as [->|Hv]; auto.
      - intros v u'. rewrite Hr, elem_of_cons.
        destruct (decide (v = w)) as [->|Hne]; naive_solver.
      - done. }
    destruct (hv h w) as [x|] eqn:Hw.
    2:{ apply Hskip; [by intros u (x & ? & _); congruence|].
        split; [intros (x & ? & _)|intros (x & ? & ? & ? & _)]; congruence. }
    destruct (v_kind x) as [c|du|] eqn:Hk.
    - destruct (ty_random (v_ty x)) eqn:Hty; [done|].
      apply Hskip; [intros u (x' & ? & [?|[? _]]); simplify_eq; congruence|].
      split; [intros (x' & ? & ? & _)|intros (x' & ? & ? & ? & ? & _)]; congruence.
    - assert (Hns : ~ rng_not_shared h w).
      { intros (x' & ? & _ & Hks). simplify_eq. by eapply Hks. }
      destruct du as [u|].
      + destruct (dget (dof su) w) as [u'|] eqn:Hd.
        * case_decide as He; [|done]. subst. apply Hset; [exists x; auto|].
          split; [done|]. intros (x' & v1 & v2 & ? & ? & Hin & ?). simplify_eq.
          apply dget_su in Hin. congruence.
        * apply Hset; [exists x; auto|].
          split; [done|]. intros (x' & v1 & v2 & ? & ? & Hin & ?). simplify_eq.
          apply dget_su in Hin. congruence.
      + destruct (dget (dof su) w) as [u'|] eqn:Hd.
        * apply Hset; [exists x; split; [done|]; right; split; [done|]; by apply dget_su|].
          split; [done|]. intros (x' & v1 & v2 & ? & ? & _). congruence.
        * apply Hskip.
          -- intros u (x' & ? & [?|[? Hin]]); simplify_eq; [congruence|].
             apply dget_su in Hin. congruence.
          -- split; [done|]. intros (x' & v1 & v2 & ? & ? & _). congruence.
    - destruct (ty_random (v_ty x)) eqn:Hty; [done|].
      apply Hskip; [intros u (x' & ? & [?|[? _]]); simplify_eq; congruence|].
      split; [intros (x' & ? & ? & _)|intros (x' & ? & ? & ? & ? & _)]; congruence.
  Qed.

  Lemma rv_updates_loop_total anc acc :
    (forall v, v ∈ anc -> ~ rng_not_shared h v /\ ~ conflicting_update h su v) ->
    exists res, rv_updates_loop h (dof su) anc acc = Ok res.
  Proof.
    revert acc. induction anc as [|w anc IH]; intros acc Hgood; cbn [rv_updates_loop]; [by eexists|].
    destruct (Hgood w) as [Hns Hcf]; [by left|].
    assert (Hrest : forall v, v ∈ anc -> ~ rng_not_shared h v /\ ~ conflicting_update h su v).
    { intros v Hv. apply Hgood. by right. }
    destruct (hv h w) as [x|] eqn:Hw; [|by apply IH].
    destruct (v_kind x) as [c|[u|]|] eqn:Hk.
    - destruct (ty_random (v_ty x)) eqn:Hty; [|by apply IH].
      exfalso. apply Hns. exists x. split_and!; [done..|]. intros u. by rewrite Hk.
    - destruct (dget (dof su) w) as [u'|] eqn:Hd; [|by apply IH].
      case_decide as He; [by apply IH|]. exfalso. apply Hcf.
      exists x, u, u'. split_and!; [done..| |done]. by apply dget_su.
    - destruct (dget (dof su) w) as [u'|] eqn:Hd; by apply IH.
    - destruct (ty_random (v_ty x)) eqn:Hty; [|by apply IH].
      exfalso. apply Hns. exists x. split_and!; [done..|]. intros u. by rewrite Hk.
  Qed.

  Lemma get_rv_updates_iff rvs anc :
    enumerates_ancestors h rvs anc ->
    (exists upd, get_rv_updates h su anc = Ok upd) <->
    (forall v, reachable h rvs v -> ~ rng_not_shared h v /\ ~ conflicting_update h su v).
  Proof.
    intros Hanc. unfold get_rv_updates. split.
    - intros [upd Hu] v Hv. apply rv_updates_loop_spec in Hu as (Hg & _).
      apply Hg. by apply Hanc.
    - intros Hg. apply rv_updates_loop_total. intros v Hv. apply Hg. by apply Hanc.
  Qed.

  Lemma get_rv_updates_exact rvs anc upd :
    enumerates_ancestors h rvs anc ->
    get_rv_updates h su anc = Ok upd ->
    NoDup (dkeys upd) /\
    forall v u, dget upd v = Some u <-> reachable h rvs v /\ wanted_update h su v u.
  Proof.
    intros Hanc Hu. unfold get_rv_updates in Hu.
    apply rv_updates_loop_spec in Hu as (_ & Hr & Hn). split; [apply Hn; constructor|].
    intros v u. rewrite Hr, (Hanc v). simpl. naive_solver.
  Qed.
End updates.

Lemma get_rv_updates_error h su (Hsu : NoDup (map fst su)) anc e :
  get_rv_updates h su anc = Raise e ->
  exists v, v ∈ anc /\
    ((e = AssertionError /\ conflicting_update h su v) \/
     (e = AttributeError /\ rng_not_shared h v)).
Proof.
  unfold get_rv_updates. generalize (@nil (nat * nat)) as acc.
  induction anc as [|w anc IH]; intros acc; cbn [rv_updates_loop]; [done|].
  assert (Hrec : forall acc', rv_updates_loop h (dof su) anc acc' = Raise e ->
    exists v, v ∈ w :: anc /\
    ((e = AssertionError /\ conflicting_update h su v) \/
     (e = AttributeError /\ rng_not_shared h v))).
  { intros acc' H. destruct (IH acc' H) as (v & Hv & Hc). exists v. split; [by right|done]. }
  destruct (hv h w) as [x|] eqn:Hw; [|by apply Hrec].
  destruct (v_kind x) as [c|[u|]|] eqn:Hk.
  - destruct (ty_random (v_ty x)) eqn:Hty; [|by apply Hrec]. intros ?; simplify_eq.
    exists w. split; [by left|]. right. split; [done|]. exists x. split_and!; [done..|].
    intros u. by rewrite Hk.
  - destruct (dget (dof su) w) as [u'|] eqn:Hd; [|by apply Hrec].
    case_decide as He; [by apply Hrec|]. intros ?; simplify_eq.
    exists w. split; [by left|]. left. split; [done|].
    exists x, u, u'. split_and!; [done..| |done]. by apply (dget_su su Hsu).
  - destruct (dget (dof su) w) as [u'|] eqn:Hd; by apply Hrec.
  - destruct (ty_random (v_ty x)) eqn:Hty; [|by apply Hrec]. intros ?; simplify_eq.
    exists w. split; [by left|]. right. split; [done|]. exists x. split_and!; [done..|].
    intros u. by rewrite Hk.
Qed.

Lemma remove_constants_no_constant h inputs v :
  v ∈ remove_constants h inputs -> is_constant h v = false.
Proof.
  induction inputs as [|[w|z] inputs IH]; simpl; [by intros ?%elem_of_nil| |done].
  destruct (is_constant h w) eqn:Hw; [done|]. intros [->|?]%elem_of_cons; auto.
Qed.

Lemma remove_constants_idem h inputs :
  remove_constants h (map PVar (remove_constants h inputs)) = remove_constants h inputs.
Proof.
  induction inputs as [|[w|z] inputs IH]; simpl; [done| |done].
  destruct (is_constant h w) eqn:Hw; [done|]. simpl. by rewrite Hw, IH.
Qed.

Global Instance pyinput_eq_dec : EqDecision pyinput.
Proof. solve_decision. Defined.

Lemma remove_constants_count h inputs v :
  is_constant h v = false ->
  length (filter (fun w => w = v) (remove_constants h inputs)) =
  length (filter (fun i => i = PVar v) inputs).
Proof.
  intros Hv. induction inputs as [|[w|z] inputs IH]; cbn [remove_constants]; [done| |].
  - rewrite filter_cons. destruct (is_constant h w) eqn:Hw.
    + rewrite decide_False by congruence. done.
    + rewrite filter_cons. destruct (decide (w = v)) as [->|Hne].
      * rewrite decide_True by done. simpl. by rewrite IH.
      * rewrite decide_False by congruence. done.
  - rewrite filter_cons, decide_False by done. done.
Qed.
