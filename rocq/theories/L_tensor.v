From Verif Require Export S_tensor S_subsume.

Lemma elem_of_indices s idx : idx ∈ indices s <-> in_range s idx.
Proof.
  revert idx. induction s as [|d s IH]; intros idx; cbn.
  - split; [by intros ->%elem_of_list_singleton; constructor|]. intros H. inversion H; subst. by left.
  - rewrite elem_of_list_In, in_flat_map. split.
    + intros (i & Hi%elem_of_list_In%elem_of_seq & Hin). apply elem_of_list_In, elem_of_list_fmap in Hin as (r & -> & Hr).
      constructor; [lia|]. by apply IH.
    + intros H. inversion H as [|? i ? r Hi Hr]; subst. exists i. split; [apply elem_of_list_In, elem_of_seq; lia|].
      apply elem_of_list_In, elem_of_list_fmap. exists r. split; [done|]. by apply IH.
Qed.

Lemma indices_length s : length (indices s) = size_of s.
Proof.
  induction s as [|d s IH]; [done|]. cbn [indices size_of foldr]. fold (size_of s).
  assert (H : forall k n, length (flat_map (fun i => map (cons i) (indices s)) (seq k n)) = n * size_of s).
  { intros k n. revert k. induction n as [|n IHn]; intros k; [done|]. cbn [seq flat_map]. rewrite app_length, map_length, IHn, IH. lia. }
  by rewrite H.
Qed.

Lemma indices_ravel s idx : in_range s idx -> indices s !! ravel s idx = Some idx.
Proof.
  revert idx. induction s as [|d s IH]; intros idx H; inversion H as [|? i ? r Hi Hr]; subst; [done|].
  cbn [indices ravel].
  assert (Hr' : ravel s r < size_of s).
  { rewrite <- indices_length. apply lookup_lt_is_Some_1. rewrite IH by done. eauto. }
  assert (Hgen : forall k n i, i < n -> flat_map (fun i => map (cons i) (indices s)) (seq k n) !! (i * size_of s + ravel s r) = Some ((k + i) :: r)).
  { intros k n. revert k. induction n as [|n IHn]; intros k j Hj; [lia|]. cbn [seq flat_map]. destruct j as [|j].
    - rewrite lookup_app_l by (rewrite map_length, indices_length; lia).
      cbn [Nat.mul Nat.add]. change (map ?f ?l) with (f <$> l). rewrite list_lookup_fmap, IH by done. cbn. repeat f_equal. lia.
    - rewrite lookup_app_r by (rewrite map_length, indices_length; lia). rewrite map_length, indices_length.
      replace (S j * size_of s + ravel s r - size_of s) with (j * size_of s + ravel s r) by lia.
      rewrite IHn by lia. do 2 f_equal. lia. }
  by rewrite (Hgen 0 d i Hi).
Qed.

Section ops.
  Context {A : Type}.
  Implicit Types x y : tensor A.

  Lemma mapM_lookup {X Y} (f : X -> option Y) l ys k (x : X) :
    mapM f l = Some ys -> l !! k = Some x -> ys !! k = f x.
  Proof.
    intros Hm Hk. apply mapM_Some_1 in Hm. rewrite Forall2_lookup in Hm. specialize (Hm k). rewrite Hk in Hm.
    inversion Hm; congruence.
  Qed.

  Lemma build_at s f x idx : build s f = Some x -> in_range s idx -> t_at x idx = f idx.
  Proof.
    unfold build. intros Hb Hr. destruct (mapM f (indices s)) as [xs|] eqn:Hm; [|done]. cbn in Hb. injection Hb as <-.
    unfold t_at. cbn. eapply mapM_lookup; [done|]. by apply indices_ravel.
  Qed.

  Lemma build_shape s f x : build s f = Some x -> t_shape x = s.
  Proof. unfold build. destruct (mapM f (indices s)); [|done]. cbn. by intros [= <-]. Qed.

  Lemma build_ext s f g : (forall idx, in_range s idx -> f idx = g idx) -> build (A:=A) s f = build s g.
  Proof.
    intros H. unfold build. f_equal. assert (Ha : forall l, (forall i, i ∈ l -> f i = g i) -> mapM f l = mapM g l).
    { induction l as [|i l IH]; intros Hl; [done|]. cbn. rewrite (Hl i) by (by left). rewrite IH; [done|]. intros; apply Hl; by right. }
    apply Ha. intros i Hi. by apply H, elem_of_indices.
  Qed.

  Lemma build_defined s f : (forall idx, in_range s idx -> is_Some (f idx)) -> is_Some (build (A:=A) s f).
  Proof.
    intros H. unfold build. assert (is_Some (mapM f (indices s))) as [xs ->]; [|by eexists].
    apply mapM_is_Some_2. apply Forall_forall. intros i Hi. by apply H, elem_of_indices.
  Qed.

  Lemma build_defined_inv s f x idx : build (A:=A) s f = Some x -> in_range s idx -> is_Some (f idx).
  Proof.
    intros Hb Hr. pose proof Hb as Hb'. unfold build in Hb. destruct (mapM f (indices s)) as [xs|] eqn:Hm; [|done].
    apply mapM_Some_1 in Hm. rewrite Forall2_lookup in Hm. specialize (Hm (ravel s idx)).
    rewrite indices_ravel in Hm by done. inversion Hm; eauto.
  Qed.

  (** *** orders with added dimensions on the left *)
  Lemma out_pos_left k order d : out_pos (replicate k None ++ order) d = (fun p => k + p) <$> out_pos order d.
  Proof.
    unfold out_pos. induction k as [|k IH]; cbn [replicate app].
    - by destruct (list_find _ order) as [[p o]|].
    - cbn. rewrite decide_False by done. destruct (list_find _ (replicate k None ++ order)) as [[p o]|]; cbn in *.
      + destruct (list_find _ order) as [[q o']|]; [|done]. cbn in *. by injection IH as ->.
      + by destruct (list_find _ order) as [[q o']|].
  Qed.

  Lemma out_pos_dims n d : out_pos (dims n) d = if decide (d < n) then Some d else None.
  Proof.
    unfold out_pos, dims. case_decide as Hd.
    - assert (list_find (fun o => o = Some d) (Some <$> seq 0 n) = Some (d, Some d)) as ->; [|done].
      apply list_find_Some. split_and!; [|done|].
      + rewrite list_lookup_fmap, lookup_seq_lt by done. done.
      + intros j o Hj Hlt. rewrite list_lookup_fmap in Hj. destruct (seq 0 n !! j) as [e|] eqn:He; [|done].
        apply lookup_seq in He as [-> ?]. cbn in Hj. injection Hj as <-. intros [= ?]. lia.
    - assert (list_find (fun o => o = Some d) (Some <$> seq 0 n) = None) as ->; [|done].
      apply list_find_None. apply Forall_forall. intros o Ho. apply elem_of_list_fmap in Ho as (e & -> & He).
      apply elem_of_seq in He. intros [= ->]. lia.
  Qed.

  Lemma filter_left k (order : list (option nat)) :
    filter (fun o => o <> None) (replicate k None ++ order) = filter (fun o => o <> None) order.
  Proof. induction k as [|k IH]; [done|]. cbn [replicate app]. rewrite filter_cons_False by (intros ?; done). done. Qed.

  Lemma dimshuffle_ok_left k order s : dimshuffle_ok (replicate k None ++ order) s = dimshuffle_ok order s.
  Proof.
    unfold dimshuffle_ok. rewrite filter_left. f_equal; [f_equal|].
    - rewrite forallb_app. assert (forallb (fun o => match o with Some d => bool_decide (d < length s) | None => true end) (replicate k None) = true) as ->; [|done].
      induction k; done.
    - assert (H : forall l, forallb (fun d => match out_pos (replicate k None ++ order) d with Some _ => true | None => bool_decide (s !! d = Some 1) end) l =
        forallb (fun d => match out_pos order d with Some _ => true | None => bool_decide (s !! d = Some 1) end) l).
      { induction l as [|d l IH]; [done|]. cbn [forallb]. rewrite IH. f_equal. rewrite out_pos_left. by destruct (out_pos order d). }
      apply H.
  Qed.

  Lemma dimshuffle_ok_dims n s : length s = n -> dimshuffle_ok (dims n) s = true.
  Proof.
    intros <-. unfold dimshuffle_ok. rewrite !andb_true_iff. split_and!.
    - apply bool_decide_eq_true. apply NoDup_filter. unfold dims. apply NoDup_fmap; [apply _|apply NoDup_seq].
    - apply forallb_forall. intros o Ho%elem_of_list_In. apply elem_of_list_fmap in Ho as (e & -> & He).
      apply elem_of_seq in He. apply bool_decide_eq_true. lia.
    - apply forallb_forall. intros d Hd%elem_of_list_In%elem_of_seq. rewrite out_pos_dims, decide_True by lia. done.
  Qed.

  Lemma shuffled_shape_dims s : shuffled_shape (dims (length s)) s = s.
  Proof.
    apply list_eq. intros i. unfold shuffled_shape, dims. rewrite <- list_fmap_compose, list_lookup_fmap.
    destruct (decide (i < length s)) as [Hi|Hi].
    - rewrite lookup_seq_lt by done. cbn. by destruct (lookup_lt_is_Some_2 s i Hi) as [d ->].
    - rewrite lookup_seq_ge by lia. cbn. symmetry. apply lookup_ge_None. lia.
  Qed.

  Lemma shuffled_shape_length order s : length (shuffled_shape order s) = length order.
  Proof. apply fmap_length. Qed.

  Lemma in_range_left k s idx : in_range (replicate k 1 ++ s) idx -> exists idx', idx = replicate k 0 ++ idx' /\ in_range s idx'.
  Proof.
    revert idx. induction k as [|k IH]; intros idx H; [by exists idx|]. cbn in H. inversion H as [|? i ? r Hi Hr]; subst.
    destruct (IH r Hr) as (idx' & -> & H'). exists idx'. split; [|done]. cbn. f_equal. lia.
  Qed.

  Lemma shuffled_shape_left k order s : shuffled_shape (replicate k None ++ order) s = replicate k 1 ++ shuffled_shape order s.
  Proof. unfold shuffled_shape. rewrite fmap_app. f_equal. induction k; cbn; congruence. Qed.

  Lemma source_index_left k order n idx : source_index (replicate k None ++ order) n (replicate k 0 ++ idx) = source_index order n idx.
  Proof.
    unfold source_index. apply list_fmap_ext. intros _ d _. rewrite out_pos_left. destruct (out_pos order d) as [p|]; [|done].
    cbn. f_equal. rewrite lookup_app_r by (rewrite replicate_length; lia). f_equal. rewrite replicate_length. lia.
  Qed.

  Lemma source_index_dims (s idx : list nat) : length idx = length s -> source_index (dims (length s)) (length s) idx = idx.
  Proof.
    intros Hl. apply list_eq. intros i. unfold source_index. rewrite list_lookup_fmap.
    destruct (decide (i < length s)) as [Hi|Hi].
    - rewrite lookup_seq_lt by done. cbn. rewrite out_pos_dims, decide_True by done.
      destruct (lookup_lt_is_Some_2 idx i) as [d ->]; [lia|]. done.
    - rewrite lookup_seq_ge by lia. cbn. symmetry. apply lookup_ge_None. lia.
  Qed.

  Lemma in_range_length (s idx : list nat) : in_range s idx -> length idx = length s.
  Proof. intros H. symmetry. by eapply Forall2_length. Qed.

  Lemma dimshuffle_left k order x :
    dimshuffle (replicate k None ++ order) x = y ← dimshuffle order x; dimshuffle (replicate k None ++ dims (length order)) y.
  Proof.
    unfold dimshuffle at 1 3. rewrite dimshuffle_ok_left.
    destruct (dimshuffle_ok order (t_shape x)) eqn:Hok; [|done].
    set (f := fun idx => t_at x (source_index order (length (t_shape x)) idx)).
    rewrite shuffled_shape_left.
    assert (Hl : forall idx, in_range (shuffled_shape order (t_shape x)) idx ->
      in_range (replicate k 1 ++ shuffled_shape order (t_shape x)) (replicate k 0 ++ idx)).
    { intros idx Hi. unfold in_range. apply Forall2_app; [|done]. induction k; cbn; constructor; [lia|done]. }
    destruct (build (shuffled_shape order (t_shape x)) f) as [y|] eqn:Hy; cbn.
    - unfold dimshuffle. rewrite (build_shape _ _ _ Hy), dimshuffle_ok_left, dimshuffle_ok_dims by apply shuffled_shape_length.
      rewrite shuffled_shape_left. pose proof (shuffled_shape_dims (shuffled_shape order (t_shape x))) as Hd.
      rewrite shuffled_shape_length in Hd. rewrite Hd.
      apply build_ext. intros idx Hidx. apply in_range_left in Hidx as (idx' & -> & Hi').
      rewrite !source_index_left. rewrite shuffled_shape_length.
      pose proof (source_index_dims (shuffled_shape order (t_shape x)) idx') as Hsd.
      rewrite shuffled_shape_length in Hsd. rewrite Hsd by (rewrite (in_range_length _ _ Hi'); apply shuffled_shape_length).
      symmetry. by apply (build_at _ _ _ _ Hy).
    - destruct (build (replicate k 1 ++ _) _) as [z|] eqn:Hz; [|done]. exfalso.
      assert (is_Some (build (shuffled_shape order (t_shape x)) f)) as [? ?]; [|congruence].
      apply build_defined. intros idx Hi. pose proof (build_defined_inv _ _ _ _ Hz (Hl idx Hi)) as Hs.
      cbn in Hs. by rewrite source_index_left in Hs.
  Qed.

  Lemma tensor_shuffle_law scalar other : shuffle_law (tensor_base (A:=A) scalar other).
  Proof.
    intros k order x. unfold shuffle. cbn. rewrite dimshuffle_left.
    destruct (dimshuffle order x) as [y|]; [|done]. cbn. fold (dims (length order)).
    by destruct (dimshuffle (replicate k None ++ dims (length order)) y).
  Qed.
End ops.
