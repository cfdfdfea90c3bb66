(** Broadcasting of Elemwise arguments. *)
From Verif Require Export S_broadcast L_match L_tensor.

Section bc.
  Context {A : Type}.
  Implicit Types x y z : tensor A.

  Lemma build_ok s f x : build s f = Some x -> tensor_ok x.
  Proof.
    unfold build. destruct (mapM f (indices s)) as [xs|] eqn:Hm; [|done]. intros H. injection H as <-.
    unfold tensor_ok. cbn. rewrite <- (mapM_length _ _ _ Hm). apply indices_length.
  Qed.

  Lemma ravel_lt s idx : in_range s idx -> ravel s idx < size_of s.
  Proof. intros Hi. rewrite <- indices_length. apply lookup_lt_is_Some_1. rewrite (indices_ravel _ _ Hi). by eauto. Qed.

  Lemma t_at_some x idx : tensor_ok x -> in_range (t_shape x) idx -> is_Some (t_at x idx).
  Proof. intros Hok Hi. unfold t_at. apply lookup_lt_is_Some_2. rewrite Hok. by apply ravel_lt. Qed.

  Lemma pad_spec n x : tensor_ok x -> rank x <= n ->
    exists y, pad n x = Some y /\ tensor_ok y /\ t_shape y = replicate (n - rank x) 1 ++ t_shape x /\
      forall idx, in_range (t_shape x) idx -> t_at y (replicate (n - rank x) 0 ++ idx) = t_at x idx.
  Proof.
    intros Hok Hn. unfold pad. case_decide as Hr.
    - exists x. rewrite Hr, Nat.sub_diag. cbn. done.
    - set (k := n - rank x). unfold dimshuffle. change (Some <$> seq 0 (rank x)) with (dims (length (t_shape x))).
      rewrite dimshuffle_ok_left, dimshuffle_ok_dims by done.
      rewrite shuffled_shape_left. rewrite (shuffled_shape_dims (t_shape x)).
      assert (Hd : forall idx, in_range (t_shape x) idx ->
        t_at x (source_index (replicate k None ++ dims (length (t_shape x))) (length (t_shape x)) (replicate k 0 ++ idx)) = t_at x idx).
      { intros idx Hi. rewrite source_index_left, source_index_dims; [done|]. by apply in_range_length. }
      edestruct (build_defined (replicate k 1 ++ t_shape x)
        (fun idx => t_at x (source_index (replicate k None ++ dims (length (t_shape x))) (length (t_shape x)) idx))) as [y Hy].
      { intros idx Hi. apply in_range_left in Hi as (idx' & -> & Hi'). rewrite (Hd idx' Hi'). by apply t_at_some. }
      exists y. split; [exact Hy|]. split; [by eapply build_ok|]. split; [by eapply build_shape|].
      intros idx Hi. rewrite (build_at _ _ _ _ Hy); [by apply Hd|].
      unfold in_range. apply Forall2_app; [|done]. clear. induction k; cbn; constructor; [lia|done].
  Qed.

  Lemma broadcast_dim_spec e ds : Forall (fun d => d = 1 \/ d = e) ds ->
    exists r, broadcast_dim ds = Some r /\ (r = 1 \/ r = e) /\ Forall (fun d => d = 1 \/ d = r) ds /\ (e ∈ ds -> r = e).
  Proof.
    intros H. unfold broadcast_dim.
    destruct (filter (fun d => d <> 1) ds) as [|d ds'] eqn:Hf.
    - assert (Hall : Forall (fun d => d = 1) ds).
      { apply Forall_forall. intros d Hd. destruct (decide (d = 1)) as [|Hne]; [done|].
        assert (Hin : d ∈ filter (fun d => d <> 1) ds) by (by apply elem_of_list_filter). rewrite Hf in Hin. by apply elem_of_nil in Hin. }
      exists 1. split; [done|]. split; [by left|]. split; [eapply Forall_impl; [exact Hall|]; auto|].
      intros He. rewrite Forall_forall in Hall. symmetry. by apply Hall.
    - assert (Hne : forall c, c ∈ d :: ds' -> c = e).
      { intros c Hc. rewrite <- Hf in Hc. apply elem_of_list_filter in Hc as [H1 Hc]. rewrite Forall_forall in H.
        destruct (H c Hc); [done|congruence]. }
      assert (d = e) as -> by (apply Hne; by left).
      rewrite decide_True by (apply Forall_forall; intros c Hc; apply Hne; by right).
      exists e. split; [done|]. split; [by right|]. split; [done|]. done.
  Qed.

  (** equal ranks *)
  Definition dims_ok (s : list nat) x : Prop := tensor_ok x /\ Forall2 (fun d e => d = 1 \/ d = e) (t_shape x) s.

  Lemma clip_in_range (s t idx : list nat) :
    Forall2 (fun d e => d = 1 \/ d = e) t s -> in_range s idx -> in_range t (clip t idx).
  Proof.
    intros Hd. revert idx. induction Hd as [|d e t s Hde Hd IH]; intros idx Hi; inversion Hi; subst; cbn; constructor.
    - case_decide; [lia|]. destruct Hde; [done|]. by subst.
    - by apply IH.
  Qed.

  Lemma clip_clip (t r idx : list nat) :
    Forall2 (fun d e => d = 1 \/ d = e) t r -> clip t (clip r idx) = clip t idx.
  Proof.
    intros Hd. revert idx. induction Hd as [|d e t r Hde Hd IH]; intros [|i idx]; cbn; try done. rewrite IH. f_equal.
    case_decide; [done|]. destruct Hde as [| ->]; [done|]. by rewrite decide_False.
  Qed.

  Lemma clip_id s idx : in_range s idx -> clip s idx = idx.
  Proof. induction 1 as [|d i s idx Hi H IH]; [done|]. unfold clip in *. cbn. rewrite IH. f_equal. case_decide; [lia|done]. Qed.

  Lemma in_range_drop k s idx : in_range s idx -> in_range (drop k s) (drop k idx).
  Proof. apply Forall2_drop. Qed.

  Lemma broadcast_shape_spec s ss : Forall (fun t => Forall2 (fun d e => d = 1 \/ d = e) t s) ss ->
    exists r, broadcast_shape (length s) ss = Some r /\ Forall2 (fun d e => d = 1 \/ d = e) r s /\
      Forall (fun t => Forall2 (fun d e => d = 1 \/ d = e) t r) ss /\ (s ∈ ss -> r = s).
  Proof.
    intros H. unfold broadcast_shape. rewrite decide_True.
    2:{ eapply Forall_impl; [exact H|]. intros t Ht. cbn. exact (Forall2_length _ _ _ Ht). }
    set (g := fun p => broadcast_dim ((fun t => default 1 (t !! p)) <$> ss)).
    assert (Hg : forall p e, s !! p = Some e -> exists r, g p = Some r /\ (r = 1 \/ r = e) /\
      (forall t, t ∈ ss -> exists d, t !! p = Some d /\ (d = 1 \/ d = r)) /\ (s ∈ ss -> r = e)).
    { intros p e Hp. destruct (broadcast_dim_spec e ((fun t => default 1 (t !! p)) <$> ss)) as (r & Hr & Hre & Hds & Hin).
      - apply Forall_fmap. eapply Forall_impl; [exact H|]. intros t Ht. cbn.
        destruct (Forall2_lookup_r _ _ _ _ _ Ht Hp) as (d & -> & Hd). done.
      - exists r. split; [exact Hr|]. split; [done|]. rewrite Forall_fmap in Hds. rewrite Forall_forall in Hds, H. split.
        + intros t Ht. destruct (Forall2_lookup_r _ _ _ _ _ (H t Ht) Hp) as (d & Hd & _). exists d. split; [done|].
          specialize (Hds t Ht). cbn in Hds. by rewrite Hd in Hds.
        + intros Hs. apply Hin. apply elem_of_list_fmap. exists s. by rewrite Hp. }
    assert (Hm : is_Some (mapM g (seq 0 (length s)))).
    { apply mapM_is_Some_2. apply Forall_forall. intros p Hp%elem_of_seq.
      destruct (lookup_lt_is_Some_2 s p) as [e He]; [lia|]. destruct (Hg p e He) as (r & Hr & _). exists r. exact Hr. }
    destruct Hm as [r Hm]. exists r. split; [exact Hm|].
    pose proof (mapM_length _ _ _ Hm) as Hlen. rewrite seq_length in Hlen.
    assert (Hl : forall p e, s !! p = Some e -> r !! p = g p).
    { intros p e He. apply (mapM_lookup g (seq 0 (length s)) r p p Hm). rewrite lookup_seq_lt; [done|]. by eapply lookup_lt_Some. }
    split; [|split].
    - apply Forall2_same_length_lookup. split; [lia|]. intros p d e Hd He.
      destruct (Hg p e He) as (c & Hc & Hce & _). rewrite (Hl p e He), Hc in Hd. congruence.
    - apply Forall_forall. intros t Ht. rewrite Forall_forall in H. pose proof (Forall2_length _ _ _ (H t Ht)) as Htl.
      apply Forall2_same_length_lookup. split; [lia|]. intros p d c Hd Hc.
      destruct (lookup_lt_is_Some_2 s p) as [e He]; [rewrite <- Htl; by eapply lookup_lt_Some|].
      destruct (Hg p e He) as (c' & Hc' & _ & Hts & _). rewrite (Hl p e He), Hc' in Hc. injection Hc as <-.
      destruct (Hts t Ht) as (d' & Hd' & Hdc). congruence.
    - intros Hs. apply list_eq_same_length with (n := length s); [done|lia|]. intros p c e _ Hc He.
      destruct (Hg p e He) as (c' & Hc' & _ & _ & Hse). rewrite (Hl p e He), Hc' in Hc. specialize (Hse Hs). congruence.
  Qed.

  Lemma mapM_reads (l : list (tensor A)) r idx : Forall tensor_ok l ->
    Forall (fun x => Forall2 (fun d e => d = 1 \/ d = e) (t_shape x) r) l -> in_range r idx ->
    is_Some (mapM (fun x => t_at x (clip (t_shape x) idx)) l).
  Proof.
    intros Hok Hl Hi. apply mapM_is_Some_2. apply Forall_forall. intros x Hx. rewrite Forall_forall in Hok, Hl.
    apply t_at_some; [by apply Hok|]. by apply (clip_in_range r); [apply Hl|].
  Qed.

  Lemma elemwise_spec f s xs : xs <> [] -> Forall (dims_ok s) xs ->
    (forall vals, length vals = length xs -> is_Some (f vals)) ->
    exists z, elemwise f xs = Some z /\ dims_ok s z /\
      (forall idx, in_range s idx -> t_at z (clip (t_shape z) idx) = vals ← mapM (fun x => t_at x (clip (t_shape x) idx)) xs; f vals) /\
      ((exists x, x ∈ xs /\ t_shape x = s) -> t_shape z = s).
  Proof.
    intros Hne Hxs Hf. destruct xs as [|x0 xs]; [done|]. cbn [elemwise].
    set (l := x0 :: xs) in *.
    assert (Hrank : length (t_shape x0) = length s).
    { unfold l in Hxs. apply Forall_cons in Hxs as [[_ Hx] _]. by eapply Forall2_length. }
    destruct (broadcast_shape_spec s (t_shape <$> l)) as (r & Hr & Hrs & Htr & Hin).
    { apply Forall_fmap. eapply Forall_impl; [exact Hxs|]. by intros x [_ Hx]. }
    apply Forall_fmap in Htr. rewrite Hrank, Hr. cbn [mbind option_bind].
    set (g := fun idx => vals ← mapM (fun x => t_at x (clip (t_shape x) idx)) l; f vals).
    assert (Hok : Forall tensor_ok l) by (eapply Forall_impl; [exact Hxs|]; by intros x [Hx _]).
    destruct (build_defined r g) as [z Hz].
    { intros idx Hi. unfold g. destruct (mapM_reads l r idx Hok Htr Hi) as [vals Hv]. rewrite Hv. cbn. apply Hf.
      symmetry. by eapply mapM_length. }
    exists z. split; [exact Hz|]. pose proof (build_shape _ _ _ Hz) as Hsz. split; [|split].
    - split; [by eapply build_ok|]. by rewrite Hsz.
    - intros idx Hi. rewrite Hsz. rewrite (build_at _ _ _ _ Hz) by (by apply (clip_in_range s)).
      unfold g. f_equal. clear -Htr. induction Htr as [|x l Hx Hl IH]; [done|].
      cbn. change (Forall2 (fun d e => d = 1 \/ d = e) (t_shape x) r) in Hx. by rewrite (clip_clip _ _ _ Hx), IH.
    - intros (x & Hx & Hsx). rewrite Hsz. apply Hin. apply elem_of_list_fmap. by exists x.
  Qed.

  (** ** Any ranks *)
  Lemma fits_rank s x : fits s x -> rank x <= length s.
  Proof. by intros (_ & H & _). Qed.

  Lemma bget_some s x idx : fits s x -> in_range s idx -> is_Some (bget x idx).
  Proof.
    intros (Hok & Hr & Hd) Hi. apply t_at_some; [done|]. apply (clip_in_range (drop (length s - rank x) s)); [done|].
    rewrite (in_range_length _ _ Hi). by apply in_range_drop.
  Qed.

  Lemma bget_full x idx : in_range (t_shape x) idx -> bget x idx = t_at x idx.
  Proof.
    intros Hi. unfold bget. pose proof (in_range_length _ _ Hi) as Hl. unfold rank. rewrite Hl, Nat.sub_diag, drop_0.
    by rewrite (clip_id _ _ Hi).
  Qed.

  Lemma fits_full x : tensor_ok x -> fits (t_shape x) x.
  Proof.
    intros Hok. split; [done|]. split; [done|]. unfold rank. rewrite Nat.sub_diag, drop_0.
    apply Forall2_same_length_lookup. split; [done|]. intros i d e Hd He. right. congruence.
  Qed.

  Lemma pad_fits n s x : fits s x -> rank x <= n -> n <= length s ->
    exists y, pad n x = Some y /\ dims_ok (drop (length s - n) s) y /\
      (forall idx, in_range s idx -> t_at y (clip (t_shape y) (drop (length s - n) idx)) = bget x idx) /\
      (n = rank x -> y = x).
  Proof.
    intros (Hok & Hr & Hd) Hn Hns. destruct (pad_spec n x Hok Hn) as (y & Hy & Hyok & Hsh & Hat).
    exists y. split; [done|].
    assert (Hdrop : forall l : list nat, length l = length s ->
      drop (length s - n) l = take (n - rank x) (drop (length s - n) l) ++ drop (length s - rank x) l).
    { intros l Hl. rewrite <- (take_drop (n - rank x) (drop (length s - n) l)) at 1. f_equal. rewrite drop_drop. f_equal. lia. }
    split; [|split].
    - split; [done|]. rewrite Hsh. rewrite (Hdrop s eq_refl). apply Forall2_app; [|done].
      apply Forall2_same_length_lookup. split.
      + rewrite replicate_length, take_length, drop_length. lia.
      + intros i d e Hi _. apply lookup_replicate in Hi as [-> _]. by left.
    - intros idx Hi. pose proof (in_range_length _ _ Hi) as Hl. rewrite Hsh. rewrite (Hdrop idx Hl). unfold bget.
      rewrite Hl.
      assert (Hc : forall (a b c d : list nat), length a = length c -> clip (a ++ b) (c ++ d) = clip a c ++ clip b d).
      { intros a b c d Hac. unfold clip. by apply zip_with_app. }
      rewrite Hc by (rewrite replicate_length, take_length, drop_length; lia).
      assert (clip (replicate (n - rank x) 1) (take (n - rank x) (drop (length s - n) idx)) = replicate (n - rank x) 0) as ->.
      { assert (Hlen : length (take (n - rank x) (drop (length s - n) idx)) = n - rank x) by (rewrite take_length, drop_length; lia).
        revert Hlen. generalize (take (n - rank x) (drop (length s - n) idx)) as l. generalize (n - rank x) as k.
        induction k as [|k IH]; intros [|a l] Hlen; cbn in *; try lia; [done|]. f_equal. apply IH. lia. }
      apply Hat. apply (clip_in_range (drop (length s - rank x) s)); [done|]. by apply in_range_drop.
    - intros ->. unfold pad in Hy. rewrite decide_True in Hy by done. congruence.
  Qed.

  Lemma numpy_elemwise_spec f s xs : xs <> [] -> Forall (fits s) xs ->
    (forall vals, length vals = length xs -> is_Some (f vals)) ->
    exists z, numpy_elemwise f xs = Some z /\ fits s z /\ rank z = foldr Nat.max 0 (rank <$> xs) /\
      (forall idx, in_range s idx -> bget z idx = vals ← mapM (fun x => bget x idx) xs; f vals) /\
      ((exists x, x ∈ xs /\ t_shape x = s) -> t_shape z = s).
  Proof.
    intros Hne Hxs Hf. set (n := foldr Nat.max 0 (rank <$> xs)).
    assert (Hn : n <= length s).
    { apply foldr_max_le. intros m Hm. apply elem_of_list_fmap in Hm as (x & -> & Hx). rewrite Forall_forall in Hxs.
      by apply fits_rank, Hxs. }
    assert (Hrx : Forall (fun x => rank x <= n) xs).
    { apply Forall_forall. intros x Hx. apply foldr_max_ge. apply elem_of_list_fmap. by exists x. }
    assert (Hpad : exists ys, mapM (pad n) xs = Some ys /\ Forall (dims_ok (drop (length s - n) s)) ys /\
      (forall idx, in_range s idx -> mapM (fun y => t_at y (clip (t_shape y) (drop (length s - n) idx))) ys = mapM (fun x => bget x idx) xs) /\
      (n = length s -> forall x, x ∈ xs -> t_shape x = s -> x ∈ ys)).
    { clear -Hxs Hrx Hn. clearbody n. induction Hxs as [|x xs Hx Hxs IH].
      - exists []. split_and!; try done.
      - apply Forall_cons in Hrx as [Hr Hrx]. destruct (IH Hrx) as (ys & Hys & Hok & Hget & Hfull).
        destruct (pad_fits n s x Hx Hr Hn) as (y & Hy & Hyok & Hyget & Hyfull).
        exists (y :: ys). split_and!.
        + change (mapM (pad n) (x :: xs)) with (z ← pad n x; k ← mapM (pad n) xs; Some (z :: k)). by rewrite Hy, Hys.
        + by constructor.
        + intros idx Hi. cbn. by rewrite (Hyget idx Hi), (Hget idx Hi).
        + intros Hnl w Hw Hs. apply elem_of_cons in Hw as [->|Hw]; [|right; by apply Hfull].
          rewrite Hyfull; [by left|]. unfold rank. by rewrite Hs. }
    destruct Hpad as (ys & Hys & Hok & Hget & Hfull).
    pose proof (mapM_length _ _ _ Hys) as Hlen.
    destruct (elemwise_spec f (drop (length s - n) s) ys) as (z & Hz & (Hzok & Hzd) & Hzget & Hzfull).
    - intros ->. destruct xs; [done|]. cbn in Hlen. lia.
    - done.
    - intros vals Hv. apply Hf. lia.
    - assert (Hrz : rank z = n).
      { unfold rank. rewrite (Forall2_length _ _ _ Hzd), drop_length. lia. }
      exists z. split; [unfold numpy_elemwise; fold n; by rewrite Hys|].
      split. { split; [done|]. split; [lia|]. by rewrite Hrz. }
      split; [done|]. split.
      + intros idx Hi. rewrite <- (Hget idx Hi). unfold bget at 1. rewrite (in_range_length _ _ Hi), Hrz. rewrite Hzget by (by apply in_range_drop).
        done.
      + intros (x & Hx & Hs). assert (Hnl : n = length s).
        { apply Nat.le_antisymm; [done|]. rewrite <- Hs. rewrite Forall_forall in Hrx. by apply Hrx. }
        rewrite Hzfull.
        * rewrite Hnl, Nat.sub_diag. apply drop_0.
        * exists x. split; [by apply Hfull|]. rewrite Hnl, Nat.sub_diag, drop_0. done.
  Qed.
End bc.
