(** The inner graph of the horseshoe kernel. *)
From Coq Require Import Lra.
From Verif Require Export S_horseshoe_graph L_code_value.
From Verif Require Import L_array.
Global Open Scope nat_scope.

(** ** Arrays given by their components *)
Definition ones (k : nat) : list nat := replicate k 1.

Lemma mkt_ok s f : tensor_ok (mkt s f).
Proof. unfold tensor_ok, mkt. cbn. by rewrite fmap_length, seq_length. Qed.
Lemma size_ones k : size_of (ones k) = 1.
Proof. unfold size_of, ones. induction k as [|k IH]; [done|]. cbn. by rewrite IH. Qed.
Lemma mkt_at s f idx : in_range s idx -> t_at (mkt s f) idx = Some (f (ravel s idx)).
Proof.
  intros Hi. unfold t_at, mkt. cbn. rewrite list_lookup_fmap, lookup_seq_lt; [done|]. by apply ravel_lt.
Qed.
Lemma mkt_ext s f g : (forall j, j < size_of s -> f j = g j) -> mkt s f = mkt s g.
Proof. intros H. unfold mkt. f_equal. apply list_fmap_ext. intros i x Hi. apply lookup_seq in Hi as [-> Hl]. by apply H. Qed.
Lemma mkt_entries v : tensor_ok v -> v = mkt (t_shape v) (entries v).
Proof.
  destruct v as [s d]. unfold tensor_ok, mkt, entries. cbn [t_shape t_data]. intros Hl. f_equal. apply list_eq. intros i. rewrite list_lookup_fmap.
  destruct (decide (i < size_of s)) as [Hi|Hi].
  - rewrite lookup_seq_lt by done. cbn. destruct (lookup_lt_is_Some_2 d i) as [x Hx]; [lia|]. by rewrite Hx.
  - rewrite lookup_ge_None_2 by lia. rewrite lookup_seq_ge by lia. done.
Qed.
Lemma entries_mkt s f j : j < size_of s -> entries (mkt s f) j = f j.
Proof. intros Hj. unfold entries, mkt. cbn. by rewrite list_lookup_fmap, lookup_seq_lt. Qed.

Lemma components_mkt s f : components s (mkt s f) f.
Proof.
  split; [exact (fits_full (mkt s f) (mkt_ok s f))|]. intros idx Hi. rewrite bget_full by exact Hi. by apply mkt_at.
Qed.
Lemma ravel_zero_ones k idx : in_range (ones k) idx -> ravel (ones k) idx = 0.
Proof. intros Hi. apply ravel_lt in Hi. rewrite size_ones in Hi. lia. Qed.
Lemma components_ones s k a : k <= length s -> components s (mkt (ones k) (fun _ => a)) (fun _ => a).
Proof.
  intros Hk. assert (Hf : fits s (mkt (ones k) (fun _ => a))).
  { split; [apply mkt_ok|]. unfold rank. cbn. unfold ones. rewrite replicate_length. split; [done|].
    apply Forall2_same_length_lookup. split; [rewrite replicate_length, drop_length; lia|].
    intros i d e Hd _. apply lookup_replicate in Hd as [-> _]. by left. }
  split; [done|]. intros idx Hi. destruct (bget_some s _ idx Hf Hi) as [b Hb]. rewrite Hb. f_equal.
  unfold bget, t_at in Hb. apply elem_of_list_lookup_2 in Hb. unfold mkt in Hb. cbn [t_data] in Hb. apply elem_of_list_fmap in Hb as (? & -> & _). done.
Qed.

Lemma index_at s i idx : indices s !! i = Some idx -> in_range s idx /\ ravel s idx = i.
Proof.
  intros Hi. assert (Hr : in_range s idx) by (apply elem_of_indices; by eapply elem_of_list_lookup_2). split; [done|].
  eapply NoDup_lookup; [apply indices_NoDup|by apply indices_ravel|done].
Qed.
Lemma ravel_seq s : ravel s <$> indices s = seq 0 (size_of s).
Proof.
  apply list_eq. intros i. rewrite list_lookup_fmap. destruct (decide (i < size_of s)) as [Hi|Hi].
  - rewrite lookup_seq_lt by done. destruct (lookup_lt_is_Some_2 (indices s) i) as [idx Hidx]; [by rewrite indices_length|].
    rewrite Hidx. cbn. by rewrite (proj2 (index_at s i idx Hidx)).
  - rewrite lookup_seq_ge by lia. by rewrite lookup_ge_None_2 by (rewrite indices_length; lia).
Qed.

(** Elemwise on arrays one of which has the full shape *)
Lemma elem_components f s xs fs c : Forall2 (components s) xs fs -> (exists x, x ∈ xs /\ t_shape x = s) ->
  (forall j, j < size_of s -> f ((fun g => g j) <$> fs) = Some (c j)) -> numpy_elemwise f xs = Some (mkt s c).
Proof.
  intros Hxs (x0 & Hx0 & Hs0) Hf.
  assert (Hfit : Forall (fits s) xs) by (eapply Forall2_Forall_l; [exact Hxs|]; apply Forall_true; by intros ? ? [? _]).
  set (n := foldr Nat.max 0 (rank <$> xs)).
  assert (Hn : n = length s).
  { apply Nat.le_antisymm.
    - apply foldr_max_le. intros m (x & -> & Hx)%elem_of_list_fmap. rewrite Forall_forall in Hfit. by apply fits_rank, Hfit.
    - rewrite <- Hs0. apply foldr_max_ge. apply elem_of_list_fmap. by exists x0. }
  assert (Hpad : exists ys, mapM (pad n) xs = Some ys /\ Forall (dims_ok s) ys /\ s ∈ t_shape <$> ys /\
      forall idx, in_range s idx -> mapM (fun y => t_at y (clip (t_shape y) idx)) ys = Some ((fun g => g (ravel s idx)) <$> fs)).
  { clear -Hxs Hn Hx0 Hs0. assert (Hx0' : x0 ∈ xs) by done. clear Hx0. rewrite Hn. clear Hn.
    assert (G : exists ys, mapM (pad (length s)) xs = Some ys /\ Forall (dims_ok s) ys /\ (x0 ∈ xs -> s ∈ t_shape <$> ys) /\
      forall idx, in_range s idx -> mapM (fun y => t_at y (clip (t_shape y) idx)) ys = Some ((fun g => g (ravel s idx)) <$> fs)).
    { clear Hx0'. induction Hxs as [|x g xs fs [Hx Hg] Hxs IH]; [exists []; split_and!; [done|done|by intros ?%elem_of_nil|done]|].
      destruct IH as (ys & Hys & Hok & Hin & Hget). destruct (pad_fits (length s) s x Hx (fits_rank _ _ Hx) ltac:(done)) as (y & Hy & Hyok & Hyget & Hyfull).
      rewrite Nat.sub_diag, drop_0 in Hyok. exists (y :: ys). split_and!.
      - change (mapM (pad (length s)) (x :: xs)) with (z ← pad (length s) x; k ← mapM (pad (length s)) xs; Some (z :: k)). by rewrite Hy, Hys.
      - by constructor.
      - rewrite fmap_cons. intros [->|Hx']%elem_of_cons; [|right; by apply Hin]. rewrite Hyfull; [rewrite Hs0; by left|]. unfold rank. by rewrite Hs0.
      - intros idx Hi. specialize (Hyget idx Hi). rewrite Nat.sub_diag, drop_0 in Hyget. rewrite fmap_cons.
        change (mapM (fun y => t_at y (clip (t_shape y) idx)) (y :: ys)) with (z ← t_at y (clip (t_shape y) idx); k ← mapM (fun y => t_at y (clip (t_shape y) idx)) ys; Some (z :: k)).
        by rewrite Hyget, (Hg idx Hi), (Hget idx Hi). }
    destruct G as (ys & H1 & H2 & H3 & H4). exists ys. split_and!; [done|done|by apply H3|done]. }
  destruct Hpad as (ys & Hys & Hok & Hin & Hget). unfold numpy_elemwise. fold n. rewrite Hys. cbn [mbind option_bind].
  destruct (broadcast_shape_spec s (t_shape <$> ys)) as (r & Hr & _ & _ & Hrs).
  { apply Forall_fmap. eapply Forall_impl; [exact Hok|]. by intros y [_ Hy]. }
  rewrite (Hrs Hin) in Hr. destruct ys as [|y ys]; [by apply elem_of_nil in Hin|]. unfold elemwise.
  assert (Hy : length (t_shape y) = length s).
  { apply Forall_cons in Hok as [[_ Hy] _]. by eapply Forall2_length. }
  rewrite Hy, Hr. cbn [mbind option_bind]. unfold build.
  assert (Hm : forall l, (forall idx, idx ∈ l -> in_range s idx) ->
    mapM (fun idx => vals ← mapM (fun y0 => t_at y0 (clip (t_shape y0) idx)) (y :: ys); f vals) l = Some ((fun idx => c (ravel s idx)) <$> l)).
  { induction l as [|idx l IH]; intros Hl; [done|].
    change (mapM ?F (idx :: l)) with (z ← F idx; k ← mapM F l; Some (z :: k)). cbn beta.
    rewrite (Hget idx) by (apply Hl; by left). cbn [mbind option_bind]. rewrite Hf by (apply ravel_lt, Hl; by left). cbn [mbind option_bind].
    rewrite IH by (intros i Hi; apply Hl; by right). done. }
  rewrite Hm by (intros idx Hi; by apply elem_of_indices). cbn [mbind option_bind]. unfold mkt. f_equal. f_equal.
  rewrite <- (ravel_seq s), <- list_fmap_compose. done.
Qed.

Lemma fits_shape_refl s : fits_shape s s.
Proof. split; [done|]. rewrite Nat.sub_diag, drop_0. apply Forall2_same_length_lookup. split; [done|]. intros i d e Hd He. right. congruence. Qed.
Lemma fits_shape_nil s : fits_shape s [].
Proof. split; [cbn; lia|]. cbn [length]. rewrite Nat.sub_0_r, drop_all. constructor. Qed.
Lemma draw_shape_in ss s : s ∈ ss -> Forall (fits_shape s) ss -> draw_shape [] ss s.
Proof. intros Hs Hall. unfold draw_shape. rewrite decide_True by done. split; [done|]. intros t Ht. rewrite Forall_forall in Ht. by apply Ht. Qed.

Section horseshoe.
  Context (B : builder) (HB : builder_ok B).
  Context (scalar : nat -> list R -> option R) (other : op -> list (tensor R) -> option (list (tensor R))) (cval : nat -> tensor R).
  Context (HR : ranks_ok B other) (HC : constants_ok B cval) (HA : arithmetic_ok scalar) (HF : sums_ok other).
  Notation dn := (den B scalar other cval).

  Lemma den_int vals z : dn vals (EInt z) = Some (mkt (ones 0) (fun _ => IZR z)).
  Proof using HC. cbn [den]. by rewrite (cn_int B cval HC). Qed.
  Lemma den_float vals z : dn vals (EFloat z) = Some (mkt (ones 0) (fun _ => IZR z)).
  Proof using HC. cbn [den]. by rewrite (cn_float B cval HC). Qed.
  Lemma den_half vals : dn vals EHalf = Some (mkt (ones 0) (fun _ => / 2)%R).
  Proof using HC. cbn [den]. by rewrite (cn_half B cval HC). Qed.

  Lemma den_1 vals s e a g c : dn vals e = Some (mkt s a) -> (forall j, j < size_of s -> scalar g [a j] = Some (c j)) ->
    dn vals (M_code.E1 g e) = Some (mkt s c).
  Proof using Type.
    intros He Hc. cbn [den]. rewrite He. cbn [mbind option_bind]. apply (elem_components _ s _ [a]).
    - apply Forall2_cons_2; [apply components_mkt|apply Forall2_nil_2].
    - exists (mkt s a). split; [by left|done].
    - intros j Hj. cbn. by apply Hc.
  Qed.
  Lemma den_f1 vals k e x z : dn vals e = Some x -> other (fun_op k) [x] = Some [z] -> dn vals (F1 k e) = Some z.
  Proof using Type. intros He Hz. cbn [den]. rewrite He. cbn [mbind option_bind]. by rewrite Hz. Qed.
  (** both full, or one a single number *)
  Lemma den_ff vals s e1 e2 a b g c : dn vals e1 = Some (mkt s a) -> dn vals e2 = Some (mkt s b) ->
    (forall j, j < size_of s -> scalar g [a j; b j] = Some (c j)) -> dn vals (E2 g e1 e2) = Some (mkt s c).
  Proof using Type.
    intros H1 H2 Hc. cbn [den]. rewrite H1, H2. cbn [mbind option_bind]. apply (elem_components _ s _ [a; b]).
    - apply Forall2_cons_2; [apply components_mkt|]. apply Forall2_cons_2; [apply components_mkt|apply Forall2_nil_2].
    - exists (mkt s a). split; [by left|done].
    - intros j Hj. cbn. by apply Hc.
  Qed.
  Lemma den_fo vals s k e1 e2 a b g c : k <= length s -> dn vals e1 = Some (mkt s a) -> dn vals e2 = Some (mkt (ones k) (fun _ => b)) ->
    (forall j, j < size_of s -> scalar g [a j; b] = Some (c j)) -> dn vals (E2 g e1 e2) = Some (mkt s c).
  Proof using Type.
    intros Hk H1 H2 Hc. cbn [den]. rewrite H1, H2. cbn [mbind option_bind]. apply (elem_components _ s _ [a; fun _ => b]).
    - apply Forall2_cons_2; [apply components_mkt|]. apply Forall2_cons_2; [by apply components_ones|apply Forall2_nil_2].
    - exists (mkt s a). split; [by left|done].
    - intros j Hj. cbn. by apply Hc.
  Qed.
  Lemma den_of vals s k e1 e2 a b g c : k <= length s -> dn vals e1 = Some (mkt (ones k) (fun _ => a)) -> dn vals e2 = Some (mkt s b) ->
    (forall j, j < size_of s -> scalar g [a; b j] = Some (c j)) -> dn vals (E2 g e1 e2) = Some (mkt s c).
  Proof using Type.
    intros Hk H1 H2 Hc. cbn [den]. rewrite H1, H2. cbn [mbind option_bind]. apply (elem_components _ s _ [fun _ => a; b]).
    - apply Forall2_cons_2; [by apply components_ones|]. apply Forall2_cons_2; [apply components_mkt|apply Forall2_nil_2].
    - exists (mkt s b). split; [right; by left|done].
    - intros j Hj. cbn. by apply Hc.
  Qed.

  (** the program *)
  Definition hs_tprog (s : list nat) (k : nat) (rows : nat) (beta l2 : nat -> R) (t2 : R) : tprog :=
    (TDraw RV_exponential [mkt s (fun j => 1 + / l2 j)] s (fun u =>
     TDraw RV_exponential [mkt (ones k) (fun _ => 1 + / t2)] (ones k) (fun z =>
     TDraw RV_exponential [mkt s (fun j => entries u j + / 2 * (beta j * beta j) * / t2 / 1)] s (fun l =>
     TDraw RV_gamma [mkt [] (fun _ => / 2 * (INR rows + 1));
                     mkt (ones k) (fun _ => 1 / (entries z 0 + / 2 * foldr Rplus 0 ((fun j => beta j * beta j * entries l j) <$> seq 0 (size_of s)) / 1))]
       (ones k) (fun t =>
     TRet [mkt s (fun j => / R_sqrt.sqrt (entries l j)); mkt (ones k) (fun _ => / R_sqrt.sqrt (entries t 0))])))))%R.

  Lemma drawn_mkt d s v : drawn d s v -> v = mkt s (entries v).
  Proof using Type. intros (Hok & <- & _). by apply mkt_entries. Qed.
  Lemma drawn_ones d k v : drawn d (ones k) v -> v = mkt (ones k) (fun _ => entries v 0).
  Proof using Type.
    intros H. etransitivity; [by eapply drawn_mkt|]. apply mkt_ext. intros j Hj. rewrite size_ones in Hj. by replace j with 0 by lia.
  Qed.
  Lemma drawn_pos d s v j : positive_dist d -> drawn d s v -> j < size_of s -> (0 < entries v j)%R.
  Proof using Type.
    intros Hp (Hok & Hs & Hpos) Hj. unfold entries. destruct (lookup_lt_is_Some_2 (t_data v) j) as [x Hx]; [by rewrite Hok, Hs|].
    rewrite Hx. cbn. specialize (Hpos Hp). rewrite Forall_forall in Hpos. apply Hpos. by eapply elem_of_list_lookup_2.
  Qed.
  Lemma foldr_sum_nonneg (f : nat -> R) l : (forall j, j ∈ l -> 0 <= f j)%R -> (0 <= foldr Rplus 0 (f <$> l))%R.
  Proof using Type.
    induction l as [|a l IH]; intros H; cbn; [lra|]. pose proof (H a ltac:(by left)). pose proof (IH ltac:(intros j Hj; apply H; by right)). lra.
  Qed.

  Lemma horseshoe_runs p rest k (beta l2 : nat -> R) (t2 : R) : let s := p :: rest in
    k <= length s -> (forall j, (j < size_of s)%nat -> (0 < l2 j)%R) -> (0 < t2)%R ->
    runs B scalar other cval [mkt s beta; mkt s l2; mkt (ones k) (fun _ => t2)] horseshoe_code horseshoe_outs (hs_tprog s k p beta l2 t2).
  Proof using All.
    intros s Hk Hl2 Ht2. assert (Hexp : positive_dist RV_exponential) by (unfold positive_dist; tauto).
    assert (Hgam : positive_dist RV_gamma) by (unfold positive_dist; tauto).
    unfold horseshoe_code, draw_gamma. cbn [runs].
    exists (mkt (ones 0) (fun _ => 1%R)). split; [apply den_float|].
    eexists. split; [eapply (den_1 _ s _ l2 _ (fun j => / l2 j)%R); [reflexivity|]; intros j Hj; apply (ar_reciprocal scalar HA); specialize (Hl2 j Hj); lra|].
    eexists. split; [eapply (den_1 _ (ones k) _ (fun _ => t2) _ (fun _ => / t2)%R); [reflexivity|]; intros j Hj; apply (ar_reciprocal scalar HA); lra|].
    unfold hs_tprog.
    do 4 eexists. split; [reflexivity|]. split.
    { cbn [mapM]. rewrite (den_of _ s 0 _ _ 1%R (fun j => / l2 j)%R E_add (fun j => 1 + / l2 j)%R); [reflexivity|cbn; lia|apply den_int|reflexivity|intros; apply (ar_add scalar HA)]. }
    split; [reflexivity|]. split; [apply draw_shape_in; [apply elem_of_list_here|apply Forall_cons; split; [apply fits_shape_refl|done]]|].
    intros u Hu. pose proof (drawn_mkt _ _ _ Hu) as Eu. pose proof (fun j => drawn_pos _ _ _ j Hexp Hu) as Hup.
    do 4 eexists. split; [reflexivity|]. split.
    { cbn [mapM]. rewrite (den_of _ (ones k) 0 _ _ 1%R (fun _ => / t2)%R E_add (fun _ => 1 + / t2)%R); [reflexivity|lia|apply den_int|reflexivity|intros; apply (ar_add scalar HA)]. }
    split; [reflexivity|]. split; [apply draw_shape_in; [apply elem_of_list_here|apply Forall_cons; split; [apply fits_shape_refl|done]]|].
    intros z Hz. pose proof (drawn_ones _ _ _ Hz) as Ez. assert (Hzp : (0 < entries z 0)%R) by (eapply drawn_pos; [exact Hexp|exact Hz|rewrite size_ones; lia]).
    eexists. split; [eapply (den_fo _ s 0 _ _ beta 2%R _ (fun j => beta j * beta j)%R); [cbn; lia|reflexivity|apply den_int|intros; apply (ar_square scalar HA)]|].
    do 4 eexists. split; [reflexivity|]. split.
    { cbn [mapM]. erewrite (den_ff _ s _ _ (entries u) (fun j => / 2 * (beta j * beta j) * / t2 / 1)%R E_add); [reflexivity| | |].
      - cbn. by f_equal.
      - eapply (den_fo _ s 0 _ _ (fun j => / 2 * (beta j * beta j) * / t2)%R 1%R); [cbn; lia| |reflexivity|intros; apply (ar_div scalar HA); lra].
        eapply (den_fo _ s k _ _ (fun j => / 2 * (beta j * beta j))%R (/ t2)%R); [done| |reflexivity|intros; apply (ar_mul scalar HA)].
        eapply (den_of _ s 0 _ _ (/ 2)%R (fun j => beta j * beta j)%R); [cbn; lia|apply den_half|reflexivity|intros; apply (ar_mul scalar HA)].
      - intros. apply (ar_add scalar HA). }
    split; [reflexivity|]. split; [apply draw_shape_in; [apply elem_of_list_here|apply Forall_cons; split; [apply fits_shape_refl|done]]|].
    intros l Hl. pose proof (drawn_mkt _ _ _ Hl) as El. pose proof (fun j => drawn_pos _ _ _ j Hexp Hl) as Hlp.
    set (sm := foldr Rplus 0%R ((fun j => beta j * beta j * entries l j)%R <$> seq 0 (size_of s))).
    assert (Hsm : (0 <= sm)%R).
    { apply foldr_sum_nonneg. intros j Hj. apply elem_of_seq in Hj. specialize (Hlp j ltac:(lia)). apply Rmult_le_pos; [apply Rle_0_sqr|lra]. }
    do 4 eexists. split; [reflexivity|]. split.
    { cbn [mapM].
      erewrite (den_ff _ [] _ _ (fun _ => / 2)%R (fun _ => INR p + 1)%R E_mul (fun _ => / 2 * (INR p + 1))%R);
        [|apply (den_half _)| |intros; apply (ar_mul scalar HA)].
      2: { eapply (den_ff _ [] _ _ (fun _ => INR p) (fun _ => 1)%R); [|apply (den_int _ 1)|intros; apply (ar_add scalar HA)].
           cbn. by rewrite (fn_rows other HF _ p rest). }
      erewrite (den_of _ (ones k) 0 _ _ 1%R (fun _ => entries z 0 + / 2 * sm / 1)%R E_truediv (fun _ => 1 / (entries z 0 + / 2 * sm / 1))%R);
        [reflexivity|lia|apply den_float| |].
      - eapply (den_fo _ (ones k) 0 _ _ (fun _ => entries z 0) (/ 2 * sm / 1)%R); [lia| | |intros; apply (ar_add scalar HA)].
        + cbn. by f_equal.
        + eapply (den_ff _ [] _ _ (fun _ => / 2 * sm)%R (fun _ => 1%R)); [|reflexivity|intros; apply (ar_div scalar HA); lra].
          eapply (den_ff _ [] _ _ (fun _ => / 2)%R (fun _ => sm)); [apply den_half| |intros; apply (ar_mul scalar HA)].
          eapply (den_f1 _ _ _ (mkt s (fun j => beta j * beta j * entries l j)%R)); [|exact (fn_sum other HF _)].
          eapply (den_ff _ s _ _ (fun j => beta j * beta j)%R (entries l) E_mul (fun j => beta j * beta j * entries l j)%R);
            [reflexivity|cbn; by f_equal|intros; apply (ar_mul scalar HA)].
      - intros. apply (ar_div scalar HA). lra. }
    split; [reflexivity|]. split.
    { apply draw_shape_in; [apply elem_of_list_further, elem_of_list_here|]. apply Forall_cons; split; [apply fits_shape_nil|]. apply Forall_cons; split; [apply fits_shape_refl|done]. }
    intros t Ht. pose proof (drawn_ones _ _ _ Ht) as Et. assert (Htp : (0 < entries t 0)%R) by (eapply drawn_pos; [exact Hgam|exact Ht|rewrite size_ones; lia]).
    eexists. split.
    { eapply (den_1 _ s _ (fun j => R_sqrt.sqrt (entries l j)) _ (fun j => / R_sqrt.sqrt (entries l j))%R).
      - eapply (den_1 _ s _ (entries l)); [cbn; by f_equal|]. intros j Hj. apply (ar_sqrt scalar HA). specialize (Hlp j Hj). lra.
      - intros j Hj. apply (ar_reciprocal scalar HA). apply Rgt_not_eq, sqrt_lt_R0. by apply Hlp. }
    eexists. split.
    { eapply (den_1 _ (ones k) _ (fun j => R_sqrt.sqrt (entries t 0)) _ (fun j => / R_sqrt.sqrt (entries t 0))%R).
      - eapply (den_1 _ (ones k) _ (fun _ => entries t 0)); [cbn; by f_equal|]. intros j Hj. apply (ar_sqrt scalar HA). lra.
      - intros j Hj. apply (ar_reciprocal scalar HA). apply Rgt_not_eq, sqrt_lt_R0. lra. }
    eexists. split; [reflexivity|]. repeat apply Forall2_cons_2; [reflexivity|reflexivity|apply Forall2_nil_2].
  Qed.
End horseshoe.
Lemma all_ones s : Forall (eq 1) s -> s = ones (length s).
Proof. induction 1 as [|x s <- Hs IH]; [done|]. cbn. by f_equal. Qed.
