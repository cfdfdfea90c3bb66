(** The graphs that function bodies build: values. *)
From Coq Require Import Lra.
From Verif Require Export S_code L_elem_value L_code L_gibbs.
Global Open Scope nat_scope.

(** ** Ranks of Elemwise results *)
Section ranks.
  Context {A : Type}.
  Lemma pad_rank n (x y : tensor A) : rank x <= n -> pad n x = Some y -> rank y = n.
  Proof.
    unfold pad. intros Hle. case_decide as Hd; [by intros [= <-]|]. unfold dimshuffle. destruct (dimshuffle_ok _ _); [|done]. unfold build.
    destruct (mapM _ _) as [xs|]; [|done]. cbn. intros [= <-]. unfold rank. cbn. unfold shuffled_shape.
    rewrite fmap_length, app_length, replicate_length, fmap_length, seq_length. fold (rank x). lia.
  Qed.
  Lemma numpy_rank (f : list A -> option A) xs z : numpy_elemwise f xs = Some z -> rank z = foldr Nat.max 0 (rank <$> xs).
  Proof.
    unfold numpy_elemwise. set (n := foldr Nat.max 0 (rank <$> xs)). destruct (mapM (pad n) xs) as [ys|] eqn:Hm; [|done]. cbn.
    assert (Hxs : Forall (fun x => rank x <= n) xs).
    { apply Forall_forall. intros x Hx. apply foldr_max_ge. apply elem_of_list_fmap. by exists x. }
    clearbody n. destruct ys as [|y ys]; [done|]. unfold elemwise. intros H.
    assert (Hy : length (t_shape y) = n).
    { destruct xs as [|x xs]; [done|]. apply Forall_cons in Hxs as [Hx _].
      change (mapM (pad n) (x :: xs)) with (z ← pad n x; k ← mapM (pad n) xs; Some (z :: k)) in Hm.
      destruct (pad n x) as [w|] eqn:Hp; [|done]. cbn in Hm. destruct (mapM _ xs); [|done]. injection Hm as -> _. exact (pad_rank n x y Hx Hp). }
    rewrite Hy in H. unfold broadcast_shape in H. case_decide; [|done]. destruct (mapM _ (seq 0 n)) as [s|] eqn:Hs; [|done]. cbn in H.
    unfold build in H. destruct (mapM _ (indices s)); [|done]. injection H as <-. unfold rank. cbn. apply mapM_length in Hs. by rewrite seq_length in Hs.
  Qed.
End ranks.

Lemma fits_shape_rank s s' : fits_shape s s' -> length s' <= length s.
Proof. by intros [H _]. Qed.
Lemma draw_shape_rank ss s : draw_shape [] ss s -> length s = foldr Nat.max 0 (length <$> ss).
Proof.
  unfold draw_shape. rewrite decide_True by done. intros [Hall Hleast]. set (m := foldr Nat.max 0 (length <$> ss)).
  assert (Hm : forall t, t ∈ ss -> length t <= m).
  { intros t Ht. apply foldr_max_ge. apply elem_of_list_fmap. by exists t. }
  assert (Hms : m <= length s).
  { apply foldr_max_le. intros k (t & -> & Ht)%elem_of_list_fmap. rewrite Forall_forall in Hall. by apply fits_shape_rank, Hall. }
  assert (Ht : Forall (fits_shape (drop (length s - m) s)) ss).
  { apply Forall_forall. intros t Ht. rewrite Forall_forall in Hall. destruct (Hall t Ht) as [H1 H2]. specialize (Hm t Ht).
    split; [rewrite drop_length; lia|]. rewrite drop_drop, drop_length. by replace (length s - m + (length s - (length s - m) - length t)) with (length s - length t) by lia. }
  apply Hleast, fits_shape_rank in Ht. rewrite drop_length in Ht. lia.
Qed.

(** ** The meaning of expressions and function bodies *)
Section denote.
  Context (B : builder) (scalar : nat -> list R -> option R) (other : op -> list (tensor R) -> option (list (tensor R)))
    (cval : nat -> tensor R).

  Definition one (r : option (list (tensor R))) : option (tensor R) :=
    match r with Some [z] => Some z | _ => None end.
  Fixpoint den (vals : list (tensor R)) (e : expr) : option (tensor R) :=
    match e with
    | EV i => vals !! i
    | EInt z => Some (cval (b_int B z).1)
    | EFloat z => Some (cval (b_float B z).1)
    | EHalf => Some (cval (b_half B).1)
    | E1 s a => x ← den vals a; numpy_elemwise (scalar s) [x]
    | E2 s a b => x ← den vals a; y ← den vals b; numpy_elemwise (scalar s) [x; y]
    | EShuffle order a => x ← den vals a; dimshuffle order x
    | EDot a b => x ← den vals a; y ← den vals b; one (other (OOther K_dot) [x; y])
    | F1 k a => x ← den vals a; one (other (fun_op k) [x])
    | F2 k a b => x ← den vals a; y ← den vals b; one (other (fun_op k) [x; y])
    | F3 k a b c => x ← den vals a; y ← den vals b; z ← den vals c; one (other (fun_op k) [x; y; z])
    end.
  Definition den_size (vals : list (tensor R)) (size : option expr) (sz : list nat) : Prop :=
    match size with
    | None => sz = []
    | Some (F1 k e) => k = F_vector1 /\ exists n, sz = [n] /\ den vals (F1 k e) = Some (size_vector [n])
    | Some _ => False
    end.
  Fixpoint runs (vals : list (tensor R)) (cs : list cmd) (outs : list nat) (p : tprog) : Prop :=
    match cs with
    | [] => exists ts, p = TRet ts /\ Forall2 (fun i t => vals !! i = Some t) outs ts
    | CLet e :: cs' => exists t, den vals e = Some t /\ runs (vals ++ [t]) cs' outs p
    | CDraw d size params :: cs' =>
        exists xs sz s k, p = TDraw d xs s k /\ mapM (den vals) params = Some xs /\ den_size vals size sz /\
          draw_shape sz (t_shape <$> xs) s /\
          forall v, drawn d s v -> runs (vals ++ [v]) cs' outs (k v)
    end.
End denote.

Lemma evals_rho_agree {D} (base : op -> list D -> option (list D)) cval h rho rho' : wf_heap h ->
  (forall u, is_Some (hv h u) -> rho' u = rho u) ->
  (forall v x, evals base cval h rho v x -> is_Some (hv h v) -> evals base cval h rho' v x) /\
  (forall vs xs, evals_list base cval h rho vs xs -> (forall v, v ∈ vs -> is_Some (hv h v)) -> evals_list base cval h rho' vs xs).
Proof.
  intros Hwf Ha. apply evals_mutind.
  - intros v x Hv Hs. apply ev_given. by rewrite Ha.
  - intros v w c Hv Hw Ho Hk Hs. eapply ev_const; eauto. by rewrite Ha.
  - intros v n i nd xs ys x Hv Ho Hn _ IH Hsem Hi Hs. eapply ev_app; eauto; [by rewrite Ha|]. apply IH. intros u Hu. by eapply (wf_ins h Hwf).
  - intros _. apply evl_nil.
  - intros v vs x xs _ IHx _ IHxs Hs. apply evl_cons; [apply IHx, Hs; by left|]. apply IHxs. intros u Hu. apply Hs. by right.
Qed.

Lemma gen_facts B h d ins : good_heap h -> (forall u, u ∈ ins -> is_Some (hv h u)) ->
  let '(h', (r, r', x)) := gen B h (ORV d) ins in
  hv h' r = Some (Var None (b_rng B) (KShared (Some r')) None) /\ ty_def h' x = b_draw B h (ORV d) ins.
Proof.
  intros Hg Hi. unfold gen. set (w := Var None (b_rng B) (KShared None) None).
  pose proof (alloc_var_new h w) as Hw. pose proof (alloc_var_fresh h w) as Hfw. destruct (alloc_var h w) as [h1 r]. cbn [fst snd] in Hw, Hfw.
  pose proof (alloc_node_extends h1 (ORV d) (r :: ins) [(None, b_rng B); (None, b_draw B h (ORV d) ins)]) as E2.
  destruct (alloc_node_spec h1 (ORV d) (r :: ins) [(None, b_rng B); (None, b_draw B h (ORV d) ins)]) as (_ & _ & Hfr & Hval & _ & _ & Hn & _).
  rewrite apply_rng_alloc in Hfr, Hval, Hn, E2. destruct (apply_rng h1 _ _ _ _) as [[h2 r'] x]. cbn [fst snd] in Hfr, Hval, E2.
  pose proof (proj1 E2 r w Hw) as Hr2. pose proof (Hval 1 x None _ eq_refl eq_refl) as Hx2.
  assert (Hne : x <> r). { intros ->. rewrite (Hfr r ltac:(right; by left)) in Hw. done. }
  split.
  - unfold set_default. rewrite Hr2. unfold hv. cbn. by rewrite lookup_insert.
  - unfold ty_def, ty_of. rewrite set_default_hv by done. by rewrite Hx2.
Qed.

Section value.
  Context (B : builder) (HB : builder_ok B).
  Context (scalar : nat -> list R -> option R) (other : op -> list (tensor R) -> option (list (tensor R))) (cval : nat -> tensor R).
  Context (HR : ranks_ok B other) (HC : constants_ok B cval).
  Notation hasv h rho := (has_value B scalar other cval h rho).
  Notation dn := (den B scalar other cval).

  Definition keeps (rho : vid -> option (tensor R)) (h h' : heap) (v : vid) (t : tensor R) : Prop :=
    extends h h' /\ good_heap h' /\ gives_old h' rho /\ hasv h' rho v t.

  Lemma has_some h rho vs ts : gives_old h rho -> Forall2 (hasv h rho) vs ts -> forall u, u ∈ vs -> is_Some (hv h u).
  Proof.
    intros Ho H u Hu. apply elem_of_list_lookup in Hu as [i Hi]. destruct (Forall2_lookup_l _ _ _ _ _ H Hi) as (t & _ & [Ht _]).
    by eapply ev_exists.
  Qed.
  Lemma apply1_has rho h o ins ty xs z : (forall s a, o <> OSubsume s a) -> good_heap h -> gives_old h rho ->
    Forall2 (hasv h rho) ins xs -> tensor_base scalar other o xs = Some [z] -> a_ndim B ty = rank z ->
    keeps rho h (apply1 h o ins ty).1 (apply1 h o ins ty).2 z.
  Proof.
    intros Hop Hg Ho Hxs Hb Hr. destruct (apply1_value scalar other cval rho h o ins ty xs [z] z Hop Hg Ho) as [Hv Ht]; try done.
    { apply evals_list_Forall2. eapply Forall2_impl; [exact Hxs|]. by intros ? ? [? _]. }
    destruct (apply1_ok h (fun _ => True) h o ins ty Hop ltac:(split; [apply extends_refl|done])) as (E & [_ G] & _).
    { intros u Hu. split; [|by left]. by eapply has_some. }
    split; [exact E|]. split; [exact G|]. split; [by eapply gives_old_extends|]. split; [exact Hv|]. by rewrite Ht.
  Qed.

  Lemma keeps_env rho h h' v t (env : list vid) vals : good_heap h -> gives_old h rho -> keeps rho h h' v t -> Forall2 (hasv h rho) env vals -> Forall2 (hasv h' rho) env vals.
  Proof. intros Hg Ho (E & _) H. eapply has_list_extends; [apply Hg|exact E|done|done]. Qed.
  Lemma keeps_up rho h h' v t h'' u w : keeps rho h h' v t -> keeps rho h' h'' u w -> hasv h'' rho v t.
  Proof. intros (_ & G & O & H) (E & _). eapply has_extends; [apply G|exact E|done|done]. Qed.
  Lemma keeps_trans rho h h' v t h'' u w : keeps rho h h' v t -> keeps rho h' h'' u w -> keeps rho h h'' u w.
  Proof. intros (E & _) (E' & H). split; [exact (extends_trans _ _ _ E E')|exact H]. Qed.

  Lemma elem_keeps rho h s vs xs z : good_heap h -> gives_old h rho -> Forall2 (hasv h rho) vs xs -> numpy_elemwise (scalar s) xs = Some z ->
    keeps rho h (mk_elem B h s vs).1 (mk_elem B h s vs).2 z.
  Proof.
    intros Hg Ho Hxs Hz. pose proof (mk_elem_value B HB scalar other cval rho h s vs xs z Hg Ho Hxs Hz (numpy_rank _ _ _ Hz)) as H. exact H.
  Qed.
  Lemma const_keeps rho h c x : good_heap h -> gives_old h rho -> cval c.1 = x -> rank x = a_ndim B c.2 -> keeps rho h (mk_const h c).1 (mk_const h c).2 x.
  Proof. intros. by apply mk_const_value. Qed.
  Lemma one_some r z : one r = Some z -> r = Some [z].
  Proof. destruct r as [[|a [|]]|]; cbn; congruence. Qed.
  Lemma ranks_of h rho vs xs : Forall2 (hasv h rho) vs xs -> declared B h <$> vs = rank <$> xs.
  Proof. apply ranks_declared. Qed.

  Lemma F2_1 h rho x a : hasv h rho x a -> Forall2 (hasv h rho) [x] [a].
  Proof. intros. by apply Forall2_cons_2; [|apply Forall2_nil_2]. Qed.
  Lemma F2_c h rho x a l m : hasv h rho x a -> Forall2 (hasv h rho) l m -> Forall2 (hasv h rho) (x :: l) (a :: m).
  Proof. intros. by apply Forall2_cons_2. Qed.

  Lemma mk_expr_keeps rho env vals e : forall h t, good_heap h -> gives_old h rho -> Forall2 (hasv h rho) env vals -> dn vals e = Some t ->
    keeps rho h (mk_expr B env h e).1 (mk_expr B env h e).2 t.
  Proof using All.
    induction e as [i|z|z| |s a IHa|s a IHa b IHb|order a IHa|a IHa b IHb|k a IHa|k a IHa b IHb|k a IHa b IHb c IHc]; intros h t Hg Ho Henv Hd; cbn [mk_expr]; cbn [den] in Hd.
    - destruct (Forall2_lookup_r _ _ _ _ _ Henv Hd) as (v & Hv & Hhv). rewrite Hv. cbn. split; [apply extends_refl|]. done.
    - injection Hd as <-. apply const_keeps; [done|done|done|]. rewrite (cn_int B cval HC). by rewrite (bo_int B HB).
    - injection Hd as <-. apply const_keeps; [done|done|done|]. rewrite (cn_float B cval HC). by rewrite (bo_float B HB).
    - injection Hd as <-. apply const_keeps; [done|done|done|]. rewrite (cn_half B cval HC). by rewrite (cn_half_rank B cval HC).
    - destruct (dn vals a) as [x|] eqn:Ha; [|done]. cbn in Hd. specialize (IHa h x Hg Ho Henv eq_refl). destruct (mk_expr B env h a) as [h1 u]. cbn [fst snd] in IHa.
      pose proof IHa as (E1 & G1 & O1 & V1). eapply keeps_trans; [exact IHa|]. eapply elem_keeps; [exact G1|exact O1|apply F2_1; exact V1|exact Hd].
    - destruct (dn vals a) as [x|] eqn:Ha; [|done]. cbn in Hd. destruct (dn vals b) as [y|] eqn:Hb; [|done]. cbn in Hd.
      specialize (IHa h x Hg Ho Henv eq_refl). destruct (mk_expr B env h a) as [h1 u]. cbn [fst snd] in IHa. pose proof IHa as (E1 & G1 & O1 & V1).
      specialize (IHb h1 y G1 O1 (keeps_env _ _ _ _ _ _ _ Hg Ho IHa Henv) eq_refl). destruct (mk_expr B env h1 b) as [h2 w]. cbn [fst snd] in IHb. pose proof IHb as (E2 & G2 & O2 & V2).
      eapply keeps_trans; [exact IHa|]. eapply keeps_trans; [exact IHb|]. eapply elem_keeps; [exact G2|exact O2|apply F2_c; [exact (keeps_up _ _ _ _ _ _ _ _ IHa IHb)|apply F2_1; exact V2]|exact Hd].
    - destruct (dn vals a) as [x|] eqn:Ha; [|done]. cbn in Hd. specialize (IHa h x Hg Ho Henv eq_refl). destruct (mk_expr B env h a) as [h1 u]. cbn [fst snd] in IHa.
      pose proof IHa as (E1 & G1 & O1 & V1). eapply keeps_trans; [exact IHa|]. eapply apply1_has; [done|exact G1|exact O1|apply F2_1; exact V1|cbn; by rewrite Hd|].
      rewrite (rk_shuffle B other HR). unfold dimshuffle in Hd. destruct (dimshuffle_ok _ _); [|done]. unfold build in Hd. destruct (mapM _ _); [|done]. injection Hd as <-.
      unfold rank, shuffled_shape. cbn. by rewrite fmap_length.
    - destruct (dn vals a) as [x|] eqn:Ha; [|done]. cbn in Hd. destruct (dn vals b) as [y|] eqn:Hb; [|done]. cbn in Hd. apply one_some in Hd.
      specialize (IHa h x Hg Ho Henv eq_refl). destruct (mk_expr B env h a) as [h1 u]. cbn [fst snd] in IHa. pose proof IHa as (E1 & G1 & O1 & V1).
      specialize (IHb h1 y G1 O1 (keeps_env _ _ _ _ _ _ _ Hg Ho IHa Henv) eq_refl). destruct (mk_expr B env h1 b) as [h2 w]. cbn [fst snd] in IHb. pose proof IHb as (E2 & G2 & O2 & V2).
      pose proof (keeps_up _ _ _ _ _ _ _ _ IHa IHb) as V1'.
      eapply keeps_trans; [exact IHa|]. eapply keeps_trans; [exact IHb|]. eapply apply1_has; [done|exact G2|exact O2|apply F2_c; [exact V1'|apply F2_1; exact V2]|exact Hd|].
      exact (rk_dot B other HR _ _ x y t (proj2 V1') (proj2 V2) Hd).
    - destruct (dn vals a) as [x|] eqn:Ha; [|done]. cbn in Hd. apply one_some in Hd. specialize (IHa h x Hg Ho Henv eq_refl). destruct (mk_expr B env h a) as [h1 u]. cbn [fst snd] in IHa.
      pose proof IHa as (E1 & G1 & O1 & V1). eapply keeps_trans; [exact IHa|]. eapply apply1_has; [done|exact G1|exact O1|apply F2_1; exact V1|exact Hd|].
      apply (rk_fun B other HR _ _ _ [x]); [|done]. eapply ranks_of, F2_1, V1.
    - destruct (dn vals a) as [x|] eqn:Ha; [|done]. cbn in Hd. destruct (dn vals b) as [y|] eqn:Hb; [|done]. cbn in Hd. apply one_some in Hd.
      specialize (IHa h x Hg Ho Henv eq_refl). destruct (mk_expr B env h a) as [h1 u]. cbn [fst snd] in IHa. pose proof IHa as (E1 & G1 & O1 & V1).
      specialize (IHb h1 y G1 O1 (keeps_env _ _ _ _ _ _ _ Hg Ho IHa Henv) eq_refl). destruct (mk_expr B env h1 b) as [h2 w]. cbn [fst snd] in IHb. pose proof IHb as (E2 & G2 & O2 & V2).
      pose proof (keeps_up _ _ _ _ _ _ _ _ IHa IHb) as V1'. pose proof (F2_c _ _ _ _ _ _ V1' (F2_1 _ _ _ _ V2)) as VV.
      eapply keeps_trans; [exact IHa|]. eapply keeps_trans; [exact IHb|]. eapply apply1_has; [done|exact G2|exact O2|exact VV|exact Hd|].
      exact (rk_fun B other HR _ _ _ [x; y] _ (ranks_of _ _ _ _ VV) Hd).
    - destruct (dn vals a) as [x|] eqn:Ha; [|done]. cbn in Hd. destruct (dn vals b) as [y|] eqn:Hb; [|done]. cbn in Hd. destruct (dn vals c) as [z|] eqn:Hc; [|done]. cbn in Hd. apply one_some in Hd.
      specialize (IHa h x Hg Ho Henv eq_refl). destruct (mk_expr B env h a) as [h1 u]. cbn [fst snd] in IHa. pose proof IHa as (E1 & G1 & O1 & V1).
      pose proof (keeps_env _ _ _ _ _ _ _ Hg Ho IHa Henv) as Henv1.
      specialize (IHb h1 y G1 O1 Henv1 eq_refl). destruct (mk_expr B env h1 b) as [h2 w]. cbn [fst snd] in IHb. pose proof IHb as (E2 & G2 & O2 & V2).
      specialize (IHc h2 z G2 O2 (keeps_env _ _ _ _ _ _ _ G1 O1 IHb Henv1) eq_refl). destruct (mk_expr B env h2 c) as [h3 q]. cbn [fst snd] in IHc. pose proof IHc as (E3 & G3 & O3 & V3).
      pose proof (keeps_trans _ _ _ _ _ _ _ _ IHb IHc) as IHbc.
      pose proof (F2_c _ _ _ _ _ _ (keeps_up _ _ _ _ _ _ _ _ IHa IHbc) (F2_c _ _ _ _ _ _ (keeps_up _ _ _ _ _ _ _ _ IHb IHc) (F2_1 _ _ _ _ V3))) as VV.
      eapply keeps_trans; [exact IHa|]. eapply keeps_trans; [exact IHbc|]. eapply apply1_has; [done|exact G3|exact O3|exact VV|exact Hd|].
      exact (rk_fun B other HR _ _ _ [x; y; z] _ (ranks_of _ _ _ _ VV) Hd).
  Qed.

  Lemma mk_exprs_keeps rho env vals es : forall h ts, good_heap h -> gives_old h rho -> Forall2 (hasv h rho) env vals -> mapM (dn vals) es = Some ts ->
    let r := mk_exprs B env h es in extends h r.1 /\ good_heap r.1 /\ gives_old r.1 rho /\ Forall2 (hasv r.1 rho) r.2 ts.
  Proof using All.
    induction es as [|e es IH]; intros h ts Hg Ho Henv Hd; cbn [mk_exprs].
    - injection Hd as <-. cbv zeta. split; [apply extends_refl|]. split; [done|]. split; [done|]. apply Forall2_nil_2.
    - change (mapM (dn vals) (e :: es)) with (z ← dn vals e; k ← mapM (dn vals) es; Some (z :: k)) in Hd.
      destruct (dn vals e) as [t|] eqn:He; [|done]. destruct (mapM (dn vals) es) as [ts'|] eqn:Hes; [|done]. cbn in Hd. injection Hd as <-.
      pose proof (mk_expr_keeps rho env vals e h t Hg Ho Henv He) as K1. destruct (mk_expr B env h e) as [h1 x]. cbn [fst snd] in K1. pose proof K1 as (E1 & G1 & O1 & V1).
      specialize (IH h1 ts' G1 O1 (keeps_env _ _ _ _ _ _ _ Hg Ho K1 Henv) eq_refl). destruct (mk_exprs B env h1 es) as [h2 xs]. cbv zeta in *. cbn [fst snd] in *.
      destruct IH as (E2 & G2 & O2 & V2). split; [exact (extends_trans _ _ _ E1 E2)|]. split; [exact G2|]. split; [exact O2|].
      apply F2_c; [|exact V2]. eapply has_extends; [apply G1|exact E2|exact O1|exact V1].
  Qed.

  Lemma realises_extends h h' outs p : forall used rho, wf_heap h -> extends h h' -> gives_old h rho ->
    realises scalar other cval h used rho outs p -> realises scalar other cval h' used rho outs p.
  Proof using Type.
    induction p as [ts|d xs s k IH]; intros used rho Hwf E Ho; cbn [realises].
    - intros H. eapply Forall2_impl; [exact H|]. cbn. intros v t Hv. apply (extends_evals_iff _ _ h h'); [done|done| |done]. by eapply ev_exists.
    - intros (n & r & r' & x & size & dtype & ps & sz & nm & ty & Hn & Hx & Hr & Hu & Hrx & Hsz & Hps & Hsh & Hk).
      exists n, r, r', x, size, dtype, ps, sz, nm, ty. split; [by apply (proj2 E)|].
      assert (Hsx : is_Some (hv h x)) by (unfold owner in Hx; by destruct (hv h x)).
      split; [by rewrite (extends_owner_old h h')|]. split; [by apply (proj1 E)|]. split; [done|]. split; [done|].
      split; [apply (extends_evals_iff _ _ h h'); [done|done| |done]; by eapply ev_exists|].
      split; [eapply Forall2_impl; [exact Hps|]; cbn; intros v t Hv; apply (extends_evals_iff _ _ h h'); [done|done| |done]; by eapply ev_exists|].
      split; [done|]. intros v Hv. apply IH; [done|done| |by apply Hk]. intros u. unfold assign. case_decide; [subst; done|]. apply Ho.
  Qed.

  Lemma mk_code_realises cs outs : forall h env vals rho used p, good_heap h -> gives_old h rho -> Forall2 (hasv h rho) env vals ->
    (forall u, u ∈ used -> is_Some (hv h u)) -> runs B scalar other cval vals cs outs p ->
    let r := mk_code B h env cs in extends h r.1 /\ good_heap r.1 /\
    realises scalar other cval r.1 used rho ((fun i => default 0 (r.2 !! i)) <$> outs) p.
  Proof using All.
    induction cs as [|[e|d size params] cs IH]; intros h env vals rho used p Hg Ho Henv Hused Hrun; cbn [mk_code].
    - destruct Hrun as (ts & -> & Hts). cbv zeta. cbn [fst snd]. split; [apply extends_refl|]. split; [done|]. cbn [realises].
      apply Forall2_fmap_l. eapply Forall2_impl; [exact Hts|]. cbn. intros i t Ht. destruct (Forall2_lookup_r _ _ _ _ _ Henv Ht) as (v & Hv & [Hhv _]). by rewrite Hv.
    - destruct Hrun as (t & Ht & Hrun). pose proof (mk_expr_keeps rho env vals e h t Hg Ho Henv Ht) as K1. destruct (mk_expr B env h e) as [h1 x]. cbn [fst snd] in K1.
      pose proof K1 as (E1 & G1 & O1 & V1). pose proof (keeps_env _ _ _ _ _ _ _ Hg Ho K1 Henv) as Henv1.
      specialize (IH h1 (env ++ [x]) (vals ++ [t]) rho used p G1 O1 ltac:(apply Forall2_app; [exact Henv1|exact (F2_1 _ _ _ _ V1)]) ltac:(intros u Hu; eapply extends_some; [exact E1|by apply Hused]) Hrun).
      destruct (mk_code B h1 (env ++ [x]) cs) as [h2 env2]. cbv zeta in *. cbn [fst snd] in *. destruct IH as (E2 & G2 & R2).
      split; [exact (extends_trans _ _ _ E1 E2)|]. done.
    - destruct Hrun as (xs & sz & s & k & -> & Hps & Hsz & Hsh & Hk).
      pose proof (mk_exprs_keeps rho env vals params h xs Hg Ho Henv Hps) as K1. destruct (mk_exprs B env h params) as [h1 ps]. cbv zeta in K1. cbn [fst snd] in K1.
      destruct K1 as (E1 & G1 & O1 & V1). pose proof (has_list_extends B scalar other cval rho h h1 _ _ (proj1 Hg) E1 Ho Henv) as Henv1.
      (* the size *)
      set (szr := match size with Some e => mk_expr B env h1 e | None => mk_const h1 (b_nosize B) end).
      assert (K2 : keeps rho h1 szr.1 szr.2 (size_vector sz) /\
        (constant_of szr.1 szr.2 (b_nosize B).1 /\ sz = [] \/ (exists a, applied szr.1 szr.2 (fun_op F_vector1) [a]) /\ length sz = 1)).
      { unfold szr. destruct size as [e|].
        - destruct e as [| | | | | | | |kk e'| |]; try (by destruct Hsz). destruct Hsz as (-> & m & -> & Hd).
          pose proof (mk_expr_keeps rho env vals _ h1 _ G1 O1 Henv1 Hd) as K. split; [exact K|]. right. split; [|done]. cbn [mk_expr].
          destruct (mk_expr B env h1 e') as [h1' a]. cbn [fst snd]. exists a. unfold mk_fun.
          destruct (apply1_struct h1' (fun_op F_vector1) [a] (b_draw B h1' (fun_op F_vector1) [a])) as (_ & Hv & Hn). cbv zeta in *.
          destruct (apply1 h1' _ _ _) as [h1'' w]. cbn [fst snd] in *.
          exists (fresh (dom (h_nodes h1'))), 0, (Node (fun_op F_vector1) [a] [w]). unfold owner. rewrite Hv. done.
        - cbn [den_size] in Hsz. subst sz. split; [apply const_keeps; [done|done|by rewrite (cn_nosize B cval HC)|]|].
          + unfold rank, size_vector. cbn. by rewrite (cn_nosize_rank B cval HC).
          + left. split; [|done]. unfold mk_const. exists None, (b_nosize B).2. by rewrite alloc_var_new. }
      clearbody szr. destruct K2 as [K2 Hk2]. destruct szr as [h2 szv]. cbn [fst snd] in K2, Hk2. destruct K2 as (E2 & G2 & O2 & V2).
      pose proof (const_full h (fun _ => True) h2 (b_dtype B)) as K3. destruct (mk_const h2 (b_dtype B)) as [h3 dt]. cbv zeta in K3. cbn [fst snd] in K3.
      destruct K3 as (E3 & [_ G3] & [S3 _] & _ & _). { split; [exact (extends_trans _ _ _ E1 E2)|done]. }
      pose proof (gives_old_extends rho _ _ E3 O2) as O3.
      pose proof (has_extends B scalar other cval rho _ _ _ _ (proj1 G2) E3 O2 V2) as V23.
      pose proof (has_list_extends B scalar other cval rho _ _ _ _ (proj1 G1) (extends_trans _ _ _ E2 E3) O1 V1) as V13.
      assert (Hin : forall u, u ∈ szv :: dt :: ps -> is_Some (hv h3 u)).
      { intros u [->|[->|Hu]%elem_of_cons]%elem_of_cons; [by eapply ev_exists; [exact O3|exact (proj1 V23)]|done|by eapply has_some]. }
      pose proof (L_inner.gen_full B h3 (ORV d) (szv :: dt :: ps) G3 Hin ltac:(done)) as K4.
      pose proof (gen_facts B h3 d (szv :: dt :: ps) G3 Hin) as K4'.
      destruct (gen B h3 (ORV d) (szv :: dt :: ps)) as [h4 [[r r'] x]]. destruct K4 as (E4 & G4 & Fr & Fr' & Fx & Wr & Sr & (n & Wr' & Wx & Nn) & _).
      destruct K4' as (Hr & Tx). pose proof (extends_trans _ _ _ E1 (extends_trans _ _ _ E2 E3)) as E03. pose proof (extends_trans _ _ _ E03 E4) as E04.
      assert (Hrank : a_ndim B (ty_def h4 x) = length s).
      { rewrite Tx. destruct Hk2 as [[Hc ->]|[[a Ha] Hl]].
        - rewrite (rk_draw B other HR h3 d szv dt ps).
          + rewrite (ranks_of _ _ _ _ V13). apply draw_shape_rank in Hsh. rewrite Hsh. by rewrite <- list_fmap_compose.
          + destruct Hc as (nm & ty & Hc). exists nm, ty. by apply (proj1 E3).
        - rewrite (rk_draw_size B other HR h3 d szv a dt ps).
          + unfold draw_shape in Hsh. rewrite decide_False in Hsh by (intros ->; done). destruct Hsh as [-> _]. done.
          + destruct Ha as (m & i & md & A1 & A2 & A3). exists m, i, md. split; [|split; [by apply (proj2 E3)|done]].
            rewrite (extends_owner_old h2 h3); [done|done|]. unfold owner in A1. by destruct (hv h2 szv). }
      assert (Hrx : rho x = None) by (eapply gives_old_None; [exact O3|exact Fx]).
      assert (Hnx : forall u, is_Some (hv h u) -> u <> x).
      { intros u Hu ->. destruct (extends_some _ _ _ E03 Hu) as [z Hz]. rewrite Fx in Hz. done. }
      assert (Hstep : forall v, drawn d s v ->
        let q := mk_code B h4 (env ++ [x]) cs in extends h4 q.1 /\ good_heap q.1 /\
        realises scalar other cval q.1 (r :: used) (assign rho x v) ((fun i => default 0 (q.2 !! i)) <$> outs) (k v)).
      { intros v Hv. apply (IH h4 (env ++ [x]) (vals ++ [v]) (assign rho x v) (r :: used) (k v)); [done| | | |by apply Hk].
        - intros u. unfold assign. case_decide as Hd; [subst u; intros _; unfold owner in Wx; by destruct (hv h4 x)|].
          intros Hu. eapply extends_some; [exact E04|]. by apply Ho.
        - apply Forall2_app.
          + eapply Forall2_impl; [exact Henv|]. cbn. intros u t [Hu1 Hu2]. pose proof (ev_exists scalar other cval rho h u t Ho Hu1) as Hus. split.
            * apply (extends_evals_iff _ _ h h4); [apply Hg|done|done|].
              apply (proj1 (evals_rho_agree _ cval h rho (assign rho x v) (proj1 Hg) ltac:(intros w Hw; unfold assign; by rewrite decide_False by (by apply Hnx)))); done.
            * by rewrite (ty_def_extends h h4).
          + apply F2_1. split; [apply ev_given; unfold assign; by rewrite decide_True|]. rewrite Hrank. unfold rank. by rewrite (proj1 (proj2 Hv)).
        - intros u [->|Hu]%elem_of_cons; [by eauto|]. eapply extends_some; [exact E04|by apply Hused]. }
      destruct (Hstep (Tensor s (replicate (size_of s) 1%R))) as (E5 & G5 & _).
      { split; [apply replicate_length|]. split; [done|]. intros _. apply Forall_replicate. lra. }
      destruct (mk_code B h4 (env ++ [x]) cs) as [h5 env5]. cbv zeta in *. cbn [fst snd] in *.
      pose proof (extends_trans _ _ _ E4 E5) as E35.
      split; [exact (extends_trans _ _ _ E04 E5)|]. split; [exact G5|]. cbn [realises].
      exists n, r, r', x, szv, dt, ps, sz, None, (b_rng B). split; [by apply (proj2 E5)|].
      split; [rewrite (extends_owner_old h4 h5); [done|done|]; unfold owner in Wx; by destruct (hv h4 x)|].
      split; [by apply (proj1 E5)|]. split.
      { intros Hu. destruct (extends_some _ _ _ E03 (Hused r Hu)) as [z Hz]. rewrite Fr in Hz. done. }
      split; [done|]. split; [apply (has_extends B scalar other cval rho h3 h5 szv); [apply G3|exact E35|exact O3|exact V23]|].
      split.
      { pose proof (has_list_extends B scalar other cval rho h3 h5 _ _ (proj1 G3) E35 O3 V13) as V15. eapply Forall2_impl; [exact V15|]. by intros ? ? [? _]. }
      split; [done|]. intros v Hv. by apply Hstep.
  Qed.

  Lemma mk_body_realises cs outs h env vals rho p : good_heap h -> gives_old h rho -> Forall2 (hasv h rho) env vals ->
    runs B scalar other cval vals cs outs p ->
    let r := mk_body B h env cs outs in extends h r.1 /\ good_heap r.1 /\ realises scalar other cval r.1 [] rho r.2 p.
  Proof using All.
    intros Hg Ho Henv Hr. unfold mk_body. pose proof (mk_code_realises cs outs h env vals rho [] p Hg Ho Henv ltac:(by intros ? ?%elem_of_nil) Hr) as H.
    destruct (mk_code B h env cs) as [h1 env1]. exact H.
  Qed.
End value.
