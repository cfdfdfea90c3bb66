(** Lemmas for the NUTS step: the graph it builds. *)
From Verif Require Export L_build L_walk S_nuts.

Lemma targs_in h rv pos u : wf_heap h -> u ∈ targs h rv pos -> is_Some (hv h u).
Proof.
  intros Hwf Hu. unfold targs in Hu. apply elem_of_list_omap in Hu as (i & _ & Hi).
  apply (wf_parent h rv); [done|]. by eapply elem_of_list_lookup_2.
Qed.
Lemma get_transform_old tr h h' rv : wf_heap h -> extends h h' -> is_Some (hv h rv) -> get_transform tr h' rv = get_transform tr h rv.
Proof.
  intros Hwf Hex Hrv. unfold get_transform, owner_op. rewrite (extends_owner_old h h') by done.
  destruct (owner h rv) as [[n i]|] eqn:Ho; [|done]. cbn [mbind option_bind].
  destruct (wf_owner h Hwf rv n i Ho) as (nd & Hn & _). by rewrite Hn, (proj2 Hex n nd Hn).
Qed.
Lemma targs_old h h' rv pos : wf_heap h -> extends h h' -> is_Some (hv h rv) -> targs h' rv pos = targs h rv pos.
Proof.
  intros Hwf Hex Hrv. unfold targs. unfold parents. rewrite (extends_owner_old h h') by done.
  destruct (owner h rv) as [[n i]|] eqn:Ho; [|done].
  destruct (wf_owner h Hwf rv n i Ho) as (nd & Hn & _). by rewrite Hn, (proj2 Hex n nd Hn).
Qed.

(** [v] is output [i] of a node *)
Definition app_of (h : heap) (v : vid) (i : nat) (o : op) (ins : list vid) : Prop :=
  exists n nd, owner h v = Some (n, i) /\ hn h n = Some nd /\ n_op nd = o /\ n_ins nd = ins.
Lemma app_of_extends h h' v i o ins : extends h h' -> app_of h v i o ins -> app_of h' v i o ins.
Proof. intros Hex (n & nd & H1 & H2 & H3). exists n, nd. split; [by eapply extends_owner|]. split; [by apply Hex|done]. Qed.

Section evals.
  Context {D : Type} (base : op -> list D -> option (list D)) (cval : nat -> D).
  Lemma evals_app_of h rho v i o ins x : (forall s a, o <> OSubsume s a) -> rho v = None -> app_of h v i o ins ->
    evals base cval h rho v x <->
      exists xs ys, Forall2 (evals base cval h rho) ins xs /\ base o xs = Some ys /\ ys !! i = Some x.
  Proof.
    intros Ho Hr (n & nd & H1 & H2 & <- & <-).
    assert (Hsem : forall xs, sem base cval (n_op nd) xs = base (n_op nd) xs).
    { intros xs. destruct (n_op nd) eqn:E; try done. by edestruct Ho. }
    split.
    - intros He. inversion He as [? ? Hg|? w ? ? Hw Hwo|? n' i' nd' xs ys ? ? Ho' Hn' Hl Hs Hi]; subst.
      + congruence.
      + unfold owner in H1. rewrite Hw in H1. cbn in H1. congruence.
      + rewrite H1 in Ho'. injection Ho' as <- <-. rewrite H2 in Hn'. injection Hn' as <-.
        exists xs, ys. rewrite <- Hsem. split; [by apply evals_list_Forall2|done].
    - intros (xs & ys & Hl & Hb & Hi). eapply ev_app; [done|done|done| |by rewrite Hsem|done]. by apply evals_list_Forall2.
  Qed.
  Lemma evals_nuts h rho v i m ins x : rho v = None -> app_of h v i (nuts_op m) ins ->
    evals base cval h rho v x <->
      exists xs ys, Forall2 (evals base cval h rho) ins xs /\ base (nuts_op m) xs = Some ys /\ ys !! i = Some x.
  Proof. intros. by apply evals_app_of. Qed.
End evals.

(** ** The pieces *)
Definition ext (h h' : heap) : Prop := extends h h' /\ good_heap h'.

Lemma apply1_spec h o ins ty : (forall s a, o <> OSubsume s a) -> good_heap h -> (forall u, u ∈ ins -> is_Some (hv h u)) ->
  let r := apply1 h o ins ty in ext h r.1 /\ hv h r.2 = None /\ is_Some (hv r.1 r.2) /\ app_of r.1 r.2 0 o ins.
Proof.
  intros Ho Hg Hins. pose proof (alloc_node_extends h o ins [(None, ty)]) as He.
  pose proof (alloc_node_good h o ins [(None, ty)] Ho Hins Hg) as Hgood.
  destruct (alloc_node_spec h o ins [(None, ty)]) as (_ & _ & Hfr & Hval & _ & _ & Hn & _).
  rewrite apply1_alloc in *. cbn in *. specialize (Hval 0 _ None ty eq_refl eq_refl).
  split; [done|]. split; [apply Hfr; by left|]. split; [by eauto|]. eexists _, _. split; [unfold owner; by rewrite Hval|]. split; [exact Hn|done].
Qed.

Lemma transform_forward_spec tr h rv vv : good_heap h -> is_Some (hv h vv) ->
  let r := transform_forward h rv vv (get_transform tr h rv) in
  ext h r.1 /\ is_Some (hv r.1 r.2) /\
  match get_transform tr h rv with
  | None => r.2 = vv
  | Some (k, pos) => hv h r.2 = None /\ app_of r.1 r.2 0 (nuts_op (N_forward k)) (vv :: targs h rv pos)
  end.
Proof.
  intros Hg Hvv. unfold transform_forward. destruct (get_transform tr h rv) as [[k pos]|].
  - destruct (apply1_spec h (nuts_op (N_forward k)) (vv :: targs h rv pos) (ty_def h vv)) as (H1 & H2 & H3 & H4); [done|done| |done].
    intros u [->|Hu]%elem_of_cons; [done|]. eapply targs_in; [apply Hg|done].
  - done.
Qed.
Lemma transform_backward_spec h rv vv (t : option (tkind * list nat)) : good_heap h -> is_Some (hv h vv) ->
  let r := transform_backward h rv vv t in
  ext h r.1 /\ is_Some (hv r.1 r.2) /\
  match t with
  | None => r.2 = vv
  | Some (k, pos) => hv h r.2 = None /\ app_of r.1 r.2 0 (nuts_op (N_backward k)) (vv :: targs h rv pos)
  end.
Proof.
  intros Hg Hvv. unfold transform_backward. destruct t as [[k pos]|].
  - destruct (apply1_spec h (nuts_op (N_backward k)) (vv :: targs h rv pos) (ty_def h vv)) as (H1 & H2 & H3 & H4); [done|done| |done].
    intros u [->|Hu]%elem_of_cons; [done|]. eapply targs_in; [apply Hg|done].
  - done.
Qed.

Lemma fresh_none h h' v : extends h h' -> hv h' v = None -> hv h v = None.
Proof. intros [Hv _] H. destruct (hv h v) as [x|] eqn:E; [|done]. apply Hv in E. congruence. Qed.

(** transformed value [t] of [rv] with value [vv]; [h0] is the heap before the step *)
Definition is_forward (tr : transforms) (h0 h : heap) (rv vv t : vid) : Prop :=
  match get_transform tr h0 rv with
  | None => t = vv
  | Some (k, pos) => hv h0 t = None /\ app_of h t 0 (nuts_op (N_forward k)) (vv :: targs h0 rv pos)
  end.
Definition is_result (tr : transforms) (h0 h : heap) (newq : vid) (tvs : list vid) (i : nat) (rv w : vid) : Prop :=
  exists u, hv h0 u = None /\ app_of h u 0 (nuts_op (N_unravel i)) (newq :: tvs) /\
  match get_transform tr h0 rv with
  | None => w = u
  | Some (k, pos) => hv h0 w = None /\ app_of h w 0 (nuts_op (N_backward k)) (u :: targs h0 rv pos)
  end.
Lemma is_forward_extends tr h0 h h' rv vv t : extends h h' -> is_forward tr h0 h rv vv t -> is_forward tr h0 h' rv vv t.
Proof.
  intros Hex. unfold is_forward. destruct (get_transform tr h0 rv) as [[k pos]|]; [|done].
  intros [H1 H2]. split; [done|]. by eapply app_of_extends.
Qed.
Lemma is_result_extends tr h0 h h' q tvs i rv w : extends h h' -> is_result tr h0 h q tvs i rv w -> is_result tr h0 h' q tvs i rv w.
Proof.
  intros Hex (u & Hu & Ha & Hm). exists u. split; [done|]. split; [by eapply app_of_extends|].
  destruct (get_transform tr h0 rv) as [[k pos]|]; [|done]. destruct Hm. split; [done|]. by eapply app_of_extends.
Qed.

Lemma forward_all_spec tr h0 ts : wf_heap h0 -> forall h, extends h0 h -> good_heap h -> (forall v, v ∈ ts.*2 -> is_Some (hv h v)) ->
  let r := forward_all tr h ts in
  ext h r.1 /\ length r.2 = length ts /\ (forall t, t ∈ r.2 -> is_Some (hv r.1 t)) /\
  forall i rv vv, ts !! i = Some (rv, vv) -> is_Some (hv h0 rv) -> exists t, r.2 !! i = Some t /\ is_forward tr h0 r.1 rv vv t.
Proof.
  intros Hwf0. induction ts as [|[rv vv] ts IH]; intros h Hex Hg Hv; cbn [forward_all].
  - split; [by split|]. split; [done|]. split; [by intros t ?%elem_of_nil|]. intros i rv vv Hi. done.
  - pose proof (transform_forward_spec tr h rv vv Hg (Hv vv ltac:(by left))) as H1. cbn in H1.
    destruct (transform_forward h rv vv (get_transform tr h rv)) as [h1 t]. cbn in H1. destruct H1 as ([He1 Hg1] & Ht & Hm).
    specialize (IH h1 ltac:(by eapply extends_trans) Hg1). destruct (forward_all tr h1 ts) as [h2 tvs]. cbn in IH.
    destruct IH as ([He2 Hg2] & Hl & Htv & Hsp). { intros v Hin. eapply extends_some; [done|]. apply Hv. by right. }
    cbn. split; [split; [by eapply extends_trans|done]|]. split; [lia|]. split.
    { intros u [->|Hu]%elem_of_cons; [by eapply extends_some|by apply Htv]. }
    intros [|i] rv' vv' Hi Hrv; cbn in Hi |- *.
    + injection Hi as <- <-. exists t. split; [done|]. unfold is_forward.
      rewrite <- (get_transform_old tr h0 h rv) by done. destruct (get_transform tr h rv) as [[k pos]|]; [|done].
      destruct Hm as [Hf Ha]. split; [by eapply fresh_none|]. rewrite <- (targs_old h0 h rv pos) by done. by eapply app_of_extends.
    + by apply Hsp.
Qed.

Lemma backward_all_spec tr h0 newq tvs ts : wf_heap h0 -> forall h j, extends h0 h -> good_heap h ->
  is_Some (hv h newq) -> (forall t, t ∈ tvs -> is_Some (hv h t)) ->
  let r := backward_all tr h newq tvs j ts in
  ext h r.1 /\ length r.2 = length ts /\ (forall t, t ∈ r.2 -> is_Some (hv r.1 t)) /\
  forall i rv vv, ts !! i = Some (rv, vv) -> is_Some (hv h0 rv) -> exists w, r.2 !! i = Some w /\ is_result tr h0 r.1 newq tvs (j + i) rv w.
Proof.
  intros Hwf0. induction ts as [|[rv vv] ts IH]; intros h j Hex Hg Hq Ht; cbn [backward_all].
  - split; [by split|]. split; [done|]. split; [by intros t ?%elem_of_nil|]. intros i rv vv Hi. done.
  - pose proof (apply1_spec h (nuts_op (N_unravel j)) (newq :: tvs) (ty_def h vv) ltac:(done) Hg) as H1. cbn zeta in H1.
    destruct (apply1 h (nuts_op (N_unravel j)) (newq :: tvs) (ty_def h vv)) as [h1 u]. cbn [fst snd] in H1.
    destruct H1 as ([He1 Hg1] & Huf & Hus & Hua). { intros v [->|Hin]%elem_of_cons; [done|by apply Ht]. }
    pose proof (transform_backward_spec h1 rv u (get_transform tr h rv) Hg1 Hus) as H2. cbn zeta in H2.
    destruct (transform_backward h1 rv u (get_transform tr h rv)) as [h2 w]. cbn [fst snd] in H2. destruct H2 as ([He2 Hg2] & Hw & Hm).
    assert (He12 : extends h h2) by (by eapply extends_trans).
    specialize (IH h2 (S j) ltac:(by eapply extends_trans) Hg2 ltac:(by eapply extends_some)).
    destruct (backward_all tr h2 newq tvs (S j) ts) as [h3 ws]. cbn [fst snd] in IH. cbn zeta in IH.
    destruct IH as ([He3 Hg3] & Hl & Hws & Hsp). { intros t Hin. eapply extends_some; [done|]. by apply Ht. }
    cbn [fst snd]. split; [split; [by eapply extends_trans|done]|]. split; [cbn; lia|]. split.
    { intros v [->|Hin]%elem_of_cons; [by eapply extends_some|by apply Hws]. }
    intros [|i] rv' vv' Hi Hrv; cbn in Hi |- *.
    + injection Hi as <- <-. exists w. split; [done|]. exists u. split; [by eapply fresh_none|].
      split. { rewrite Nat.add_0_r. exact (app_of_extends _ _ _ _ _ _ (extends_trans _ _ _ He2 He3) Hua). }
      rewrite <- (get_transform_old tr h0 h rv) by done. destruct (get_transform tr h rv) as [[k pos]|]; [|done].
      destruct Hm as [Hf Ha]. split; [exact (fresh_none _ _ _ (extends_trans _ _ _ Hex He1) Hf)|].
      pose proof (extends_trans _ _ _ Hex He1) as He01. rewrite <- (targs_old h0 h1 rv pos) by done. by eapply app_of_extends.
    + replace (j + S i) with (S j + i) by lia. by apply (Hsp i rv' vv').
Qed.

Lemma alloc_leaf h x : good_heap h -> v_owner x = None ->
  let r := alloc_var h x in ext h r.1 /\ hv h r.2 = None /\ hv r.1 r.2 = Some x.
Proof.
  intros Hg Hx. cbn. split; [split; [apply alloc_var_extends|by apply alloc_var_good]|]. split; [apply alloc_var_fresh|apply alloc_var_new].
Qed.

Definition is_rng (B : builder) (h0 h : heap) (r : vid) : Prop :=
  hv h0 r = None /\ owner h r = None /\ is_shared h r = true.
Lemma is_rng_extends B h0 h h' r : extends h h' -> is_rng B h0 h r -> is_rng B h0 h' r.
Proof.
  intros Hex (H1 & H2 & H3). split; [done|]. unfold is_shared in *. destruct (hv h r) as [x|] eqn:E; [|done].
  rewrite (proj1 Hex r x E). split; [|done]. rewrite (extends_owner_old h h'); [done|done|by eauto].
Qed.

Lemma new_rngs_spec B h0 n : forall h, extends h0 h -> good_heap h ->
  let r := new_rngs B h n in
  ext h r.1 /\ length r.2 = n /\ NoDup r.2 /\ (forall u, u ∈ r.2 -> hv h u = None) /\
  (forall u, u ∈ r.2 -> is_Some (hv r.1 u)) /\ forall u, u ∈ r.2 -> is_rng B h0 r.1 u.
Proof.
  induction n as [|n IH]; intros h Hex Hg; cbn [new_rngs].
  - split; [by split|]. split; [done|]. split; [constructor|]. split_and!; by intros t ?%elem_of_nil.
  - set (x := Var None (b_rng B) (KShared None) None).
    pose proof (alloc_leaf h x Hg eq_refl) as H1. cbn zeta in H1. destruct (alloc_var h x) as [h1 r]. cbn [fst snd] in H1.
    destruct H1 as ([He1 Hg1] & Hf & Hr). specialize (IH h1 ltac:(by eapply extends_trans) Hg1).
    destruct (new_rngs B h1 n) as [h2 rs]. cbn [fst snd] in IH |- *. cbn zeta in IH. destruct IH as ([He2 Hg2] & Hl & Hnd & Hfr & Hs & Hrs).
    split; [split; [by eapply extends_trans|done]|]. split; [cbn; lia|]. split.
    { constructor; [|done]. intros Hin. apply Hfr in Hin. congruence. }
    split. { intros u [->|Hu]%elem_of_cons; [done|]. eapply fresh_none; [done|by apply Hfr]. }
    split. { intros u [->|Hu]%elem_of_cons; [eapply extends_some; [done|by eauto]|by apply Hs]. }
    intros u [->|Hu]%elem_of_cons; [|by apply Hrs]. eapply is_rng_extends; [done|].
    split; [by eapply fresh_none|]. unfold owner, is_shared. by rewrite Hr.
Qed.

Lemma gen_spec B h0 h o ins : (forall s a, o <> OSubsume s a) -> extends h0 h -> good_heap h -> (forall u, u ∈ ins -> is_Some (hv h u)) ->
  let '(h', (r, r', x)) := gen B h o ins in
  ext h h' /\ is_rng B h0 h' r /\ hv h r = None /\ is_Some (hv h' r) /\ hv h x = None /\ is_Some (hv h' x) /\ app_of h' x 1 o (r :: ins).
Proof.
  intros Ho Hex Hg Hins.
  assert (Hsrc : forall k u, extends h k -> is_Some (hv k u) -> sourced h (fun v => is_Some (hv h v)) k u).
  { intros k u Hk Hu. split; [done|]. intros v _. destruct (hv h v) as [y|] eqn:E; [left; by eauto|by right]. }
  pose proof (gen_ok h (fun v => is_Some (hv h v)) B h o ins Ho) as H1.
  unfold gen in *. set (w := Var None (b_rng B) (KShared None) None) in *.
  pose proof (alloc_leaf h w Hg eq_refl) as Hl. cbn zeta in Hl.
  destruct (alloc_var h w) as [h1 r]. cbn [fst snd] in Hl. destruct Hl as ([He1 Hg1] & Hf1 & Hw1).
  assert (Hins1 : forall u, u ∈ r :: ins -> is_Some (hv h1 u)).
  { intros u [->|Hu]%elem_of_cons; [by eauto|]. eapply extends_some; [done|by apply Hins]. }
  pose proof (alloc_node_extends h1 o (r :: ins) [(None, b_rng B); (None, b_draw B h o ins)]) as He2.
  destruct (alloc_node_spec h1 o (r :: ins) [(None, b_rng B); (None, b_draw B h o ins)]) as (_ & _ & Hfr & Hval & _ & _ & Hn & _).
  rewrite apply_rng_alloc in *. destruct (apply_rng h1 o (r :: ins) _ _) as [[h2 r'] x]. cbn [fst snd] in *.
  destruct H1 as (Hext & [_ Hgood] & Hr & _ & Hx & Hor & _ & Hsh).
  { split; [apply extends_refl|done]. }
  { intros u Hu. apply Hsrc; [apply extends_refl|by apply Hins]. }
  split; [done|]. split; [split; [by eapply fresh_none|done]|]. split; [done|]. split; [apply Hr|]. split.
  { apply (fresh_none h h1 x He1). apply Hfr. right. by left. } split; [apply Hx|].
  specialize (Hval 1 x None _ eq_refl eq_refl). eexists _, _. split; [rewrite set_default_owner; unfold owner; by rewrite Hval|].
  split; [rewrite set_default_hn; exact Hn|done].
Qed.

(** ** The graph of the step *)
Record step_graph (B : builder) (tr : transforms) (nr : nat) (h : heap) (ts : dict nat nat) (lps : list vid) (h' : heap) (s : nuts_step) : Prop := StepGraph {
  sg_ext : extends h h';
  sg_good : good_heap h';
  sg_body : exists tvs q newq p mr rngs rngs',
    let '(eps, imm) := ns_params s in
    let eins := [q; p] ++ rngs ++ [eps; imm] ++ lps in
    length tvs = length ts /\ (forall t, t ∈ tvs -> is_Some (hv h' t)) /\
    (forall i rv vv, ts !! i = Some (rv, vv) -> is_Some (hv h rv) -> exists t, tvs !! i = Some t /\ is_forward tr h h' rv vv t) /\
    hv h q = None /\ app_of h' q 0 (nuts_op N_ravel) tvs /\
    hv h p = None /\ app_of h' p 1 (nuts_op N_momentum) [mr; imm] /\ is_rng B h h' mr /\
    length rngs = nr /\ NoDup rngs /\ mr ∉ rngs /\ (forall r, r ∈ rngs -> is_rng B h h' r) /\
    hv h newq = None /\ app_of h' newq 0 (nuts_op N_expand) eins /\
    length rngs' = nr /\ (forall k r, rngs' !! k = Some r -> hv h r = None /\ app_of h' r (S k) (nuts_op N_expand) eins) /\
    hv h eps = None /\ owner h' eps = None /\ hv h imm = None /\ owner h' imm = None /\
    is_Some (hv h' newq) /\ (forall r, r ∈ rngs' -> is_Some (hv h' r)) /\
    ns_updates s = zip rngs rngs' /\
    length (ns_results s) = length ts /\ (forall w, w ∈ ns_results s -> is_Some (hv h' w)) /\
    (forall i rv vv, ts !! i = Some (rv, vv) -> is_Some (hv h rv) -> exists w, ns_results s !! i = Some w /\ is_result tr h h' newq tvs i rv w) /\
    (forall r, r ∈ rngs -> ~ reachable h' [q; p] r) /\ ~ reachable h' [q] p;
}.

Ltac chain :=
  first [assumption | match goal with |- extends ?a ?c => match goal with H : extends a ?b |- _ => apply (extends_trans a b c H); chain end end].
Lemma step_spec B tr lp nr h ts re : lp_ok lp -> good_heap h -> (forall v, v ∈ dvalues ts ++ dvalues re -> is_Some (hv h v)) ->
  let r := step B tr lp nr h ts re in
  step_graph B tr nr h ts (lp (forward_all tr h ts).1 ts re).2 r.1 r.2 /\
  extends (lp (forward_all tr h ts).1 ts re).1 r.1 /\ ext h (forward_all tr h ts).1.
Proof.
  intros Hlp Hg Hv. unfold step. cbn zeta.
  pose proof (forward_all_spec tr h ts (proj1 Hg) h (extends_refl h) Hg) as H1. cbn zeta in H1.
  destruct (forward_all tr h ts) as [h1 tvs]. cbn [fst snd] in *. destruct H1 as ([He1 Hg1] & Htl & Htv & Hts).
  { intros v Hin. apply Hv. apply elem_of_app. by left. }
  pose proof (Hlp h1 ts re Hg1) as H2. destruct (lp h1 ts re) as [h2 lps]. cbn [fst snd] in *. destruct H2 as (He2 & Hg2 & Hlps).
  { intros v Hin. eapply extends_some; [done|by apply Hv]. }
  pose proof (apply1_spec h2 (nuts_op N_ravel) tvs (VType false 1) ltac:(done) Hg2) as H3. cbn zeta in H3.
  destruct (apply1 h2 (nuts_op N_ravel) tvs (VType false 1)) as [h3 q]. cbn [fst snd] in *. destruct H3 as ([He3 Hg3] & Hqf & Hqs & Hqa).
  { intros v Hin. eapply extends_some; [done|by apply Htv]. }
  set (xe := Var (Some "step_size"%string) (VType false 0) KPlain None). set (xi := Var (Some "inverse_mass_matrix"%string) (VType false 1) KPlain None).
  pose proof (alloc_leaf h3 xe Hg3 eq_refl) as H4. cbn zeta in H4. destruct (alloc_var h3 xe) as [h4 eps]. cbn [fst snd] in *.
  destruct H4 as ([He4 Hg4] & Hepsf & Heps).
  pose proof (alloc_leaf h4 xi Hg4 eq_refl) as H5. cbn zeta in H5. destruct (alloc_var h4 xi) as [h5 imm]. cbn [fst snd] in *.
  destruct H5 as ([He5 Hg5] & Himmf & Himm).
  assert (E05 : extends h h5) by chain.
  pose proof (gen_spec B h h5 (nuts_op N_momentum) [imm] ltac:(done) E05 Hg5) as H6.
  destruct (gen B h5 (nuts_op N_momentum) [imm]) as [h6 [[mr mr'] p]]. destruct H6 as ([He6 Hg6] & Hmr & Hmrf & Hmrs & Hpf & Hps & Hpa).
  { intros u ->%elem_of_list_singleton. by eauto. }
  assert (E06 : extends h h6) by chain.
  pose proof (new_rngs_spec B h nr h6 E06 Hg6) as H7. cbn zeta in H7. destruct (new_rngs B h6 nr) as [h7 rngs]. cbn [fst snd] in *.
  destruct H7 as ([He7 Hg7] & Hrl & Hrnd & Hrf & Hrs & Hrr).
  assert (E07 : extends h h7) by chain.
  assert (E27 : extends h2 h7) by chain.
  assert (E37 : extends h3 h7) by chain.
  assert (E47 : extends h4 h7) by chain.
  assert (E57 : extends h5 h7) by chain.
  assert (Eold : forall k, extends h k -> forall v, hv k v = None -> hv h v = None) by (intros k Hk v; by apply fresh_none).
  set (eins := [q; p] ++ rngs ++ [eps; imm] ++ lps). set (tys := (None, VType false 1) :: replicate nr (None, b_rng B)).
  assert (Hins : forall u, u ∈ eins -> is_Some (hv h7 u)).
  { intros u Hu. unfold eins in Hu. apply elem_of_app in Hu as [Hu|Hu].
    - apply elem_of_cons in Hu as [->|Hu]; [eapply extends_some; [exact E37|done]|]. apply elem_of_list_singleton in Hu as ->. eapply extends_some; [exact He7|done].
    - apply elem_of_app in Hu as [Hu|Hu]; [by apply Hrs|]. apply elem_of_app in Hu as [Hu|Hu].
      + apply elem_of_cons in Hu as [->|Hu]; [eapply extends_some; [exact E47|by eauto]|]. apply elem_of_list_singleton in Hu as ->. eapply extends_some; [exact E57|by eauto].
      + eapply extends_some; [exact E27|by apply Hlps]. }
  pose proof (alloc_node_extends h7 (nuts_op N_expand) eins tys) as He8.
  pose proof (alloc_node_good h7 (nuts_op N_expand) eins tys ltac:(done) Hins Hg7) as Hg8.
  destruct (alloc_node_spec h7 (nuts_op N_expand) eins tys) as (Hol & Hond & Hof & Hoval & _ & _ & Hon & _).
  destruct (alloc_node h7 (nuts_op N_expand) eins tys) as [h8 outs]. cbn [fst snd] in *.
  destruct outs as [|newq rngs']; [by cbn in Hol|]. cbn in Hol. rewrite replicate_length in Hol. injection Hol as Hol.
  assert (E08 : extends h h8) by chain.
  assert (Hout : forall k v, (newq :: rngs') !! k = Some v -> hv h v = None /\ is_Some (hv h8 v) /\ app_of h8 v k (nuts_op N_expand) eins).
  { intros k v Hk. split; [apply (Eold h7 E07); apply Hof; by eapply elem_of_list_lookup_2|].
    destruct (lookup_lt_is_Some_2 tys k) as [[nm ty] Ht].
    { apply lookup_lt_Some in Hk. cbn in Hk |- *. rewrite replicate_length. lia. }
    specialize (Hoval k v nm ty Hk Ht). split; [by eauto|]. eexists _, _. split; [unfold owner; by rewrite Hoval|]. split; [exact Hon|done]. }
  destruct (Hout 0 newq eq_refl) as (Hnf & Hns & Hna).
  assert (E18 : extends h1 h8) by chain.
  pose proof (backward_all_spec tr h newq tvs ts (proj1 Hg) h8 0 E08 Hg8 Hns) as H9. cbn zeta in H9.
  destruct (backward_all tr h8 newq tvs 0 ts) as [h9 results]. cbn [fst snd] in *. destruct H9 as ([He9 Hg9] & Hresl & Hress & Hres).
  { intros t Ht. eapply extends_some; [exact E18|by apply Htv]. }
  assert (E79 : extends h7 h9) by chain.
  split; [|split; [chain|done]].
  split; [chain|done|]. cbn [ns_params ns_updates ns_results].
  exists tvs, q, newq, p, mr, rngs, rngs'.
  assert (E19 : extends h1 h9) by chain.
  split; [done|]. split; [intros t Ht; eapply extends_some; [exact E19|by apply Htv]|].
  split. { intros i rv vv Hi Hrv. destruct (Hts i rv vv Hi Hrv) as (t & Ht & Hf). exists t. split; [done|]. by eapply is_forward_extends. }
  split; [apply (fresh_none h h2); [chain|done]|].
  split; [eapply app_of_extends; [|exact Hqa]; chain|].
  split; [by apply (fresh_none h h5)|].
  split; [eapply app_of_extends; [|exact Hpa]; chain|].
  split; [eapply is_rng_extends; [|exact Hmr]; chain|].
  split; [done|]. split; [done|].
  split. { intros Hin. apply Hrf in Hin. destruct Hmrs as [y Hy]. congruence. }
  split; [intros r Hr; eapply is_rng_extends; [exact E79|by apply Hrr]|].
  split; [done|]. split; [eapply app_of_extends; [exact He9|done]|]. split; [done|].
  split. { intros k r Hk. destruct (Hout (S k) r Hk) as (? & _ & ?). split; [done|]. eapply app_of_extends; [exact He9|done]. }
  split; [apply (fresh_none h h3); [|done]; chain|].
  split; [unfold owner; rewrite (proj1 E79 eps xe); [done|by apply (proj1 E47)]|].
  split; [apply (fresh_none h h4); [|done]; chain|].
  split; [unfold owner; rewrite (proj1 E79 imm xi); [done|by apply (proj1 E57)]|].
  split; [eapply extends_some; [exact He9|done]|].
  split. { intros r Hr. apply elem_of_list_lookup in Hr as [k Hk]. destruct (Hout (S k) r Hk) as (_ & ? & _). eapply extends_some; [exact He9|done]. }
  split; [done|]. split; [done|]. split; [done|]. split; [exact Hres|].
  assert (E59 : extends h5 h9) by chain. assert (E69 : extends h6 h9) by chain. assert (E35 : extends h3 h5) by chain. assert (E36 : extends h3 h6) by chain.
  split.
  - intros r Hr Hrc. assert (Hs6 : forall u, u ∈ [q; p] -> is_Some (hv h6 u)).
    { intros u [->|Hu]%elem_of_cons; [by eapply (extends_some h3 h6)|]. by apply elem_of_list_singleton in Hu as ->. }
    apply (extends_reachable_list h6 h9) in Hrc; [|apply Hg6|done|done].
    apply (wf_reachable h6) in Hrc; [|apply Hg6|done]. rewrite (Hrf r Hr) in Hrc. by destruct Hrc.
  - intros Hrc. assert (Hs5 : is_Some (hv h5 q)) by (by eapply (extends_some h3 h5)).
    apply (extends_reachable h5 h9) in Hrc; [|apply Hg5|done|done].
    apply (wf_reachable h5) in Hrc; [|apply Hg5|by intros u ->%elem_of_list_singleton]. rewrite Hpf in Hrc. by destruct Hrc.
Qed.
