(** Lemmas for the NUTS step: what its graph computes. *)
From Verif Require Export L_nuts L_nuts_step.

(** ** Flattening *)
Notation tsize x := (size_of (t_shape x)).
Definition total (refs : list (tensor num)) : nat := foldr Nat.add 0 ((fun r => tsize r) <$> refs).

Lemma total_app a b : total (a ++ b) = total a + total b.
Proof. unfold total. rewrite fmap_app, foldr_app. induction a as [|x a IH]; cbn in *; [done|]. rewrite IH. lia. Qed.
Lemma total_take refs i r : refs !! i = Some r -> total (take i refs) + tsize r <= total refs.
Proof.
  intros Hi. rewrite <- (take_drop_middle refs i r Hi) at 2. rewrite total_app. unfold total. cbn. lia.
Qed.
Lemma mjoin_app {A} (a b : list (list A)) : mjoin (a ++ b) = mjoin a ++ mjoin b.
Proof.
  induction a as [|x a IH]; [done|]. change (mjoin ((x :: a) ++ b)) with (x ++ mjoin (a ++ b)). change (mjoin (x :: a)) with (x ++ mjoin a).
  by rewrite IH, app_assoc.
Qed.
Lemma ravel_length xs : Forall (@tensor_ok num) xs -> length (t_data (ravel_params xs)) = total xs.
Proof.
  intros Hok. unfold ravel_params. cbn [t_data]. induction Hok as [|x xs Hx _ IH]; [done|].
  change (mjoin (t_data <$> x :: xs)) with (t_data x ++ mjoin (t_data <$> xs)). by rewrite app_length, Hx, IH.
Qed.
Lemma ravel_ok xs : tensor_ok (ravel_params xs).
Proof. unfold tensor_ok, ravel_params. cbn. lia. Qed.
Lemma ravel_finite xs : Forall finite xs -> finite (ravel_params xs).
Proof. intros Hf. unfold finite, ravel_params. cbn [t_data]. induction Hf as [|x xs Hx _ IH]; [constructor|].
  change (mjoin (t_data <$> x :: xs)) with (t_data x ++ mjoin (t_data <$> xs)). apply Forall_app. done. Qed.

Lemma unravel_some i q refs r : refs !! i = Some r -> length (t_data q) = total refs -> finite q ->
  exists y, unravel_param i q refs = Some y /\ tensor_ok y /\ t_shape y = t_shape r /\ finite y.
Proof.
  intros Hi Hl Hf. unfold unravel_param. rewrite Hi. cbn [mbind option_bind].
  change (foldr Nat.add 0 ((fun r0 => tsize r0) <$> take i refs)) with (total (take i refs)).
  pose proof (total_take refs i r Hi) as Ht.
  rewrite decide_True. 2:{ rewrite take_length, drop_length. lia. }
  eexists. split; [done|]. split. { unfold tensor_ok. cbn [t_data t_shape]. rewrite take_length, drop_length. lia. }
  split; [done|]. unfold finite. cbn. apply Forall_take, Forall_drop. done.
Qed.
Lemma total_shapes xs refs : t_shape <$> xs = t_shape <$> refs -> total xs = total refs.
Proof.
  intros Hs. unfold total.
  assert (H : forall l : list (tensor num), (fun r => tsize r) <$> l = size_of <$> (t_shape <$> l)) by (intros l; by rewrite <- list_fmap_compose).
  by rewrite !H, Hs.
Qed.
Lemma unravel_ravel i xs refs x : t_shape <$> xs = t_shape <$> refs -> Forall (@tensor_ok num) xs -> xs !! i = Some x ->
  unravel_param i (ravel_params xs) refs = Some x.
Proof.
  intros Hs Hok Hi. assert (Hri : exists r, refs !! i = Some r /\ t_shape r = t_shape x).
  { assert (H : (t_shape <$> refs) !! i = Some (t_shape x)) by (rewrite <- Hs, list_lookup_fmap, Hi; done).
    rewrite list_lookup_fmap in H. destruct (refs !! i) as [r|]; [|done]. exists r. split; [done|]. by injection H. }
  destruct Hri as (r & Hr & Hrs). unfold unravel_param. rewrite Hr. cbn [mbind option_bind].
  change (foldr Nat.add 0 ((fun r0 => tsize r0) <$> take i refs)) with (total (take i refs)).
  rewrite <- (total_shapes (take i xs) (take i refs)) by (by rewrite !fmap_take, Hs). rewrite Hrs.
  assert (Hd : take (tsize x) (drop (total (take i xs)) (t_data (ravel_params xs))) = t_data x).
  { assert (Hx : tensor_ok x) by (by eapply Forall_lookup_1).
    assert (Hsplit : t_data (ravel_params xs) = t_data (ravel_params (take i xs)) ++ t_data x ++ t_data (ravel_params (drop (S i) xs))).
    { unfold ravel_params. cbn [t_data]. rewrite <- (take_drop_middle xs i x Hi) at 1. rewrite fmap_app, fmap_cons, mjoin_app. done. }
    rewrite Hsplit, drop_app_alt by (rewrite ravel_length; [done|by apply Forall_take]). apply take_app_alt. by rewrite Hx. }
  rewrite Hd. rewrite decide_True by (by eapply Forall_lookup_1 in Hok). f_equal. by destruct x.
Qed.

(** ** What the nodes compute *)
Section base.
  Context (K : list (tensor num) -> option (list (tensor num))).
  Context (other : op -> list (tensor num) -> option (list (tensor num))).
  Notation base := (nuts_base K other).
  Lemma code_mod m : (8 * m + 6) mod 8 = 6.
  Proof. rewrite Nat.add_comm, Nat.mul_comm, Nat.mod_add by lia. done. Qed.
  Lemma code_div m : (8 * m + 6) / 8 = m.
  Proof. rewrite Nat.mul_comm, Nat.div_add_l by lia. cbn. lia. Qed.
  Ltac code := unfold nuts_op, nuts_base; rewrite code_mod, code_div, decide_True by done; repeat (rewrite decide_False by (cbv; lia)).
  Lemma base_ravel xs : base (nuts_op N_ravel) xs = Some [ravel_params xs].
  Proof. code. by rewrite decide_True. Qed.
  Lemma base_expand xs : base (nuts_op N_expand) xs = K xs.
  Proof. unfold nuts_op, nuts_base. rewrite code_mod, code_div, decide_True by done. done. Qed.
  Lemma base_momentum xs : base (nuts_op N_momentum) xs = other (nuts_op N_momentum) xs.
  Proof. unfold nuts_op at 1, nuts_base. rewrite code_mod, code_div, decide_True by done. done. Qed.
  Lemma base_unravel i q refs : base (nuts_op (N_unravel i)) (q :: refs) = (y ← unravel_param i q refs; Some [y]).
  Proof.
    unfold nuts_op, nuts_base. rewrite code_mod, code_div, decide_True by done. unfold N_unravel, N_ravel, N_expand.
    rewrite decide_False by lia. rewrite decide_False by lia. rewrite decide_True by lia. by replace (30 + i - 30) with i by lia.
  Qed.
  Lemma base_forward k xs : base (nuts_op (N_forward k)) xs = (y ← forward k xs; Some [y]).
  Proof. unfold nuts_op, nuts_base. rewrite code_mod, code_div, decide_True by done. by destruct k. Qed.
  Lemma base_backward k xs : base (nuts_op (N_backward k)) xs = (y ← backward k xs; Some [y]).
  Proof. unfold nuts_op, nuts_base. rewrite code_mod, code_div, decide_True by done. by destruct k. Qed.
End base.

(** ** The values computed by the step *)
Definition targ_vars (tr : transforms) (h : heap) (rv : vid) : list vid :=
  match get_transform tr h rv with Some (_, pos) => targs h rv pos | None => [] end.

Section values.
  Context (K : list (tensor num) -> option (list (tensor num))).
  Context (other : op -> list (tensor num) -> option (list (tensor num))) (cval : nat -> tensor num).
  Notation base := (nuts_base K other).
  Notation ev := (evals base cval).
  Context (B : builder) (tr : transforms) (nr : nat) (h : heap) (ts : dict nat nat) (lps : list vid) (h' : heap) (s : nuts_step).
  Hypothesis Hsg : step_graph B tr nr h ts lps h' s.
  Hypothesis Hg : good_heap h.
  Context (rho : vid -> option (tensor num)).
  Hypothesis Hrho : forall u, hv h u = None -> is_Some (owner h' u) -> rho u = None.
  Context (X Y : nat -> tensor num) (A : nat -> list (tensor num)).
  Hypothesis Hval : forall i rv vv, ts !! i = Some (rv, vv) ->
    is_Some (hv h rv) /\ is_Some (hv h vv) /\ ev h rho vv (X i) /\ Forall2 (ev h rho) (targ_vars tr h rv) (A i) /\
    tforward (get_transform tr h rv) (X i) (A i) = Some (Y i).
  Notation ys := (Y <$> seq 0 (length ts)).

  Lemma app_none v i o ins : hv h v = None -> app_of h' v i o ins -> rho v = None.
  Proof. intros Hv (n & nd & Ho & _). apply Hrho; [done|by eauto]. Qed.
  Lemma ev_old v x : is_Some (hv h v) -> ev h rho v x -> ev h' rho v x.
  Proof. intros Hv. apply extends_evals; [apply Hg|apply Hsg|done]. Qed.
  Lemma evs_old vs xs : (forall v, v ∈ vs -> is_Some (hv h v)) -> Forall2 (ev h rho) vs xs -> Forall2 (ev h' rho) vs xs.
  Proof.
    intros Hv Hf. induction Hf as [|v x vs xs Hx _ IH]; constructor.
    - apply ev_old; [apply Hv; by left|done].
    - apply IH. intros u Hu. apply Hv. by right.
  Qed.
  Lemma evs_det vs xs zs : Forall2 (ev h' rho) vs xs -> Forall2 (ev h' rho) vs zs -> xs = zs.
  Proof. intros H1 H2. apply evals_list_Forall2 in H1, H2. by eapply evals_list_det. Qed.
  Lemma targ_some rv v : v ∈ targ_vars tr h rv -> is_Some (hv h v).
  Proof. unfold targ_vars. destruct (get_transform tr h rv) as [[k pos]|]; [|by intros ?%elem_of_nil]. apply targs_in. apply Hg. Qed.

  Lemma step_value_node : exists newq p mr rngs rngs',
    let eins q := [q; p] ++ rngs ++ [(ns_params s).1; (ns_params s).2] ++ lps in
    hv h newq = None /\ (exists q, app_of h' newq 0 (nuts_op N_expand) (eins q)) /\
    ns_updates s = zip rngs rngs' /\ length rngs = nr /\ length rngs' = nr /\
    (forall x, ev h' rho p x <-> exists a b xs, ev h' rho mr a /\ ev h' rho (ns_params s).2 b /\
        other (nuts_op N_momentum) [a; b] = Some xs /\ xs !! 1 = Some x) /\
    (forall r, r ∈ rngs -> is_rng B h h' r) /\ is_rng B h h' mr /\
    hv h (ns_params s).1 = None /\ hv h (ns_params s).2 = None /\ owner h' (ns_params s).1 = None /\ owner h' (ns_params s).2 = None /\
    (forall k v x, (newq :: rngs') !! k = Some v -> ev h' rho v x <->
      exists rest out, Forall2 (ev h' rho) ([p] ++ rngs ++ [(ns_params s).1; (ns_params s).2] ++ lps) rest /\
        K (ravel_params ys :: rest) = Some out /\ out !! k = Some x) /\
    length (ns_results s) = length ts /\
    (forall i rv vv w V, ts !! i = Some (rv, vv) -> ns_results s !! i = Some w -> ev h' rho w V <->
       exists Q u, ev h' rho newq Q /\ unravel_param i Q ys = Some u /\ tbackward (get_transform tr h rv) u (A i) = Some V).
  Proof.
    destruct Hsg as [Hex Hg' (tvs & q & newq & p & mr & rngs & rngs' & Hb)].
    destruct (ns_params s) as [eps imm]. cbn zeta in Hb.
    destruct Hb as (Htl & Hts & Htf & Hqf & Hqa & Hpf & Hpa & Hmr & Hrl & Hrnd & Hmrn & Hrr & Hnf & Hna & Hrl' & Hra & Hef & Heo & Hif & Hio & Hns & Hrs & Hup & Hresl & Hress & Hres & _).
    exists newq, p, mr, rngs, rngs'. cbn [fst snd].
    assert (Htv : Forall2 (ev h' rho) tvs ys).
    { apply Forall2_lookup. intros i. destruct (ts !! i) as [[rv vv]|] eqn:Hi.
      - destruct (Hval i rv vv Hi) as (Hrv & Hvv & Hx & Ha & Hf). destruct (Htf i rv vv Hi Hrv) as (t & Ht & Hfw).
        rewrite Ht. rewrite list_lookup_fmap, lookup_seq_lt by (by eapply lookup_lt_Some). cbn. constructor.
        unfold is_forward in Hfw. unfold targ_vars in Ha. pose proof (targ_some rv) as Hts'. unfold targ_vars in Hts'.
        destruct (get_transform tr h rv) as [[k pos]|].
        + destruct Hfw as [Hfr Hap]. apply (evals_nuts base cval h' rho t 0 _ _ _ (app_none _ _ _ _ Hfr Hap) Hap).
          exists (X i :: A i), [Y i]. split; [constructor; [by apply ev_old|by apply evs_old]|]. split; [|done].
          rewrite base_forward. cbn in Hf. by rewrite Hf.
        + subst t. cbn in Hf. injection Hf as <-. by apply ev_old.
      - rewrite (lookup_ge_None_2 tvs) by (rewrite Htl; by apply lookup_ge_None).
        rewrite (lookup_ge_None_2 ys); [constructor|]. rewrite fmap_length, seq_length. by apply lookup_ge_None. }
    assert (Hqv : forall v, ev h' rho q v <-> v = ravel_params ys).
    { intros v. rewrite (evals_nuts base cval h' rho q 0 _ _ _ (app_none _ _ _ _ Hqf Hqa) Hqa). split.
      - intros (xs & zs & Hxs & Hz & Hv). rewrite (evs_det _ _ _ Hxs Htv) in Hz. rewrite base_ravel in Hz. injection Hz as <-. by injection Hv as <-.
      - intros ->. exists ys, [ravel_params ys]. split; [done|]. by rewrite base_ravel. }
    split; [done|]. split; [by exists q|]. split; [done|]. split; [done|]. split; [done|]. split.
    { intros x. rewrite (evals_nuts base cval h' rho p 1 _ _ _ (app_none _ _ _ _ Hpf Hpa) Hpa). split.
      - intros (xs & zs & Hxs & Hz & Hv). rewrite base_momentum in Hz.
        apply Forall2_cons_inv_l in Hxs as (a & l1 & Ha & Hl1 & ->). apply Forall2_cons_inv_l in Hl1 as (b & l2 & Hbv & Hl2 & ->).
        apply Forall2_nil_inv_l in Hl2 as ->. by exists a, b, zs.
      - intros (a & b & xs & Ha & Hbv & Ho & Hx). exists [a; b], xs. split; [constructor; [done|constructor; [done|constructor]]|]. by rewrite base_momentum. }
    split; [done|]. split; [done|]. split; [done|]. split; [done|]. split; [done|]. split; [done|]. split.
    { intros k v x Hk.
      assert (Hv : hv h v = None /\ app_of h' v k (nuts_op N_expand) ([q; p] ++ rngs ++ [eps; imm] ++ lps)).
      { destruct k as [|k]; cbn in Hk; [by injection Hk as <-|by apply Hra]. }
      destruct Hv as [Hvf Hva].
      rewrite (evals_nuts base cval h' rho v k _ _ _ (app_none _ _ _ _ Hvf Hva) Hva). split.
      - intros (xs & zs & Hxs & Hz & Hv). change ([q; p] ++ rngs ++ [eps; imm] ++ lps) with (q :: ([p] ++ rngs ++ [eps; imm] ++ lps)) in Hxs.
        apply Forall2_cons_inv_l in Hxs as (a & rest & Ha & Hrest & ->). apply Hqv in Ha as ->. exists rest, zs. by rewrite base_expand in Hz.
      - intros (rest & out & Hr & Ho & Hx). exists (ravel_params ys :: rest), out. rewrite base_expand. split; [|done].
        change ([q; p] ++ rngs ++ [eps; imm] ++ lps) with (q :: ([p] ++ rngs ++ [eps; imm] ++ lps)). constructor; [by apply Hqv|done]. }
    split; [done|].
    intros i rv vv w V Hi Hw. destruct (Hval i rv vv Hi) as (Hrv & Hvv & Hx & Ha & Hf).
    destruct (Hres i rv vv Hi Hrv) as (w' & Hw' & (u & Huf & Hua & Hm)). rewrite Hw in Hw'. injection Hw' as <-.
    assert (Huv : forall z, ev h' rho u z <-> exists Q, ev h' rho newq Q /\ unravel_param i Q ys = Some z).
    { intros z. rewrite (evals_nuts base cval h' rho u 0 _ _ _ (app_none _ _ _ _ Huf Hua) Hua). split.
      - intros (xs & zs & Hxs & Hz & Hv). apply Forall2_cons_inv_l in Hxs as (Q & refs & HQ & Hrefs & ->).
        rewrite (evs_det _ _ _ Hrefs Htv) in Hz. rewrite base_unravel in Hz. exists Q. split; [done|].
        destruct (unravel_param i Q ys); [|done]. injection Hz as <-. by injection Hv as <-.
      - intros (Q & HQ & Hz). exists (Q :: ys), [z]. split; [by constructor|]. by rewrite base_unravel, Hz. }
    unfold targ_vars in Ha. pose proof (targ_some rv) as Hts'. unfold targ_vars in Hts'.
    destruct (get_transform tr h rv) as [[k pos]|].
    - destruct Hm as [Hwf Hwa]. rewrite (evals_nuts base cval h' rho w 0 _ _ _ (app_none _ _ _ _ Hwf Hwa) Hwa). split.
      + intros (xs & zs & Hxs & Hz & Hv). apply Forall2_cons_inv_l in Hxs as (z & args & Hu & Hargs & ->).
        apply Huv in Hu as (Q & HQ & Hun). exists Q, z. split; [done|]. split; [done|]. cbn.
        rewrite (evs_det _ _ _ Hargs (evs_old _ _ Hts' Ha)) in Hz. rewrite base_backward in Hz.
        destruct (backward k (z :: A i)); [|done]. injection Hz as <-. by injection Hv as <-.
      + intros (Q & z & HQ & Hun & Hb). exists (z :: A i), [V]. split.
        { constructor; [apply Huv; by exists Q|by apply evs_old]. }
        rewrite base_backward. cbn in Hb. by rewrite Hb.
    - subst w. rewrite Huv. cbn. split; [intros (Q & HQ & Hz); by exists Q, V|intros (Q & z & HQ & Hz & [= <-]); by exists Q].
  Qed.
  Lemma step_value : exists newq p mr rngs rngs',
    let eins q := [q; p] ++ rngs ++ [(ns_params s).1; (ns_params s).2] ++ lps in
    ns_updates s = zip rngs rngs' /\ length rngs = nr /\ length rngs' = nr /\
    (forall x, ev h' rho p x <-> exists a b xs, ev h' rho mr a /\ ev h' rho (ns_params s).2 b /\
        other (nuts_op N_momentum) [a; b] = Some xs /\ xs !! 1 = Some x) /\
    (forall r, r ∈ rngs -> is_rng B h h' r) /\ is_rng B h h' mr /\
    hv h (ns_params s).1 = None /\ hv h (ns_params s).2 = None /\ owner h' (ns_params s).1 = None /\ owner h' (ns_params s).2 = None /\
    (forall k v x, (newq :: rngs') !! k = Some v -> ev h' rho v x <->
      exists rest out, Forall2 (ev h' rho) ([p] ++ rngs ++ [(ns_params s).1; (ns_params s).2] ++ lps) rest /\
        K (ravel_params ys :: rest) = Some out /\ out !! k = Some x) /\
    length (ns_results s) = length ts /\
    (forall i rv vv w V, ts !! i = Some (rv, vv) -> ns_results s !! i = Some w -> ev h' rho w V <->
       exists Q u, ev h' rho newq Q /\ unravel_param i Q ys = Some u /\ tbackward (get_transform tr h rv) u (A i) = Some V).
  Proof. destruct step_value_node as (newq & p & mr & rngs & rngs' & _ & _ & H). by exists newq, p, mr, rngs, rngs'. Qed.
  (** ... and it does compute values *)
  Lemma step_runs : (forall a b, exists y x, other (nuts_op N_momentum) [a; b] = Some [y; x]) ->
    (forall u, hv h u = None -> is_shared h' u = true -> is_Some (rho u)) ->
    is_Some (rho (ns_params s).1) -> is_Some (rho (ns_params s).2) ->
    (forall v, v ∈ lps -> exists x, ev h' rho v x) ->
    (forall rest, is_Some (K (ravel_params ys :: rest))) ->
    exists rest out, K (ravel_params ys :: rest) = Some out /\ rest !! (1 + nr) = rho (ns_params s).1 /\ rest !! (2 + nr) = rho (ns_params s).2 /\
      forall i rv vv w Q u V, out !! 0 = Some Q -> ts !! i = Some (rv, vv) -> ns_results s !! i = Some w ->
        unravel_param i Q ys = Some u -> tbackward (get_transform tr h rv) u (A i) = Some V -> ev h' rho w V.
  Proof.
    intros Hmom Hsh He1 He2 Hlpv Hrun. destruct step_value as (newq & p & mr & rngs & rngs' & Hsv).
    cbn zeta in Hsv. destruct Hsv as (_ & Hrl & _ & Hp & Hrr & Hmr & _ & _ & _ & _ & Hnq & Hresl & Hres).
    destruct He1 as [e1 He1], He2 as [e2 He2].
    assert (Hr1 : forall r, is_rng B h h' r -> exists x, ev h' rho r x).
    { intros r (H1 & H2 & H3). destruct (Hsh r H1 H3) as [x Hx]. exists x. by apply ev_given. }
    assert (Hargs : exists rest, Forall2 (ev h' rho) ([p] ++ rngs ++ [(ns_params s).1; (ns_params s).2] ++ lps) rest).
    { assert (Hall : forall v, v ∈ [p] ++ rngs ++ [(ns_params s).1; (ns_params s).2] ++ lps -> exists x, ev h' rho v x).
      { intros v Hin. apply elem_of_app in Hin as [Hin|Hin].
        - apply elem_of_list_singleton in Hin as ->. destruct (Hr1 mr Hmr) as [a Ha]. destruct (Hmom a e2) as (y & x & Hyx).
          exists x. apply Hp. exists a, e2, [y; x]. split; [done|]. split; [by apply ev_given|]. done.
        - apply elem_of_app in Hin as [Hin|Hin]; [by apply Hr1, Hrr|]. apply elem_of_app in Hin as [Hin|Hin]; [|by apply Hlpv].
          apply elem_of_cons in Hin as [->|Hin]; [exists e1; by apply ev_given|]. apply elem_of_list_singleton in Hin as ->. exists e2. by apply ev_given. }
      clear -Hall. induction ([p] ++ rngs ++ _) as [|v l IH]; [by exists []|].
      destruct (Hall v ltac:(by left)) as [x Hx]. destruct IH as [xs Hxs]; [intros u Hu; apply Hall; by right|]. exists (x :: xs). by constructor. }
    destruct Hargs as [rest Hrest]. destruct (Hrun rest) as [out Hout]. exists rest, out. split; [done|].
    assert (Hget : forall k v e, (rngs ++ [(ns_params s).1; (ns_params s).2] ++ lps) !! k = Some v -> rho v = Some e -> rest !! S k = Some e).
    { intros k v e Hk He. destruct (Forall2_lookup_l _ _ _ (S k) v Hrest Hk) as (x & Hx & Hxe). rewrite Hx. f_equal.
      exact (evals_det _ _ _ _ _ _ _ Hxe (ev_given base cval h' rho v e He)). }
    split. { rewrite He1. apply (Hget nr (ns_params s).1 e1); [|done]. rewrite lookup_app_r by lia. by rewrite Hrl, Nat.sub_diag. }
    split. { rewrite He2. apply (Hget (S nr) (ns_params s).2 e2); [|done]. rewrite lookup_app_r by lia. rewrite Hrl. by replace (S nr - nr) with 1 by lia. }
    intros i rv vv w Q u V HQ Hi Hw Hu HV. apply (Hres i rv vv w V Hi Hw). exists Q, u. split; [|done].
    apply (Hnq 0 newq Q eq_refl). by exists rest, out.
  Qed.
End values.

(** ** Supports and their bounds *)
Lemma bget_number s p idx : fits s p -> finite p -> in_range s idx -> exists r, bget p idx = Some (Some r).
Proof.
  intros Hf Hfin Hi. destruct (bget_some s p idx Hf Hi) as [a Ha]. unfold bget, t_at in Ha.
  assert (Hin : is_Some a). { eapply Forall_lookup_1; [exact Hfin|]. exact Ha. }
  destruct Hin as [r ->]. exists r. done.
Qed.
Lemma numbers s P idx : Forall (fits s) P -> Forall finite P -> in_range s idx ->
  exists ps : list R, mapM (fun p : tensor num => bget p idx) P = Some (Some <$> ps).
Proof.
  intros Hf Hfin Hi. induction Hf as [|p P Hp _ IH]; [by exists []|].
  inversion Hfin as [|? ? Hp1 Hp2]; subst. destruct (IH Hp2) as [ps Hps]. destruct (bget_number s p idx Hp Hp1 Hi) as [r Hr].
  exists (r :: ps). change (mapM (fun p : tensor num => bget p idx) (p :: P)) with
    (x ← bget p idx; k ← mapM (fun p : tensor num => bget p idx) P; mret (x :: k)). by rewrite Hr, Hps.
Qed.
Lemma normal_only d n : nparams d = Some n -> aeppl_default d = None -> d = RV_normal.
Proof.
  intros Hn Ht. destruct d as [|d]; [done|]. do 15 (destruct d as [|d]; [first [discriminate Ht|discriminate Hn|done]|]). destruct d; [done|].
  vm_compute in Hn. discriminate Hn.
Qed.
Lemma support_params d P P' x : nparams d = Some (length P) -> length P' = length P -> in_support d P x ->
  Forall (fits (t_shape x)) P' -> Forall finite P' -> arg_values P (aeppl_default d) = arg_values P' (aeppl_default d) -> in_support d P' x.
Proof.
  intros Hn Hl Hs Hf Hfin Ha. destruct (decide (d = RV_dirichlet)) as [->|Hnd]; [exact Hs|].
  unfold in_support. rewrite decide_False by done. intros idx Hi. destruct (numbers _ P' idx Hf Hfin Hi) as [ps Hps].
  destruct (aeppl_default d) as [[k pos]|] eqn:Ht.
  - pose proof (support_elem d P x k pos Ht Hnd Hn Hs idx Hi) as (b & r & Hb & Hr & Hk).
    rewrite Ha in Hb. rewrite <- Hl in Hn. destruct (support_point d P' idx ps k pos Ht Hnd Hn Hps) as (b' & S & Hb' & HS & Heq).
    exists ps, S, r. split; [done|]. split; [done|]. split; [done|]. apply Heq. rewrite Hb in Hb'. injection Hb' as Hb'.
    apply (inj (fmap Some)) in Hb'. by rewrite <- Hb'.
  - pose proof (normal_only d _ Hn Ht) as ->. destruct (Hs idx Hi) as (ps0 & S & r & _ & HS & Hr & HSr).
    exists ps, S, r. split; [done|]. split; [exact HS|]. done.
Qed.

Lemma rv_of_transform tr h rv d params : rv_of h rv d params -> get_transform tr h rv = tr d.
Proof. intros (n & nd & rng & size & dtype & Ho & Hn & Hop & _). unfold get_transform, owner_op. rewrite Ho. cbn [mbind option_bind]. rewrite Hn. cbn. by rewrite Hop. Qed.
Lemma rv_of_some h rv d params : rv_of h rv d params -> is_Some (hv h rv).
Proof. intros (n & nd & rng & size & dtype & Ho & _). unfold owner in Ho. destruct (hv h rv); [by eauto|done]. Qed.
Lemma rv_of_det h rv d params d' params' : rv_of h rv d params -> rv_of h rv d' params' -> d = d' /\ params = params'.
Proof.
  intros (n & nd & r & s & t & Ho & Hn & Hop & Hin) (n' & nd' & r' & s' & t' & Ho' & Hn' & Hop' & Hin').
  rewrite Ho in Ho'. injection Ho' as <-. rewrite Hn in Hn'. injection Hn' as <-. rewrite Hop in Hop'. injection Hop' as <-.
  rewrite Hin in Hin'. by injection Hin' as _ _ _ <-.
Qed.
Lemma rv_of_targs h rv d params : rv_of h rv d params -> nparams d = Some (length params) -> targ_vars aeppl_default h rv = bounds d params.
Proof.
  intros Hrv Hn. unfold targ_vars. rewrite (rv_of_transform _ _ _ _ _ Hrv). destruct Hrv as (n & nd & rng & size & dtype & Ho & Hnd & Hop & Hin).
  unfold targs, parents. rewrite Ho, Hnd, Hin.
  destruct (aeppl_default d) as [[k pos]|] eqn:Ht.
  - destruct (decide (d = RV_dirichlet)) as [->|Hd]; [cbn in Ht; by injection Ht as <- <-|].
    pose proof (covered d k pos Ht Hd) as Hc.
    repeat (apply elem_of_cons in Hc as [->|Hc]; [cbn in Ht; injection Ht as <- <-; done|]). by apply elem_of_nil in Hc.
  - pose proof (normal_only d _ Hn Ht) as ->. done.
Qed.
Lemma bounds_values {D} (ev : vid -> D -> Prop) (d : nat) params P : Forall2 ev params P ->
  Forall2 ev (bounds d params) (omap (fun i => P !! i) (bound_positions d)).
Proof.
  intros Hf. unfold bounds. induction (bound_positions d) as [|i l IH]; [constructor|]. cbn.
  pose proof (proj1 (Forall2_lookup _ _ _) Hf i) as Hi. inversion Hi as [u p Hup E1 E2|]; [by constructor|done].
Qed.
Lemma arg_values_bounds d (P : list (tensor num)) : nparams d = Some (length P) ->
  arg_values P (aeppl_default d) = omap (fun i => P !! i) (bound_positions d).
Proof.
  intros Hn. destruct (aeppl_default d) as [[k pos]|] eqn:Ht.
  - destruct (decide (d = RV_dirichlet)) as [->|Hd]; [cbn in Ht; by injection Ht as <- <-|].
    pose proof (covered d k pos Ht Hd) as Hc.
    repeat (apply elem_of_cons in Hc as [->|Hc]; [cbn in Ht; injection Ht as <- <-; done|]). by apply elem_of_nil in Hc.
  - pose proof (normal_only d _ Hn Ht) as ->. done.
Qed.

Lemma evals_outside {D} (base : op -> list D -> option (list D)) cval h (sigma rho : vid -> option D) vs xs :
  (forall u, reachable h vs u -> sigma u = None) ->
  Forall2 (evals base cval h (over sigma rho)) vs xs -> Forall2 (evals base cval h rho) vs xs.
Proof.
  intros Hs Hf. assert (Hgen : forall v x, evals base cval h (over sigma rho) v x -> reachable h vs v -> evals base cval h rho v x).
  { intros v x He. apply (evals_cut base cval (reachable h vs) h h (over sigma rho) rho); try done.
    - intros v0 u Hv _ Hi. by eapply reachable_step.
    - intros v0 Hv. unfold over. by rewrite (Hs v0 Hv). }
  assert (Hin : forall v, v ∈ vs -> reachable h vs v) by (intros; by apply reachable_root).
  clear Hs. revert Hgen Hin. generalize (reachable h vs). intros R Hgen Hin.
  induction Hf as [|v x vs xs Hx _ IH]; constructor.
  - apply Hgen; [done|]. apply Hin. by left.
  - apply IH. intros u Hu. apply Hin. by right.
Qed.

Global Instance tensor_inhabited {A} : Inhabited (tensor A) := populate (Tensor [] []).
Lemma finite_choice {A Z} `{!Inhabited Z} (l : list A) : forall R : nat -> A -> Z -> Prop,
  (forall i p, l !! i = Some p -> exists z, R i p z) -> exists f : nat -> Z, forall i p, l !! i = Some p -> R i p (f i).
Proof.
  induction l as [|a l IH]; intros R H.
  - exists (fun _ => inhabitant). intros i p Hi. done.
  - destruct (H 0 a eq_refl) as [z Hz]. destruct (IH (fun i p z => R (S i) p z)) as [f Hf].
    { intros i p Hi. exact (H (S i) p Hi). }
    exists (fun i => match i with 0 => z | S i => f i end). intros [|i] p Hi; [by injection Hi as <-|by apply Hf].
Qed.

(** the state of the variables sampled: their values lie in their supports *)
Section state.
  Context (K : list (tensor num) -> option (list (tensor num))).
  Context (other : op -> list (tensor num) -> option (list (tensor num))) (cval : nat -> tensor num).
  Notation base := (nuts_base K other).
  Notation ev := (evals base cval).
  Context (h : heap) (rho sigma : vid -> option (tensor num)).

  Definition good_value (rv vv : vid) : Prop :=
    exists d params x P, rv_of h rv d params /\ nparams d = Some (length params) /\ sigma rv = Some x /\ ev h rho vv x /\ tensor_ok x /\
      Forall2 (ev h (over sigma rho)) params P /\ Forall (fits (t_shape x)) P /\ in_support d P x /\
      (forall u, reachable h (bounds d params) u -> sigma u = None).

  Definition good_rv (rv : vid) (x y : tensor num) (args : list (tensor num)) : Prop :=
    exists d params P, rv_of h rv d params /\ nparams d = Some (length params) /\ length P = length params /\
      args = arg_values P (aeppl_default d) /\ tforward (aeppl_default d) x args = Some y /\
      tensor_ok x /\ tensor_ok y /\ finite y /\ sigma rv = Some x /\ in_support d P x /\
      Forall2 (ev h rho) (bounds d params) args /\
      tbackward (aeppl_default d) y args = Some x /\
      forall y', tensor_ok y' -> t_shape y' = t_shape y -> finite y' ->
        exists x', tbackward (aeppl_default d) y' args = Some x' /\ tensor_ok x' /\ t_shape x' = t_shape x /\ in_support d P x'.

  Lemma good_values ts : good_heap h -> (forall rv vv, (rv, vv) ∈ ts -> good_value rv vv) -> (forall v, v ∈ dvalues ts -> is_Some (hv h v)) ->
    exists (X Y : nat -> tensor num) (A : nat -> list (tensor num)), forall i rv vv, ts !! i = Some (rv, vv) ->
      good_rv rv (X i) (Y i) (A i) /\
      is_Some (hv h rv) /\ is_Some (hv h vv) /\ ev h rho vv (X i) /\ Forall2 (ev h rho) (targ_vars aeppl_default h rv) (A i) /\
      tforward (get_transform aeppl_default h rv) (X i) (A i) = Some (Y i).
  Proof.
    intros Hg Hs Hvs.
    destruct (finite_choice (Z := tensor num * tensor num * list (tensor num)) ts (fun i p z =>
      good_rv p.1 z.1.1 z.1.2 z.2 /\
      is_Some (hv h p.1) /\ is_Some (hv h p.2) /\ ev h rho p.2 z.1.1 /\ Forall2 (ev h rho) (targ_vars aeppl_default h p.1) z.2 /\
      tforward (get_transform aeppl_default h p.1) z.1.1 z.2 = Some z.1.2)) as [f Hf].
    { intros i [rv vv] Hi. assert (Hin : (rv, vv) ∈ ts) by (by eapply elem_of_list_lookup_2).
      destruct (Hs rv vv Hin) as (d & params & x & P & Hrv & Hn & Hsx & Hx & Hok & HP & Hfit & Hsup & Hout).
      assert (HlP : length P = length params) by (symmetry; by eapply Forall2_length).
      assert (HnP : nparams d = Some (length P)) by congruence.
      destruct (change_of_variables d P x HnP Hok Hfit Hsup) as (y & Hy & Hyok & Hyf & Hyb & Hall).
      exists (x, y, arg_values P (aeppl_default d)). cbn [fst snd].
      assert (Hb : Forall2 (ev h rho) (bounds d params) (arg_values P (aeppl_default d))).
      { apply (evals_outside base cval h sigma rho); [done|]. rewrite (arg_values_bounds d P HnP). by apply bounds_values. }
      split. { exists d, params, P. split_and!; done. }
      split; [by eapply rv_of_some|]. split. { apply Hvs. unfold dvalues. apply (elem_of_list_fmap_1 snd) in Hin. exact Hin. }
      split; [done|]. rewrite (rv_of_targs h rv d params Hrv Hn), (rv_of_transform _ _ _ _ _ Hrv). done. }
    exists (fun i => (f i).1.1), (fun i => (f i).1.2), (fun i => (f i).2). intros i rv vv Hi. exact (Hf i _ Hi).
  Qed.
End state.

Lemma step_eq B tr lp nr h ts re h' s : step B tr lp nr h ts re = (h', s) -> lp_ok lp -> good_heap h ->
  (forall v, v ∈ dvalues ts ++ dvalues re -> is_Some (hv h v)) ->
  step_graph B tr nr h ts (lp (forward_all tr h ts).1 ts re).2 h' s.
Proof. intros Hst Hlp Hg Hv. pose proof (step_spec B tr lp nr h ts re Hlp Hg Hv) as [H _]. by rewrite Hst in H. Qed.

Lemma ys_shape (Y Z : nat -> tensor num) n : (forall i, i < n -> t_shape (Z i) = t_shape (Y i)) ->
  t_shape <$> (Z <$> seq 0 n) = t_shape <$> (Y <$> seq 0 n).
Proof.
  intros H. rewrite <- !list_fmap_compose. apply list_fmap_ext. intros i x Hx. apply lookup_seq in Hx as [-> Hi]. cbn. by apply H.
Qed.
Lemma Forall_seq (P : tensor num -> Prop) (Y : nat -> tensor num) n : (forall i, i < n -> P (Y i)) -> Forall P (Y <$> seq 0 n).
Proof. intros H. apply Forall_fmap, Forall_forall. intros i Hi. apply elem_of_seq in Hi. apply H. lia. Qed.

(** ** The results lie in the supports *)
Section supports.
  Context (K : list (tensor num) -> option (list (tensor num))).
  Context (other : op -> list (tensor num) -> option (list (tensor num))) (cval : nat -> tensor num).
  Notation base := (nuts_base K other).
  Notation ev := (evals base cval).

  Lemma step_supports B lp nr h ts re rho sigma h' s : step B aeppl_default lp nr h ts re = (h', s) ->
    lp_ok lp -> good_heap h -> (forall v, v ∈ dvalues ts ++ dvalues re -> is_Some (hv h v)) -> returns_position K ->
    (forall u, hv h u = None -> is_Some (owner h' u) -> rho u = None) ->
    (forall rv vv, (rv, vv) ∈ ts -> good_value K other cval h rho sigma rv vv) ->
    forall i rv vv w X', ts !! i = Some (rv, vv) -> ns_results s !! i = Some w -> ev h' rho w X' ->
    exists d params P x args, rv_of h rv d params /\ nparams d = Some (length params) /\ length P = length params /\ sigma rv = Some x /\
      args = arg_values P (aeppl_default d) /\ Forall2 (ev h rho) (bounds d params) args /\
      tensor_ok X' /\ t_shape X' = t_shape x /\ in_support d P X' /\ (kernel_stays K -> X' = x).
  Proof.
    intros Hst Hlp Hg Hv HK Hrho Hgood i rv vv w X' Hi Hw HX.
    pose proof (step_eq _ _ _ _ _ _ _ _ _ Hst Hlp Hg Hv) as Hsg.
    destruct (good_values K other cval h rho sigma ts Hg Hgood) as (X & Y & A & HXYA).
    { intros v Hin. apply Hv, elem_of_app. by left. }
    destruct (step_value K other cval B aeppl_default nr h ts _ h' s Hsg Hg rho Hrho X Y A) as (newq & p & mr & rngs & rngs' & Hsv).
    { intros j rv' vv' Hj. by destruct (HXYA j rv' vv' Hj) as (_ & ?). }
    cbn zeta in Hsv. destruct Hsv as (_ & _ & _ & _ & _ & _ & _ & _ & _ & _ & Hnq & _ & Hres).
    apply (Hres i rv vv w X' Hi Hw) in HX as (Q & u & HQ & Hun & Hbk).
    apply (Hnq 0 newq Q eq_refl) in HQ as (rest & out & _ & HKq & Hout).
    assert (Hlt : forall j, j < length ts -> tensor_ok (Y j) /\ finite (Y j)).
    { intros j Hj. destruct (lookup_lt_is_Some_2 ts j Hj) as [[rv' vv'] Hj']. destruct (HXYA j rv' vv' Hj') as [(d & params & P & H) _].
      destruct H as (_ & _ & _ & _ & _ & _ & ? & ? & _). done. }
    assert (Hok : Forall (@tensor_ok num) (Y <$> seq 0 (length ts))) by (apply Forall_seq; intros j Hj; by apply Hlt).
    assert (Hfin : Forall finite (Y <$> seq 0 (length ts))) by (apply Forall_seq; intros j Hj; by apply Hlt).
    destruct (HK _ _ _ (ravel_ok _) (ravel_finite _ Hfin) HKq) as (Q' & out' & -> & HQok & HQf & HQs). cbn in Hout. injection Hout as ->.
    assert (HYi : (Y <$> seq 0 (length ts)) !! i = Some (Y i)).
    { rewrite list_lookup_fmap, lookup_seq_lt by (by eapply lookup_lt_Some). done. }
    destruct (unravel_some i Q (Y <$> seq 0 (length ts)) (Y i) HYi) as (u' & Hu' & Huok & Hus & Huf).
    { rewrite <- (ravel_length _ Hok). unfold tensor_ok in HQok. rewrite HQok, HQs. symmetry. apply ravel_ok. }
    { done. }
    rewrite Hun in Hu'. injection Hu' as <-.
    destruct (HXYA i rv vv Hi) as [(d & params & P & Hrv & Hn & HlP & HA & Hfw & Hxok & Hyok & Hyf & Hsx & Hsup & Hb & Hbk0 & Hall) _].
    rewrite (rv_of_transform _ _ _ _ _ Hrv) in Hbk. destruct (Hall u Huok Hus Huf) as (x' & Hx' & Hxok' & Hxs & Hxsup).
    rewrite Hbk in Hx'. injection Hx' as <-.
    exists d, params, P, (X i), (A i). split_and!; try done.
    intros Hstay. destruct (Hstay _ _ _ HKq) as [ys' [= -> _]]. 
    rewrite (unravel_ravel i _ _ (Y i) eq_refl Hok HYi) in Hun. injection Hun as <-. rewrite Hbk0 in Hbk. by injection Hbk as <-.
  Qed.

  Lemma step_support_after B lp nr h ts re rho sigma sigma' h' s : step B aeppl_default lp nr h ts re = (h', s) ->
    lp_ok lp -> good_heap h -> (forall v, v ∈ dvalues ts ++ dvalues re -> is_Some (hv h v)) -> returns_position K ->
    (forall u, hv h u = None -> is_Some (owner h' u) -> rho u = None) ->
    (forall rv vv, (rv, vv) ∈ ts -> good_value K other cval h rho sigma rv vv) ->
    (forall u, sigma u = None -> sigma' u = None) ->
    (forall i rv vv w, ts !! i = Some (rv, vv) -> ns_results s !! i = Some w -> exists X', ev h' rho w X' /\ sigma' rv = Some X') ->
    forall rv vv d params, (rv, vv) ∈ ts -> rv_of h rv d params ->
    exists x X', sigma rv = Some x /\ sigma' rv = Some X' /\ tensor_ok X' /\ same_shape X' x /\
      (forall P', Forall2 (ev h (over sigma' rho)) params P' -> Forall finite P' -> Forall (fits (t_shape X')) P' -> in_support d P' X') /\
      (kernel_stays K -> X' = x).
  Proof.
    intros Hst Hlp Hg Hv HK Hrho Hgood Hdom Hnew rv vv d params Hin Hrv. apply elem_of_list_lookup in Hin as [i Hi].
    assert (Hlen : length (ns_results s) = length ts).
    { destruct (step_eq _ _ _ _ _ _ _ _ _ Hst Hlp Hg Hv) as [_ _ (tvs & q & newq & p & mr & rngs & rngs' & Hb)].
      destruct (ns_params s) as [eps imm]. cbn zeta in Hb. by repeat (destruct Hb as [? Hb]). }
    destruct (lookup_lt_is_Some_2 (ns_results s) i) as [w Hw]. { rewrite Hlen. by eapply lookup_lt_Some. }
    destruct (Hnew i rv vv w Hi Hw) as (X' & HX & Hs').
    destruct (step_supports B lp nr h ts re rho sigma h' s Hst Hlp Hg Hv HK Hrho Hgood i rv vv w X' Hi Hw HX)
      as (d0 & params0 & P & x & args & Hrv0 & Hn & HlP & Hsx & HA & Hb & Hok & Hsh & Hsup & Hstay).
    destruct (rv_of_det _ _ _ _ _ _ Hrv Hrv0) as [<- <-].
    exists x, X'. split; [done|]. split; [done|]. split; [done|]. split; [done|]. split; [|done].
    intros P' HP' Hfin Hfit. assert (HlP' : length P' = length P) by (apply Forall2_length in HP'; congruence).
    assert (HnP : nparams d = Some (length P)) by congruence.
    apply (support_params d P P' X' HnP HlP' Hsup Hfit Hfin).
    destruct (Hgood rv vv) as (d1 & params1 & _ & _ & Hrv1 & _ & _ & _ & _ & _ & _ & _ & Hout); [by eapply elem_of_list_lookup_2|].
    destruct (rv_of_det _ _ _ _ _ _ Hrv Hrv1) as [<- <-].
    assert (Hb' : Forall2 (ev h rho) (bounds d params) (arg_values P' (aeppl_default d))).
    { apply (evals_outside base cval h sigma' rho). { intros u Hu. apply Hdom. by apply Hout. }
      rewrite arg_values_bounds by congruence. by apply bounds_values. }
    rewrite <- HA. apply evals_list_Forall2 in Hb, Hb'. by eapply evals_list_det.
  Qed.
End supports.

Lemma dkeys_lookup {K V} (d : dict K V) : forall i k v, d !! i = Some (k, v) -> dkeys d !! i = Some k.
Proof. induction d as [|[k0 v0] d IH]; intros [|i] k v Hi; cbn in *; [done..|by injection Hi as <- _|]. by eapply IH. Qed.
Lemma dkeys_length {K V} (d : dict K V) : length (dkeys d) = length d.
Proof. apply map_length. Qed.

(** ** The step computes values for all variables *)
Section defined.
  Context (K : list (tensor num) -> option (list (tensor num))).
  Context (other : op -> list (tensor num) -> option (list (tensor num))) (cval : nat -> tensor num).
  Notation base := (nuts_base K other).
  Notation ev := (evals base cval).

  Lemma step_defined B lp nr h ts re rho sigma h' s : step B aeppl_default lp nr h ts re = (h', s) ->
    lp_ok lp -> good_heap h -> (forall v, v ∈ dvalues ts ++ dvalues re -> is_Some (hv h v)) ->
    returns_position K -> (forall q args, tensor_ok q -> finite q -> is_Some (K (q :: args))) ->
    (forall a b, exists y x, other (nuts_op N_momentum) [a; b] = Some [y; x]) ->
    (forall u, hv h u = None -> is_Some (owner h' u) -> rho u = None) ->
    (forall u, hv h u = None -> is_shared h' u = true -> is_Some (rho u)) ->
    is_Some (rho (ns_params s).1) -> is_Some (rho (ns_params s).2) ->
    (forall h1, extends h h1 -> good_heap h1 -> forall v, v ∈ (lp h1 ts re).2 -> exists x, ev (lp h1 ts re).1 rho v x) ->
    (forall rv vv, (rv, vv) ∈ ts -> good_value K other cval h rho sigma rv vv) ->
    forall i rv vv, ts !! i = Some (rv, vv) -> exists w X', ns_results s !! i = Some w /\ ev h' rho w X'.
  Proof.
    intros Hst Hlp Hg Hv HK Hrun Hmom Hrho Hsh He1 He2 Hlpv Hgood i rv vv Hi.
    pose proof (step_spec B aeppl_default lp nr h ts re Hlp Hg Hv) as (_ & Hexlp & [Hex1 Hg1]). rewrite Hst in Hexlp. cbn [fst] in Hexlp.
    pose proof (step_eq _ _ _ _ _ _ _ _ _ Hst Hlp Hg Hv) as Hsg.
    destruct (good_values K other cval h rho sigma ts Hg Hgood) as (X & Y & A & HXYA).
    { intros v Hin. apply Hv, elem_of_app. by left. }
    assert (Hresl : length (ns_results s) = length ts).
    { destruct Hsg as [_ _ (tvs & q & newq & p & mr & rngs & rngs' & Hb)].
      destruct (ns_params s) as [eps imm]. cbn zeta in Hb. by repeat (destruct Hb as [? Hb]). }
    destruct (lookup_lt_is_Some_2 (ns_results s) i) as [w Hw]. { rewrite Hresl. by eapply lookup_lt_Some. }
    assert (Hlt : forall j, j < length ts -> tensor_ok (Y j) /\ finite (Y j)).
    { intros j Hj. destruct (lookup_lt_is_Some_2 ts j Hj) as [[rv' vv'] Hj']. destruct (HXYA j rv' vv' Hj') as [(d & params & P & H) _].
      destruct H as (_ & _ & _ & _ & _ & _ & ? & ? & _). done. }
    assert (Hok : Forall (@tensor_ok num) (Y <$> seq 0 (length ts))) by (apply Forall_seq; intros j Hj; by apply Hlt).
    assert (Hfin : Forall finite (Y <$> seq 0 (length ts))) by (apply Forall_seq; intros j Hj; by apply Hlt).
    destruct (step_runs K other cval B aeppl_default nr h ts _ h' s Hsg Hg rho Hrho X Y A) as (rest & out & Hout & _ & _ & Hfinal); try done.
    { intros j rv' vv' Hj. by destruct (HXYA j rv' vv' Hj) as (_ & ?). }
    { intros v Hin. destruct (Hlpv _ Hex1 Hg1 v Hin) as [x Hx]. exists x.
      destruct (Hlp (forward_all aeppl_default h ts).1 ts re Hg1) as (_ & Hglp & Hsome). { intros z Hz. eapply extends_some; [exact Hex1|by apply Hv]. }
      apply (extends_evals base cval _ h' rho v x (proj1 Hglp) Hexlp); [by apply Hsome|done]. }
    { intros rest. apply Hrun; [apply ravel_ok|by apply ravel_finite]. }
    destruct (HK _ _ _ (ravel_ok _) (ravel_finite _ Hfin) Hout) as (Q & out' & -> & HQok & HQf & HQs).
    assert (HYi : (Y <$> seq 0 (length ts)) !! i = Some (Y i)).
    { rewrite list_lookup_fmap, lookup_seq_lt by (by eapply lookup_lt_Some). done. }
    destruct (unravel_some i Q (Y <$> seq 0 (length ts)) (Y i) HYi) as (u & Hu & Huok & Hus & Huf).
    { rewrite <- (ravel_length _ Hok). unfold tensor_ok in HQok. rewrite HQok, HQs. symmetry. apply ravel_ok. }
    { done. }
    destruct (HXYA i rv vv Hi) as [(d & params & P & Hrv & Hn & HlP & HA & Hfw & Hxok & Hyok & Hyf & Hsx & Hsup & Hb & Hbk0 & Hall) _].
    destruct (Hall u Huok Hus Huf) as (x' & Hx' & _).
    exists w, x'. split; [done|]. eapply (Hfinal i rv vv w Q u x'); try done. by rewrite (rv_of_transform _ _ _ _ _ Hrv).
  Qed.

  (** ** Every variable gets its own component *)
  Lemma step_components B tr lp nr h ts re rho h' s (y z : vid -> tensor num) (args : vid -> list (tensor num)) :
    step B tr lp nr h ts re = (h', s) ->
    lp_ok lp -> good_heap h -> (forall v, v ∈ dvalues ts ++ dvalues re -> is_Some (hv h v)) -> (forall v, v ∈ dkeys ts -> is_Some (hv h v)) ->
    (forall u, hv h u = None -> is_Some (owner h' u) -> rho u = None) ->
    (forall rv vv, (rv, vv) ∈ ts -> exists x, ev h rho vv x /\ Forall2 (ev h rho) (targ_vars tr h rv) (args rv) /\
        tforward (get_transform tr h rv) x (args rv) = Some (y rv) /\ tensor_ok (z rv) /\ same_shape (z rv) (y rv)) ->
    (forall rest out, K (ravel_params (y <$> dkeys ts) :: rest) = Some out -> exists out', out = ravel_params (z <$> dkeys ts) :: out') ->
    forall i rv vv w X', ts !! i = Some (rv, vv) -> ns_results s !! i = Some w -> ev h' rho w X' ->
      tbackward (get_transform tr h rv) (z rv) (args rv) = Some X'.
  Proof.
    intros Hst Hlp Hg Hv Hk Hrho Hval HKz i rv vv w X' Hi Hw HX.
    pose proof (step_eq _ _ _ _ _ _ _ _ _ Hst Hlp Hg Hv) as Hsg.
    set (kf := fun i => default 0 (dkeys ts !! i)).
    assert (Hkf : forall j rv' vv', ts !! j = Some (rv', vv') -> kf j = rv').
    { intros j rv' vv' Hj. unfold kf. by rewrite (dkeys_lookup ts j rv' vv' Hj). }
    destruct (finite_choice (Z := tensor num) ts (fun j p x => ev h rho p.2 x /\ Forall2 (ev h rho) (targ_vars tr h p.1) (args p.1) /\
      tforward (get_transform tr h p.1) x (args p.1) = Some (y p.1) /\ tensor_ok (z p.1) /\ same_shape (z p.1) (y p.1))) as [X HXf].
    { intros j [rv' vv'] Hj. apply Hval. by eapply elem_of_list_lookup_2. }
    assert (Hseq : forall f : vid -> tensor num, (fun j => f (kf j)) <$> seq 0 (length ts) = f <$> dkeys ts).
    { intros f. apply list_eq. intros j. rewrite !list_lookup_fmap. destruct (ts !! j) as [[rv' vv']|] eqn:Hj;
        [rewrite (dkeys_lookup ts j rv' vv' Hj)|rewrite (lookup_ge_None_2 (dkeys ts)) by (rewrite dkeys_length; by apply lookup_ge_None)].
      - rewrite lookup_seq_lt by (by eapply lookup_lt_Some). cbn. rewrite (Hkf j rv' vv' Hj). done.
      - rewrite lookup_seq_ge by (by apply lookup_ge_None). done. }
    destruct (step_value K other cval B tr nr h ts _ h' s Hsg Hg rho Hrho X (fun j => y (kf j)) (fun j => args (kf j))) as (newq & p & mr & rngs & rngs' & Hsv).
    { intros j rv' vv' Hj. rewrite (Hkf j rv' vv' Hj). destruct (HXf j _ Hj) as (H1 & H2 & H3 & _). cbn in *.
      assert (Hin : (rv', vv') ∈ ts) by (by eapply elem_of_list_lookup_2).
      split; [apply Hk; rewrite dkeys_fst; exact (elem_of_list_fmap_1 fst _ _ Hin)|].
      split; [apply Hv, elem_of_app; left; rewrite dvalues_snd; exact (elem_of_list_fmap_1 snd _ _ Hin)|]. done. }
    cbn zeta in Hsv. destruct Hsv as (_ & _ & _ & _ & _ & _ & _ & _ & _ & _ & Hnq & _ & Hres).
    apply (Hres i rv vv w X' Hi Hw) in HX as (Q & u & HQ & Hun & Hbk). rewrite (Hkf i rv vv Hi) in Hbk.
    apply (Hnq 0 newq Q eq_refl) in HQ as (rest & out & _ & HKq & Hout). rewrite Hseq in HKq, Hun.
    destruct (HKz rest out HKq) as [out' ->]. cbn in Hout. injection Hout as <-.
    assert (Hzi : (z <$> dkeys ts) !! i = Some (z rv)) by (rewrite list_lookup_fmap, (dkeys_lookup ts i rv vv Hi); done).
    assert (Hzprop : forall rv', rv' ∈ dkeys ts -> tensor_ok (z rv') /\ same_shape (z rv') (y rv')).
    { intros rv' Hin. rewrite dkeys_fst in Hin. apply elem_of_list_fmap in Hin as ([rv'' vv'] & -> & Hin). cbn.
      destruct (Hval rv'' vv' Hin) as (x & _ & _ & _ & ? & ?). done. }
    rewrite (unravel_ravel i (z <$> dkeys ts) (y <$> dkeys ts) (z rv)) in Hun; [by injection Hun as <-|..|done].
    - rewrite <- !list_fmap_compose. apply list_fmap_ext. intros j rv' Hj. cbn. apply Hzprop. by eapply elem_of_list_lookup_2.
    - apply Forall_fmap, Forall_forall. intros rv' Hin. by apply Hzprop.
  Qed.
End defined.
