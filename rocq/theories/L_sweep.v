(** One sweep over the blocks leaves the target invariant, and the constructed sampler is such
    a sweep. *)
From Coq Require Import Reals Lra FunctionalExtensionality.
From Verif Require Export S_sweep L_sampler.

Lemma in_blocks {A} (f : A -> list vid) (l : list A) (a : A) u : a ∈ l -> u ∈ f a -> u ∈ concat (f <$> l).
Proof.
  induction 1 as [|a b l Hin IH]; intros Hu; cbn; apply elem_of_app; [by left|right; by apply IH].
Qed.

Section sweep.
  Context {D : Type}.
  Implicit Types (bs : list (step_block D)) (B N : step_block D) (x y e : vid -> D).

  Lemma put_put b y z x : put b z (put b y x) = put b z x.
  Proof. apply functional_extensionality. intros u. unfold put. by case_decide. Qed.
  Lemma put_in b y x u : u ∈ b -> put b y x u = y u.
  Proof. intros H. unfold put. by rewrite decide_True. Qed.
  Lemma put_out b y x u : u ∉ b -> put b y x u = x u.
  Proof. intros H. unfold put. by rewrite decide_False. Qed.
  Lemma put_ext b y y' x : (forall u, u ∈ b -> y u = y' u) -> put b y x = put b y' x.
  Proof. intros H. apply functional_extensionality. intros u. unfold put. case_decide; [by apply H|done]. Qed.

  (** a draw from the full conditional keeps it *)
  Lemma draws_keeps (test : ((vid -> D) -> R) -> Prop) w B :
    (forall a c, b_own B (fun y => a y * c)%R = (b_own B a * c)%R) ->
    (forall x, b_own B (fun y => w (put (b_vars B) y x)) <> 0%R) ->
    draws_conditional test w B -> keeps_conditional test w B.
  Proof.
    intros Hlin Hnz Hd x g Hg.
    set (A := b_own B (fun y => w (put (b_vars B) y x) * g (put (b_vars B) y x))%R).
    set (Z := b_own B (fun y => w (put (b_vars B) y x))).
    transitivity (b_own B (fun y => w (put (b_vars B) y x) * (A / Z))%R).
    - f_equal. apply functional_extensionality. intros y. rewrite (Hd (put (b_vars B) y x) g Hg).
      f_equal. unfold A, Z. f_equal; [|f_equal]; f_equal; apply functional_extensionality; intros z; by rewrite put_put.
    - rewrite Hlin. fold Z. pose proof (Hnz x) as Hz. fold Z in Hz. field. exact Hz.
  Qed.

  (** the blocks one after the other *)
  Fixpoint sweep bs (x : vid -> D) : law (vid -> D) :=
    fun g => match bs with [] => g x | B :: bs' => kernel B x (fun x' => sweep bs' x' g) end.

  Section target.
    Context (test : ((vid -> D) -> R) -> Prop) (mu : law (vid -> D)) (w : (vid -> D) -> R).

    Lemma sweep_test bs g : (forall B, B ∈ bs -> targets test mu w B) -> test g -> test (fun x => sweep bs x g).
    Proof.
      induction bs as [|B bs IH]; intros Hb Hg; [done|]. cbn [sweep].
      apply (tg_test _ _ _ _ (Hb B ltac:(by left))). apply IH; [|done]. intros B' HB. apply Hb. by right.
    Qed.

    Lemma sweep_keeps bs g : (forall B, B ∈ bs -> targets test mu w B) -> test g ->
      mu (fun x => w x * sweep bs x g)%R = mu (fun x => w x * g x)%R.
    Proof.
      induction bs as [|B bs IH]; intros Hb Hg; [done|]. cbn [sweep].
      pose proof (Hb B ltac:(by left)) as [H1 H2 H3].
      assert (Hb' : forall B', B' ∈ bs -> targets test mu w B') by (intros B' HB; apply Hb; by right).
      pose proof (sweep_test bs g Hb' Hg) as Ht.
      rewrite (H1 _ (H2 _ Ht)). rewrite <- (IH Hb' Hg). rewrite (H1 _ Ht).
      f_equal. apply functional_extensionality. intros x. exact (H3 x _ Ht).
    Qed.
  End target.

  (** the values after the steps, with all the generators known *)
  Definition run bs (x e : vid -> D) : vid -> D :=
    foldl (fun x B => put (b_vars B) (b_step B x e) x) x bs.

  Lemma draw_gens_ext bs : forall e f f',
    (forall e', (forall u, (forall B, B ∈ bs -> u ∉ b_gens B) -> e' u = e u) -> f e' = f' e') ->
    draw_gens bs e f = draw_gens bs e f'.
  Proof.
    induction bs as [|B bs IH]; intros e f f' Hf; cbn [draw_gens]; [by apply Hf|].
    f_equal. apply functional_extensionality. intros eB. apply IH. intros e' He'. apply Hf. intros u Hu.
    rewrite He'; [apply put_out, Hu; by left|]. intros B' HB. apply Hu. by right.
  Qed.

  Lemma draw_run bs : forall x e f,
    NoDup (concat (b_gens <$> bs)) ->
    (forall B x e e', B ∈ bs -> (forall g, g ∈ b_gens B -> e g = e' g) ->
      forall r, r ∈ b_vars B -> b_step B x e r = b_step B x e' r) ->
    draw_gens bs e (fun e' => f (run bs x e')) = sweep bs x f.
  Proof.
    induction bs as [|B bs IH]; intros x e f Hnd Hown; [done|].
    cbn in Hnd. apply NoDup_app in Hnd as (_ & Hdis & Hnd).
    cbn [draw_gens sweep]. unfold kernel, run. cbn [foldl]. f_equal. apply functional_extensionality. intros eB.
    rewrite <- (IH (put (b_vars B) (b_step B x eB) x) (put (b_gens B) eB e) f Hnd).
    2:{ intros B' x' e1 e2 HB. apply Hown. by right. }
    apply draw_gens_ext. intros e' He'. unfold run. do 2 f_equal. apply put_ext. intros u Hu.
    apply Hown; [by left| |done]. intros g Hg. rewrite He'; [by apply put_in|].
    intros B' HB Hin. apply (Hdis g Hg). by eapply in_blocks.
  Qed.
End sweep.

Lemma evals_more {D} (base : op -> list D -> option (list D)) cval h (rho env : vid -> option D) v x :
  (forall u y, rho u = Some y -> env u = Some y) ->
  (forall u, rho u = None -> is_Some (env u) -> owner h u = None /\ is_constant h u = false) ->
  evals base cval h rho v x -> evals base cval h env v x.
Proof.
  intros Hsub Hnew.
  assert ((forall v x, evals base cval h rho v x -> evals base cval h env v x) /\
    (forall vs xs, evals_list base cval h rho vs xs -> evals_list base cval h env vs xs)) as [H _]; [|by apply H].
  apply evals_mutind.
  - intros u y Hu. apply ev_given. by apply Hsub.
  - intros u y c Hu Hy Ho Hk. eapply ev_const; eauto. destruct (env u) as [z|] eqn:Hz; [|done].
    destruct (Hnew u Hu ltac:(by eauto)) as [_ Hc]. unfold is_constant in Hc. rewrite Hy in Hc.
    destruct y as [? ? k ?]. cbn in Hk. subst k. done.
  - intros u n i nd xs ys y Hu Ho Hn Hl IH Hs Hi. eapply (ev_app _ _ _ _ _ n i nd); eauto.
    destruct (env u) as [z|] eqn:Hz; [|done]. destruct (Hnew u Hu ltac:(by eauto)) as [Hc _]. congruence.
  - constructor.
  - intros. by constructor.
Qed.

Section scan_blocks.
  Context {D : Type} (base : op -> list D -> option (list D)) (cval : nat -> D) (h : heap)
    (obs : dict nat nat) (fnd : dict nat (list found)) (outs : list vid) (inits : dict nat nat)
    (rho : vid -> option D) (data : vid -> D) (ok : (vid -> D) -> (vid -> D) -> Prop) (bs : list (step_block D)) (N : step_block D).
  Hypothesis Hdc : discovered base cval h obs fnd outs inits rho data ok bs N.
  Context (e : vid -> D) (env : vid -> option D) (x0 : vid -> D).
  Hypothesis Hin : inputs h inits (bs ++ [N]) rho x0 e env.
  Notation pin := (put (dkeys obs) data).
  Notation sampled := (fun r : vid => r ∉ dkeys obs /\ is_Some (chosen fnd r)).
  Notation SC := (scan base cval h env obs fnd).

  Lemma scan_skips l first sigma ups : filter sampled l = [] -> SC l first sigma ups sigma ups.
  Proof using.
    induction l as [|r l IH]; intros Hl; [constructor|]. rewrite filter_cons in Hl. case_decide as Hd; [done|].
    apply scan_skip; [|by apply IH]. destruct (decide (r ∈ dkeys obs)); [by left|right].
    destruct (chosen fnd r) eqn:Hc; [|done]. exfalso. apply Hd. split; [done|by eauto].
  Qed.

  Lemma Forall2_exists {A C} (P : A -> C -> Prop) l : (forall a, a ∈ l -> exists c, P a c) -> exists cs, Forall2 P l cs.
  Proof using.
    induction l as [|a l IH]; intros H; [exists []; constructor|].
    destruct (H a ltac:(by left)) as [c Hc]. destruct IH as [cs Hcs]; [intros b Hb; apply H; by right|].
    exists (c :: cs). by constructor.
  Qed.

  Lemma scan_blocks l : forall B p c bs2 x first ups,
    ok x e -> (forall B', B' ∈ B :: bs2 -> B' ∈ bs) -> b_vars B = p ++ c ->
    (forall r, r ∈ l -> r ∈ outs) ->
    NoDup (b_vars B ++ concat (b_vars <$> bs2)) ->
    filter sampled l = c ++ concat (b_vars <$> bs2) ->
    (forall r f n i, r ∈ b_vars B -> chosen fnd r = Some f -> owner h (f_step f) = Some (n, i) ->
       first n = match p with [] => None | _ => Some (on outs (pin x)) end) ->
    (forall B2 r f n i, B2 ∈ bs2 -> r ∈ b_vars B2 -> chosen fnd r = Some f -> owner h (f_step f) = Some (n, i) ->
       first n = None) ->
    exists ups', SC l first (on outs (pin (put p (b_step B x e) x))) ups
      (on outs (pin (run bs2 (put (b_vars B) (b_step B x e) x) e))) ups'.
  Proof using Hdc Hin.
    induction l as [|r l IH]; intros B p c bs2 x first ups Hok HB Hp Hl Hnd Hfl Hf1 Hf2.
    { cbn in Hfl. symmetry in Hfl. apply app_eq_nil in Hfl as [-> Hc]. rewrite app_nil_r in Hp. rewrite <- Hp.
      exists ups. destruct bs2 as [|B2 bs2]; [constructor|]. exfalso.
      cbn in Hc. apply app_eq_nil in Hc as [Hc _]. apply (dc_nonempty _ _ _ _ _ _ _ _ _ _ _ _ Hdc B2); [apply HB; right; by left|done]. }
    assert (Hl' : forall r0, r0 ∈ l -> r0 ∈ outs) by (intros r0 Hr0; apply Hl; by right).
    rewrite filter_cons in Hfl. case_decide as Hd.
    2:{ destruct (IH B p c bs2 x first ups Hok HB Hp Hl' Hnd Hfl Hf1 Hf2) as [ups' Hsc]. exists ups'.
        apply scan_skip; [|done]. destruct (decide (r ∈ dkeys obs)); [by left|right].
        destruct (chosen fnd r) eqn:Hc; [|done]. exfalso. apply Hd. split; [done|by eauto]. }
    (* the step of [r], which is the next variable of the current block *)
    assert (Hstep : forall B p c bs2 x first ups,
      ok x e -> (forall B', B' ∈ B :: bs2 -> B' ∈ bs) -> b_vars B = p ++ r :: c ->
      NoDup (b_vars B ++ concat (b_vars <$> bs2)) ->
      filter sampled l = c ++ concat (b_vars <$> bs2) ->
      (forall r f n i, r ∈ b_vars B -> chosen fnd r = Some f -> owner h (f_step f) = Some (n, i) ->
         first n = match p with [] => None | _ => Some (on outs (pin x)) end) ->
      (forall B2 r f n i, B2 ∈ bs2 -> r ∈ b_vars B2 -> chosen fnd r = Some f -> owner h (f_step f) = Some (n, i) ->
         first n = None) ->
      exists ups', SC (r :: l) first (on outs (pin (put p (b_step B x e) x))) ups
        (on outs (pin (run bs2 (put (b_vars B) (b_step B x e) x) e))) ups').
    { clear B p c bs2 x first ups Hok HB Hp Hnd Hfl Hf1 Hf2.
      intros B p c bs2 x first ups Hok HB Hp Hnd Hfl Hf1 Hf2.
      destruct Hd as [Hro [f Hf]].
      assert (HrB : r ∈ b_vars B) by (rewrite Hp; apply elem_of_app; right; by left).
      assert (HBin : B ∈ bs) by (apply HB; by left).
      destruct (dc_owned _ _ _ _ _ _ _ _ _ _ _ _ Hdc B r f HBin HrB Hf) as [[n i] Ho].
      destruct (dc_step _ _ _ _ _ _ _ _ _ _ _ _ Hdc B r f x x0 e env HBin HrB Hf Hok Hin) as [Hev Hups].
      destruct (Forall2_exists _ _ Hups) as [ys Hys].
      assert (Htau : default (on outs (pin (put p (b_step B x e) x))) (first n) = on outs (pin x)).
      { rewrite (Hf1 r f n i HrB Hf Ho). destruct p; [|done]. cbn. do 2 f_equal. }
      assert (Hsig : upd (on outs (pin (put p (b_step B x e) x))) r (b_step B x e r) =
        on outs (pin (put (p ++ [r]) (b_step B x e) x))).
      { apply functional_extensionality. intros u. unfold upd, on. case_decide as Hu.
        - subst u. rewrite decide_True by (apply Hl; by left). f_equal.
          rewrite put_out by done. rewrite put_in; [done|]. apply elem_of_app. right. by left.
        - case_decide; [|done]. f_equal. unfold put. case_decide; [done|]. f_equal.
          case_decide as H1; case_decide as H2; try done.
          + exfalso. apply H2, elem_of_app. by left.
          + exfalso. apply elem_of_app in H2 as [H2|H2%elem_of_list_singleton]; done. }
      destruct (IH B (p ++ [r]) c bs2 x (upd first n (on outs (pin x)))
        (foldl (fun s q => upd s q.1 q.2) ups (zip (dkeys (f_updates f)) ys))) as [ups' Hsc]; try done.
      - by rewrite Hp, <- app_assoc.
      - intros r1 f1 n1 i1 Hr1 Hc1 Ho1. destruct (dc_joint _ _ _ _ _ _ _ _ _ _ _ _ Hdc B r r1 f f1 n i HBin HrB Hr1 Hf Hc1 Ho) as [j Hj].
        rewrite Hj in Ho1. injection Ho1 as <- <-. unfold upd. rewrite decide_True by done. by destruct p.
      - intros B2 r1 f1 n1 i1 HB2 Hr1 Hc1 Ho1. unfold upd. case_decide as Hn; [|by eapply Hf2].
        exfalso. subst n1.
        pose proof (dc_apart _ _ _ _ _ _ _ _ _ _ _ _ Hdc B B2 r r1 f f1 n i i1 HBin ltac:(apply HB; by right) HrB Hr1 Hf Hc1 Ho Ho1) as Heq.
        apply NoDup_app in Hnd as (_ & Hdis & _). apply (Hdis r1); [by rewrite Heq|]. by eapply in_blocks.
      - exists ups'. eapply scan_step; [done|done|done|reflexivity| | |].
        + rewrite Htau. exact Hev.
        + rewrite Htau. exact Hys.
        + rewrite Htau, Hsig. exact Hsc. }
    destruct c as [|r' c].
    - rewrite app_nil_r in Hp. subst p. cbn in Hfl. destruct bs2 as [|B2 bs3]; [done|].
      assert (HB2 : B2 ∈ bs) by (apply HB; right; by left).
      pose proof (dc_nonempty _ _ _ _ _ _ _ _ _ _ _ _ Hdc B2 HB2) as Hne.
      destruct (b_vars B2) as [|r' c2] eqn:Hb2; [done|]. cbn in Hfl. rewrite Hb2 in Hfl. injection Hfl as <- Hfl.
      destruct (Hstep B2 [] c2 bs3 (put (b_vars B) (b_step B x e) x) first ups) as [ups' Hsc].
      + apply (dc_ok _ _ _ _ _ _ _ _ _ _ _ _ Hdc B x e); [|done]. apply HB. by left.
      + intros B' HB'. apply HB. by right.
      + done.
      + apply NoDup_app in Hnd as (_ & _ & Hnd). cbn in Hnd. exact Hnd.
      + done.
      + intros r1 f1 n1 i1 Hr1 Hc1 Ho1. eapply Hf2; [by left| |done|done]. done.
      + intros B3 r1 f1 n1 i1 HB3. eapply Hf2. by right.
      + exists ups'. unfold run. cbn [foldl]. exact Hsc.
    - injection Hfl as <- Hfl. by eapply Hstep.
  Qed.

  Lemma scan_all x : ok x e -> NoDup outs ->
    exists ups', SC outs (fun _ => None) (on outs (pin x)) (fun _ => None) (on outs (pin (run bs x e))) ups'.
  Proof using Hdc Hin.
    intros Hok Hnd. pose proof (dc_vars _ _ _ _ _ _ _ _ _ _ _ _ Hdc) as Hv. destruct bs as [|B bs'] eqn:Hbs.
    - exists (fun _ => None). cbn [run foldl]. apply scan_skips. by rewrite <- Hv.
    - rewrite <- Hbs in *. destruct (scan_blocks outs B [] (b_vars B) bs' x (fun _ => None) (fun _ => None)) as [ups' Hsc]; try done.
      + intros B' HB'. by rewrite Hbs.
      + rewrite Hbs in Hv. cbn in Hv. rewrite Hv. by apply NoDup_filter.
      + rewrite <- Hv, Hbs. done.
      + exists ups'. rewrite Hbs. exact Hsc.
  Qed.
End scan_blocks.

Section sampler_sweep.
  Context (o : oracles) (h : heap) (obs : dict nat nat) (topo topo_rv : list nid).
  Hypothesis Hct : contracts o.
  Hypothesis Hm : model_ok h obs.
  Hypothesis Htopo : topo_order h (dkeys obs) topo.
  Hypothesis Htopo_rv : topo_order h (rv_outputs h topo) topo_rv.
  Context (s : sampler) {D : Type} (base : op -> list D -> option (list D)) (cval : nat -> D)
    (i : ir) (outs : list vid) (inits : dict nat nat) (st0 : state)
    (rho : vid -> option D) (data : vid -> D) (ok : (vid -> D) -> (vid -> D) -> Prop) (bs : list (step_block D)) (N : step_block D).
  Hypothesis Hs : construct_sampler o h obs topo topo_rv = Ok s.
  Hypothesis Hi : sampler_init o h obs topo topo_rv = (i, outs, inits, st0).
  Hypothesis Hsep : forall r1 r2 f g, r1 ∈ outs -> r2 ∈ outs -> r1 ∉ dkeys (ir_obs i) -> r2 ∉ dkeys (ir_obs i) -> r1 <> r2 ->
    chosen (st_found st0) r1 = Some f -> chosen (st_found st0) r2 = Some g -> separated (st_heap st0) outs f g.
  Hypothesis Hcur : forall rv g x v m j, rv ∈ outs -> rv ∉ dkeys (ir_obs i) -> chosen (st_found st0) rv = Some g ->
    x ∈ dvalues obs -> cut_reachable (st_heap st0) outs (roots_of g) v -> v ∉ outs ->
    owner (st_heap st0) v = Some (m, j) -> reads_model (st_heap st0) outs m -> ~ node_reachable h [x] m.
  Hypothesis Hdc : discovered base cval (st_heap st0) (ir_obs i) (st_found st0) outs inits rho data ok bs N.
  Hypothesis Hnuts : forall x z e env, ok x e -> ok z e ->
    inputs (s_heap s) inits (bs ++ [N]) rho x e env ->
    (forall rv v, dget (s_steps s) rv = Some v -> sampler_for o h obs topo topo_rv rv <> None ->
       evals base cval (s_heap s) env v (z (memo_get (ir_memo i) rv))) ->
    (forall u, u ∈ b_vars N -> z u = x u) ->
    forall rv v, dget (s_steps s) rv = Some v -> sampler_for o h obs topo topo_rv rv = None ->
      evals base cval (s_heap s) env v (b_step N z e (memo_get (ir_memo i) rv)).

  Lemma run_notin l x e u : (forall B, B ∈ l -> u ∉ b_vars B) -> run (D := D) l x e u = x u.
  Proof using.
    revert x. induction l as [|B l IH]; intros x Hu; [done|]. unfold run in *. cbn [foldl].
    rewrite IH; [apply put_out, Hu; by left|]. intros B' HB. apply Hu. by right.
  Qed.

  Lemma run_ok l x e : (forall B, B ∈ l -> B ∈ bs) -> ok x e -> ok (run l x e) e.
  Proof using Hdc.
    revert x. induction l as [|B l IH]; intros x Hl Hx; [done|]. unfold run in *. cbn [foldl].
    apply IH; [intros B' HB; apply Hl; by right|]. apply (dc_ok _ _ _ _ _ _ _ _ _ _ _ _ Hdc); [apply Hl; by left|done].
  Qed.

  Lemma sampler_run x e env : ok x e ->
    inputs (s_heap s) inits (bs ++ [N]) rho x e env ->
    forall rv v, dget (s_steps s) rv = Some v ->
      evals base cval (s_heap s) env v (run (bs ++ [N]) x e (memo_get (ir_memo i) rv)).
  Proof using All.
    intros Hok Hin.
    destruct (sampler_parts o h obs topo topo_rv Hct Hm Htopo Htopo_rv s Hs) as (i' & outs' & inits' & st0' & st & pss & Hp).
    pose proof (pt_init _ _ _ _ _ _ _ _ _ _ _ _ Hp) as Hi'. rewrite Hi in Hi'. injection Hi' as <- <- <- <-.
    pose proof (pt_facts _ _ _ _ _ _ _ _ _ _ _ _ Hp) as Hf. pose proof (pt_nuts _ _ _ _ _ _ _ _ _ _ _ _ Hp) as Hn.
    assert (Hhv : forall u y, hv (st_heap st0) u = Some y -> hv (s_heap s) u = Some y).
    { intros u y Hu. apply (nf_ext _ _ _ _ _ _ Hn). by apply (fr_evolves _ _ (pt_frame _ _ _ _ _ _ _ _ _ _ _ _ Hp)). }
    set (env0 := fun u => match hv (st_heap st0) u with Some _ => env u | None => None end).
    assert (Hin0 : inputs (st_heap st0) inits (bs ++ [N]) rho x e env0).
    { destruct Hin as [H1 H2 H3 H4]. constructor.
      - intros u Hu. unfold env0 in Hu. destruct (hv (st_heap st0) u) as [y|] eqn:Hy; [|by destruct Hu].
        destruct (H1 u Hu) as (_ & Ho & Hc). split_and!; [by eauto| |].
        + unfold owner in *. rewrite (Hhv u y Hy) in Ho. by rewrite Hy.
        + unfold is_constant in *. rewrite (Hhv u y Hy) in Hc. by rewrite Hy.
      - intros k q Hkq. unfold env0.
        assert (Hq : is_Some (hv (st_heap st0) q)).
        { assert (Hk : k ∈ outs).
          { assert (Hk : k ∈ dkeys inits) by (apply elem_of_list_fmap; by exists (k, q)).
            rewrite (if_inits_keys _ _ _ _ _ _ _ _ Hf) in Hk. by apply elem_of_list_filter in Hk as [_ Hk]. }
          rewrite (if_outs _ _ _ _ _ _ _ _ Hf) in Hk. apply elem_of_list_fmap in Hk as (rv & -> & Hrv).
          destruct (if_inits _ _ _ _ _ _ _ _ Hf rv q Hrv Hkq) as (_ & y & _ & Hy). by eauto. }
        destruct Hq as [y Hy]. rewrite Hy. by apply H2.
      - intros B g HB Hg [y Hy]. unfold env0. rewrite Hy. apply (H3 B g HB Hg). exists y. by apply Hhv.
      - intros u [y Hy] Hu Hg. unfold env0. rewrite Hy. apply H4; [|done|done]. exists y. by apply Hhv. }
    assert (Hlift : forall v y, evals base cval (s_heap s) env0 v y -> evals base cval (s_heap s) env v y).
    { intros v y. apply evals_more.
      - intros u z Hu. unfold env0 in Hu. by destruct (hv (st_heap st0) u).
      - intros u _ Hu. by destruct (in_leaves _ _ _ _ _ _ _ Hin u Hu) as (_ & ? & ?). }
    assert (Hleaf : leaf_env (st_heap st0) env0).
    { intros u Hu. by destruct (in_leaves _ _ _ _ _ _ _ Hin0 u Hu) as (? & ? & _). }
    pose proof (if_nodup _ _ _ _ _ _ _ _ Hf) as Hnd.
    destruct (scan_all base cval _ _ _ _ _ _ _ _ _ _ Hdc e env0 x Hin0 x Hok Hnd) as [ups' Hscan].
    destruct (scan_steps o h obs topo topo_rv Hct Hm Htopo Htopo_rv s base cval env0 i outs inits st0 Hs Hi Hleaf Hsep Hcur
      (on outs (put (dkeys (ir_obs i)) data x)) (on outs (put (dkeys (ir_obs i)) data (run bs x e))) ups') as [Hval _]; try done.
    { intros u Hu. unfold on. by rewrite decide_False. }
    { intros k v Hkv. unfold on. apply elem_of_app in Hkv as [Hkv|Hkv].
      - assert (Hk : k ∈ dkeys inits) by (apply elem_of_list_fmap; by exists (k, v)).
        rewrite (if_inits_keys _ _ _ _ _ _ _ _ Hf) in Hk. apply elem_of_list_filter in Hk as [Hko Hk].
        rewrite decide_True by done. eexists. split; [reflexivity|]. rewrite put_out by done.
        apply ev_given. by apply (in_init _ _ _ _ _ _ _ Hin0).
      - assert (Hk : k ∈ dkeys (ir_obs i)) by (apply elem_of_list_fmap; by exists (k, v)).
        rewrite decide_True by (by apply (if_obs_in _ _ _ _ _ _ _ _ Hf)). eexists. split; [reflexivity|].
        rewrite put_in by done. by apply (dc_data _ _ _ _ _ _ _ _ _ _ _ _ Hdc k v x e env0). }
    assert (Hmem : forall rv v, dget (s_steps s) rv = Some v ->
      memo_get (ir_memo i) rv ∈ outs /\ memo_get (ir_memo i) rv ∉ dkeys (ir_obs i)).
    { intros rv v Hv. apply (pt_steps _ _ _ _ _ _ _ _ _ _ _ _ Hp) in Hv as (H1 & H2 & _). split.
      - rewrite (if_outs _ _ _ _ _ _ _ _ Hf). apply elem_of_list_fmap. by exists rv.
      - by rewrite (pt_obs _ _ _ _ _ _ _ _ _ _ _ _ Hp rv H1). }
    assert (Hsampled : forall rv v, dget (s_steps s) rv = Some v -> sampler_for o h obs topo topo_rv rv <> None ->
      evals base cval (s_heap s) env v (run bs x e (memo_get (ir_memo i) rv))).
    { intros rv v Hv Hsf. destruct (sampler_for o h obs topo topo_rv rv) as [f|] eqn:Hfr; [|done].
      destruct (Hval rv v f Hfr Hv) as (y & Hy & Hev). destruct (Hmem rv v Hv) as [M1 M2].
      unfold on in Hy. rewrite decide_True in Hy by done. rewrite put_out in Hy by done. injection Hy as Hy.
      rewrite Hy. by apply Hlift. }
    intros rv v Hv. destruct (Hmem rv v Hv) as [M1 M2].
    unfold run. rewrite foldl_app. cbn [foldl]. fold (run bs x e).
    pose proof (pt_for _ _ _ _ _ _ _ _ _ _ _ _ Hp rv) as Hfor.
    destruct (sampler_for o h obs topo topo_rv rv) as [f|] eqn:Hfr.
    - rewrite put_out; [apply (Hsampled rv v Hv); by rewrite Hfr|].
      rewrite (dc_left _ _ _ _ _ _ _ _ _ _ _ _ Hdc), elem_of_list_filter. intros [[_ Hc] _]. congruence.
    - rewrite put_in.
      2:{ rewrite (dc_left _ _ _ _ _ _ _ _ _ _ _ _ Hdc), elem_of_list_filter. by split_and!. }
      apply (Hnuts x (run bs x e) e env Hok (run_ok bs x e (fun B HB => HB) Hok) Hin Hsampled); [|done|done].
      intros u Hu. apply run_notin. intros B HB HuB.
      rewrite (dc_left _ _ _ _ _ _ _ _ _ _ _ _ Hdc) in Hu. apply elem_of_list_filter in Hu as [[_ Hu] _].
      assert (Hc : u ∈ concat (b_vars <$> bs)) by (by eapply in_blocks).
      rewrite (dc_vars _ _ _ _ _ _ _ _ _ _ _ _ Hdc) in Hc. apply elem_of_list_filter in Hc as [[_ [? Hc]] _]. congruence.
  Qed.

  Lemma sampler_keeps (test : ((vid -> D) -> R) -> Prop) (mu : law (vid -> D)) (w : (vid -> D) -> R) :
    (forall B, B ∈ bs ++ [N] -> targets test mu w B) ->
    exists out : (vid -> D) -> (vid -> D) -> vid -> D,
      (forall x e env, ok x e -> inputs (s_heap s) inits (bs ++ [N]) rho x e env ->
         forall rv v, dget (s_steps s) rv = Some v ->
           evals base cval (s_heap s) env v (out x e (memo_get (ir_memo i) rv))) /\
      (forall x e u, (forall B, B ∈ bs ++ [N] -> u ∉ b_vars B) -> out x e u = x u) /\
      forall e g, test g ->
        mu (fun x => w x * draw_gens (bs ++ [N]) e (fun e' => g (out x e')))%R = mu (fun x => w x * g x)%R.
  Proof using All.
    intros Ht. exists (run (bs ++ [N])). split_and!.
    - exact sampler_run.
    - intros x e u Hu. by apply run_notin.
    - intros e g Hg. rewrite <- (sweep_keeps test mu w (bs ++ [N]) g Ht Hg). f_equal.
      apply functional_extensionality. intros x. f_equal. apply draw_run.
      + exact (dc_gens _ _ _ _ _ _ _ _ _ _ _ _ Hdc).
      + intros B x' e1 e2 HB. exact (dc_own _ _ _ _ _ _ _ _ _ _ _ _ Hdc B x' e1 e2 HB).
  Qed.
End sampler_sweep.
