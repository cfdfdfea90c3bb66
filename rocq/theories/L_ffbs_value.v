(** Lemmas for C68: the values that the graph of ffbs_step computes. *)
From Verif Require Export S_ffbs_graph L_ffbs_graph L_code_value.
Global Open Scope nat_scope.

Section values.
  Context {D : Type} (base : op -> list D -> option (list D)) (cval : nat -> D) (B : builder).
  Notation ev h rho := (evals base cval h rho).
  Context (Hsh : forall order x, base (ODimShuffle order) [x] = Some [x]).

  Definition old_only (h : heap) (rho : vid -> option D) : Prop := forall v, hv h v = None -> rho v = None.
  Definition kept (rho : vid -> option D) (h h' : heap) (v : vid) (x : D) : Prop :=
    extends h h' /\ good_heap h' /\ is_Some (hv h' v) /\ ev h' rho v x.
  Definition ok (rho : vid -> option D) (h : heap) (v : vid) (x : D) : Prop := is_Some (hv h v) /\ ev h rho v x.

  Lemma old_up h h' rho : extends h h' -> old_only h rho -> old_only h' rho.
  Proof. intros E H v Hv. apply H. by eapply back. Qed.
  Lemma ok_up rho h h' v x : good_heap h -> extends h h' -> ok rho h v x -> ok rho h' v x.
  Proof. intros G E [S H]. split; [by eapply extends_some|]. by apply (extends_evals_iff base cval h h' rho); [apply G| | |]. Qed.
  Lemma oks_up rho h h' vs xs : good_heap h -> extends h h' -> Forall2 (ok rho h) vs xs -> Forall2 (ok rho h') vs xs.
  Proof. intros G E H. eapply Forall2_impl; [exact H|]. intros. by eapply ok_up. Qed.

  Lemma kept_apply1 rho h o ins ty xs z : (forall s a, o <> OSubsume s a) -> good_heap h -> old_only h rho ->
    Forall2 (ok rho h) ins xs -> base o xs = Some [z] -> kept rho h (apply1 h o ins ty).1 (apply1 h o ins ty).2 z.
  Proof.
    intros Ho Hg Hold Hl Hb.
    assert (Hins : forall u, u ∈ ins -> is_Some (hv h u)).
    { intros u Hu. apply elem_of_list_lookup in Hu as [i Hi]. destruct (Forall2_lookup_l _ _ _ _ _ Hl Hi) as (t & _ & [? _]). done. }
    pose proof (alloc_node_extends h o ins [(None, ty)]) as E. pose proof (alloc_node_good h o ins [(None, ty)] Ho Hins Hg) as G.
    destruct (alloc_node_spec h o ins [(None, ty)]) as (_ & _ & Hfr & Hval & _ & _ & Hn & _).
    rewrite apply1_alloc in *. cbn [fst snd] in *. specialize (Hval 0 _ None ty eq_refl eq_refl). specialize (Hfr _ ltac:(by left)).
    split; [done|]. split; [done|]. split; [by eauto|]. eapply ev_app; [by apply Hold|unfold owner; rewrite Hval; reflexivity|exact Hn| | |].
    - cbn. apply evals_list_Forall2. eapply Forall2_impl; [exact (oks_up _ _ _ _ _ Hg E Hl)|]. by intros ? ? [_ ?].
    - cbn. destruct o; try exact Hb. by edestruct Ho.
    - done.
  Qed.
  Lemma kept_pad rho n h v x : good_heap h -> old_only h rho -> ok rho h v x -> kept rho h (pad_var B n h v).1 (pad_var B n h v).2 x.
  Proof.
    intros Hg Ho Hv. unfold pad_var. case_decide; cbn [fst snd]; [split; [apply extends_refl|]; split; [done|]; exact Hv|].
    eapply kept_apply1; [done|done|done|constructor; [exact Hv|constructor]|apply Hsh].
  Qed.
  Lemma kept_pads rho n vs : forall h xs, good_heap h -> old_only h rho -> Forall2 (ok rho h) vs xs ->
    let r := pad_vars B n h vs in extends h r.1 /\ good_heap r.1 /\ Forall2 (ok rho r.1) r.2 xs.
  Proof.
    induction vs as [|v vs IH]; intros h xs Hg Ho H; cbn [pad_vars].
    - apply Forall2_nil_inv_l in H as ->. cbn. split; [apply extends_refl|]. by split.
    - apply Forall2_cons_inv_l in H as (x & xs' & Hx & Hxs & ->). pose proof (kept_pad rho n h v x Hg Ho Hx) as H1.
      destruct (pad_var B n h v) as [h1 w]. cbn [fst snd] in H1. destruct H1 as (E1 & G1 & S1).
      specialize (IH h1 xs' G1 (old_up _ _ _ E1 Ho) (oks_up _ _ _ _ _ Hg E1 Hxs)). destruct (pad_vars B n h1 vs) as [h2 ws]. cbn in *.
      destruct IH as (E2 & G2 & H2). split; [by eapply extends_trans|]. split; [done|]. constructor; [exact (ok_up _ _ _ _ _ G1 E2 S1)|done].
  Qed.
  Lemma kept_elem rho h s vs xs z : good_heap h -> old_only h rho -> Forall2 (ok rho h) vs xs -> base (OElem s) xs = Some [z] ->
    kept rho h (mk_elem B h s vs).1 (mk_elem B h s vs).2 z.
  Proof.
    intros Hg Ho H Hz. unfold mk_elem. pose proof (kept_pads rho (foldr Nat.max 0 ((fun v => a_ndim B (ty_def h v)) <$> vs)) vs h xs Hg Ho H) as H1.
    destruct (pad_vars _ _ _ _) as [h1 ws]. cbn in H1. destruct H1 as (E1 & G1 & H1).
    pose proof (kept_apply1 rho h1 (OElem s) ws (b_elem B s (ty_def h <$> vs)) xs z ltac:(done) G1 (old_up _ _ _ E1 Ho) H1 Hz) as (E2 & H2).
    split; [by eapply extends_trans|done].
  Qed.

  (** the value of an expression; the constants that occur are integers *)
  Fixpoint val (vals : list D) (e : expr) : option D :=
    match e with
    | EV i => vals !! i
    | EInt z => Some (cval (b_int B z).1)
    | E1 s a => x ← val vals a; r ← base (OElem s) [x]; match r with [z] => Some z | _ => None end
    | EDot a b => x ← val vals a; y ← val vals b; r ← base (OOther K_dot) [x; y]; match r with [z] => Some z | _ => None end
    | E2 s a b => x ← val vals a; y ← val vals b; r ← base (OElem s) [x; y]; match r with [z] => Some z | _ => None end
    | F1 k a => x ← val vals a; r ← base (fun_op k) [x]; match r with [z] => Some z | _ => None end
    | F2 k a b => x ← val vals a; y ← val vals b; r ← base (fun_op k) [x; y]; match r with [z] => Some z | _ => None end
    | F3 k a b c => x ← val vals a; y ← val vals b; w ← val vals c; r ← base (fun_op k) [x; y; w]; match r with [z] => Some z | _ => None end
    | _ => None
    end.

  Lemma one_inv (r : option (list D)) t : (r ≫= fun l => match l with [z] => Some z | _ => None end) = Some t -> r = Some [t].
  Proof. destruct r as [[|a [|]]|]; cbn; congruence. Qed.

  Lemma kept_expr rho env vals e : forall h t, good_heap h -> old_only h rho -> Forall2 (ok rho h) env vals -> val vals e = Some t ->
    kept rho h (mk_expr B env h e).1 (mk_expr B env h e).2 t.
  Proof.
    induction e as [i|z|z| |s a IHa|s a IHa b IHb|order a IHa|a IHa b IHb|k a IHa|k a IHa b IHb|k a IHa b IHb c IHc];
      intros h t Hg Ho He Hv; cbn [mk_expr val] in *; try done.
    - destruct (Forall2_lookup_r _ _ _ _ _ He Hv) as (v & Hl & Hok). rewrite Hl. cbn. split; [apply extends_refl|]. by split.
    - injection Hv as <-. unfold mk_const. set (w := Var None (b_int B z).2 (KConst (b_int B z).1) None).
      pose proof (alloc_var_new h w) as Hn. pose proof (alloc_var_fresh h w) as Hf.
      split; [apply alloc_var_extends|]. split; [by apply alloc_var_good|]. split; [by eauto|]. eapply ev_const; [by apply Ho|exact Hn|done|done].
    - destruct (val vals a) as [x|] eqn:Ha; [|done]. cbn in Hv. apply one_inv in Hv.
      specialize (IHa h x Hg Ho He eq_refl). destruct (mk_expr B env h a) as [h1 u]. cbn [fst snd] in IHa. destruct IHa as (E1 & G1 & V1).
      destruct (kept_elem rho h1 s [u] [x] t G1 (old_up _ _ _ E1 Ho)) as (E3 & H3); [constructor; [exact V1|constructor]|done|].
      split; [by eapply extends_trans|done].
    - destruct (val vals a) as [x|] eqn:Ha; [|done]. destruct (val vals b) as [y|] eqn:Hb; [|done]. cbn in Hv. apply one_inv in Hv.
      specialize (IHa h x Hg Ho He eq_refl). destruct (mk_expr B env h a) as [h1 u]. cbn [fst snd] in IHa. destruct IHa as (E1 & G1 & V1).
      specialize (IHb h1 y G1 (old_up _ _ _ E1 Ho) (oks_up _ _ _ _ _ Hg E1 He) eq_refl). destruct (mk_expr B env h1 b) as [h2 w]. cbn [fst snd] in IHb. destruct IHb as (E2 & G2 & V2).
      pose proof (extends_trans _ _ _ E1 E2) as E12.
      destruct (kept_elem rho h2 s [u; w] [x; y] t G2 (old_up _ _ _ E12 Ho)) as (E3 & H3); [constructor; [exact (ok_up _ _ _ _ _ G1 E2 V1)|constructor; [exact V2|constructor]]|done|].
      split; [by eapply extends_trans|done].
    - destruct (val vals a) as [x|] eqn:Ha; [|done]. destruct (val vals b) as [y|] eqn:Hb; [|done]. cbn in Hv. apply one_inv in Hv.
      specialize (IHa h x Hg Ho He eq_refl). destruct (mk_expr B env h a) as [h1 u]. cbn [fst snd] in IHa. destruct IHa as (E1 & G1 & V1).
      specialize (IHb h1 y G1 (old_up _ _ _ E1 Ho) (oks_up _ _ _ _ _ Hg E1 He) eq_refl). destruct (mk_expr B env h1 b) as [h2 w]. cbn [fst snd] in IHb. destruct IHb as (E2 & G2 & V2).
      pose proof (extends_trans _ _ _ E1 E2) as E12.
      destruct (kept_apply1 rho h2 (OOther K_dot) [u; w] (b_dot B (ty_def h2 u) (ty_def h2 w)) [x; y] t ltac:(done) G2 (old_up _ _ _ E12 Ho)) as (E3 & H3); [constructor; [exact (ok_up _ _ _ _ _ G1 E2 V1)|constructor; [exact V2|constructor]]|done|].
      split; [by eapply extends_trans|done].
    - destruct (val vals a) as [x|] eqn:Ha; [|done]. cbn in Hv. apply one_inv in Hv.
      specialize (IHa h x Hg Ho He eq_refl). destruct (mk_expr B env h a) as [h1 u]. cbn [fst snd] in IHa. destruct IHa as (E1 & G1 & V1).
      destruct (kept_apply1 rho h1 (fun_op k) [u] (b_draw B h1 (fun_op k) [u]) [x] t ltac:(done) G1 (old_up _ _ _ E1 Ho)) as (E3 & H3); [constructor; [exact V1|constructor]|done|].
      split; [by eapply extends_trans|done].
    - destruct (val vals a) as [x|] eqn:Ha; [|done]. destruct (val vals b) as [y|] eqn:Hb; [|done]. cbn in Hv. apply one_inv in Hv.
      specialize (IHa h x Hg Ho He eq_refl). destruct (mk_expr B env h a) as [h1 u]. cbn [fst snd] in IHa. destruct IHa as (E1 & G1 & V1).
      specialize (IHb h1 y G1 (old_up _ _ _ E1 Ho) (oks_up _ _ _ _ _ Hg E1 He) eq_refl). destruct (mk_expr B env h1 b) as [h2 w]. cbn [fst snd] in IHb. destruct IHb as (E2 & G2 & V2).
      pose proof (extends_trans _ _ _ E1 E2) as E12.
      destruct (kept_apply1 rho h2 (fun_op k) [u; w] (b_draw B h2 (fun_op k) [u; w]) [x; y] t ltac:(done) G2 (old_up _ _ _ E12 Ho)) as (E3 & H3); [constructor; [exact (ok_up _ _ _ _ _ G1 E2 V1)|constructor; [exact V2|constructor]]|done|].
      split; [by eapply extends_trans|done].
    - destruct (val vals a) as [x|] eqn:Ha; [|done]. destruct (val vals b) as [y|] eqn:Hb; [|done]. destruct (val vals c) as [z|] eqn:Hc; [|done]. cbn in Hv. apply one_inv in Hv.
      specialize (IHa h x Hg Ho He eq_refl). destruct (mk_expr B env h a) as [h1 u]. cbn [fst snd] in IHa. destruct IHa as (E1 & G1 & V1).
      pose proof (oks_up _ _ _ _ _ Hg E1 He) as He1.
      specialize (IHb h1 y G1 (old_up _ _ _ E1 Ho) He1 eq_refl). destruct (mk_expr B env h1 b) as [h2 w]. cbn [fst snd] in IHb. destruct IHb as (E2 & G2 & V2).
      pose proof (extends_trans _ _ _ E1 E2) as E12.
      specialize (IHc h2 z G2 (old_up _ _ _ E12 Ho) (oks_up _ _ _ _ _ G1 E2 He1) eq_refl). destruct (mk_expr B env h2 c) as [h3 q]. cbn [fst snd] in IHc. destruct IHc as (E3 & G3 & V3).
      pose proof (extends_trans _ _ _ E12 E3) as E13. pose proof (extends_trans _ _ _ E2 E3) as E23.
      destruct (kept_apply1 rho h3 (fun_op k) [u; w; q] (b_draw B h3 (fun_op k) [u; w; q]) [x; y; z] t ltac:(done) G3 (old_up _ _ _ E13 Ho)) as (E4 & H4);
        [constructor; [exact (ok_up _ _ _ _ _ G1 E23 V1)|constructor; [exact (ok_up _ _ _ _ _ G2 E3 V2)|constructor; [exact V3|constructor]]]|done|].
      split; [by eapply extends_trans|done].
  Qed.

  Fixpoint vals_of (vals : list D) (es : list expr) : option (list D) :=
    match es with
    | [] => Some vals
    | e :: es' => x ← val vals e; vals_of (vals ++ [x]) es'
    end.
  Lemma kept_lets rho es : forall h env vals vals', good_heap h -> old_only h rho -> Forall2 (ok rho h) env vals -> vals_of vals es = Some vals' ->
    let r := mk_code B h env (CLet <$> es) in Forall2 (ok rho r.1) r.2 vals'.
  Proof.
    induction es as [|e es IH]; intros h env vals vals' Hg Ho He Hv; cbn [mk_code fmap list_fmap vals_of] in *.
    - by injection Hv as <-.
    - destruct (val vals e) as [x|] eqn:Hx; [|done]. cbn in Hv. pose proof (kept_expr rho env vals e h x Hg Ho He Hx) as H1.
      destruct (mk_expr B env h e) as [h1 u]. cbn [fst snd] in H1. destruct H1 as (E1 & G1 & V1).
      apply (IH h1 (env ++ [u]) (vals ++ [x]) vals' G1 (old_up _ _ _ E1 Ho)); [|exact Hv].
      apply Forall2_app; [exact (oks_up _ _ _ _ _ Hg E1 He)|constructor; [exact V1|constructor]].
  Qed.

  (** only what is given to variables that exist matters *)
  Definition cut (h : heap) (rho : vid -> option D) : vid -> option D := fun v => if hv h v then rho v else None.
  Lemma cut_old h rho : old_only h (cut h rho).
  Proof. intros v Hv. unfold cut. by rewrite Hv. Qed.
  Lemma uncut h h' h'' rho v x : good_heap h' -> extends h h' -> extends h' h'' -> (forall u, hv h u = None -> is_Some (hv h' u) -> rho u = None) ->
    ok (cut h rho) h' v x -> ev h'' rho v x.
  Proof.
    intros G E E' Hr [S H]. apply (extends_evals_iff base cval h' h''); [apply G|exact E'|exact S|].
    apply (proj1 (evals_rho_agree base cval h' (cut h rho) rho (proj1 G) ltac:(
      intros u Hu; unfold cut; destruct (hv h u) eqn:Eu; [done|by apply Hr])) v x H S).
  Qed.
  Lemma ok_given h rho v x : is_Some (hv h v) -> rho v = Some x -> ok (cut h rho) h v x.
  Proof. intros S H. split; [done|]. apply ev_given. unfold cut. by destruct S as [? ->]. Qed.
End values.
