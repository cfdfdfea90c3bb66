(** The graphs that function bodies build: structure. *)
From Verif Require Import L_build M_gibbs.
From Verif Require Export L_inner.

Section code.
  Context (B : builder) (h0 : heap) (S : vid -> Prop).
  Hypothesis Hwf0 : wf_heap h0.
  Hypothesis HS : forall u w, S u -> input_of h0 u w -> S w.
  Hypothesis HSin : forall u, S u -> is_Some (hv h0 u).
  Notation src := (sourced h0 S).
  Notation stage := (stage h0).

  (** what holds of a value made from the variables [env] *)
  Definition made (env : list vid) (h h' : heap) (v : vid) : Prop :=
    extends h h' /\ stage h' /\ src h' v /\
    forall bl T, (forall u, u ∈ env -> conf h bl T u) -> conf h' bl T v.

  Lemma src_up h h' (env : list vid) : stage h -> extends h h' -> (forall u, u ∈ env -> src h u) -> forall u, u ∈ env -> src h' u.
  Proof. intros Hst He Hv u Hu. exact (up h0 S h h' u Hst He (Hv u Hu)). Qed.
  Lemma conf_up h h' bl T (env : list vid) : stage h -> extends h h' -> (forall u, u ∈ env -> conf h bl T u) -> forall u, u ∈ env -> conf h' bl T u.
  Proof. intros Hst He Hv u Hu. exact (cup h0 h h' bl T u Hst He (Hv u Hu)). Qed.

  (** one more node over values already made *)
  Lemma made_step (env : list vid) h h1 (ins : list vid) h2 v : extends h h1 -> stage h1 ->
    (forall u, u ∈ ins -> src h1 u) ->
    (forall bl T, (forall u, u ∈ env -> conf h bl T u) -> forall u, u ∈ ins -> conf h1 bl T u) ->
    (extends h1 h2 /\ stage h2 /\ src h2 v /\ forall bl T, (forall u, u ∈ ins -> conf h1 bl T u) -> conf h2 bl T v) ->
    made env h h2 v.
  Proof.
    intros E1 S1 Hi Hc (E2 & S2 & O2 & C2). split; [exact (extends_trans _ _ _ E1 E2)|]. split; [exact S2|]. split; [exact O2|].
    intros bl T He. exact (C2 bl T (Hc bl T He)).
  Qed.
  Lemma app1_ok h o (ins : list vid) ty : (forall s a, o <> OSubsume s a) -> stage h -> (forall u, u ∈ ins -> src h u) ->
    let r := apply1 h o ins ty in extends h r.1 /\ stage r.1 /\ src r.1 r.2 /\
    forall bl T, (forall u, u ∈ ins -> conf h bl T u) -> conf r.1 bl T r.2.
  Proof.
    intros Ho Hst Hi. destruct (apply1_ok h0 S h o ins ty Ho Hst Hi) as (E & St & Sr & _).
    split; [exact E|]. split; [exact St|]. split; [exact Sr|]. intros bl T Hc. apply conf_apply1; [apply Hst|done].
  Qed.
  Lemma elem4 h s (vs : list vid) : stage h -> (forall u, u ∈ vs -> src h u) ->
    let r := mk_elem B h s vs in extends h r.1 /\ stage r.1 /\ src r.1 r.2 /\
    forall bl T, (forall u, u ∈ vs -> conf h bl T u) -> conf r.1 bl T r.2.
  Proof. intros Hst Hi. destruct (elem_full B h0 S h s vs Hst Hi) as (E & St & Sr & _ & C). done. Qed.
  Lemma made_const env h c : stage h -> made env h (mk_const h c).1 (mk_const h c).2.
  Proof. intros Hst. destruct (const_full h0 S h c Hst) as (E & St & Sr & _ & C). split; [exact E|]. split; [exact St|]. split; [exact Sr|]. intros bl T _. apply C. Qed.

  (** two and three arguments *)
  Lemma args2 env h h1 x h2 y : stage h -> made env h h1 x -> made env h1 h2 y -> extends h h2 /\ stage h2 /\
    (forall u, u ∈ [x; y] -> src h2 u) /\
    (forall bl T, (forall u, u ∈ env -> conf h bl T u) -> forall u, u ∈ [x; y] -> conf h2 bl T u).
  Proof.
    intros Hst (E1 & S1 & O1 & C1) (E2 & S2 & O2 & C2). split; [exact (extends_trans _ _ _ E1 E2)|]. split; [exact S2|]. split.
    - apply (src_c h0 S); [exact (up h0 S _ _ _ S1 E2 O1)|]. apply (src_c h0 S); [exact O2|apply (src_n h0 S)].
    - intros bl T He. apply conf_c; [exact (cup h0 _ _ _ _ _ S1 E2 (C1 bl T He))|]. apply conf_c; [|apply conf_n].
      apply C2. exact (conf_up _ _ _ _ _ Hst E1 He).
  Qed.
  Lemma args1 env h h1 x : made env h h1 x -> extends h h1 /\ stage h1 /\ (forall u, u ∈ [x] -> src h1 u) /\
    (forall bl T, (forall u, u ∈ env -> conf h bl T u) -> forall u, u ∈ [x] -> conf h1 bl T u).
  Proof.
    intros (E1 & S1 & O1 & C1). split; [exact E1|]. split; [exact S1|]. split; [apply (src_c h0 S); [exact O1|apply (src_n h0 S)]|].
    intros bl T He. apply conf_c; [exact (C1 bl T He)|apply conf_n].
  Qed.
  Lemma args3 env h h1 x h2 y h3 z : stage h -> made env h h1 x -> made env h1 h2 y -> made env h2 h3 z -> extends h h3 /\ stage h3 /\
    (forall u, u ∈ [x; y; z] -> src h3 u) /\
    (forall bl T, (forall u, u ∈ env -> conf h bl T u) -> forall u, u ∈ [x; y; z] -> conf h3 bl T u).
  Proof.
    intros Hst H1 H2 (E3 & S3 & O3 & C3). pose proof (proj1 H1) as E1. pose proof (proj1 (proj2 H1)) as S1. pose proof (proj1 H2) as E2.
    destruct (args2 env h h1 x h2 y Hst H1 H2) as (E & S2 & Hs & Hc).
    assert (Hs3 : forall u, u ∈ [x; y] -> src h3 u) by exact (src_up _ _ _ S2 E3 Hs).
    split; [exact (extends_trans _ _ _ E E3)|]. split; [exact S3|]. split.
    - apply (src_c h0 S); [apply Hs3; by left|]. apply (src_c h0 S); [apply Hs3; right; by left|]. apply (src_c h0 S); [exact O3|apply (src_n h0 S)].
    - intros bl T He. assert (Hc3 : forall u, u ∈ [x; y] -> conf h3 bl T u) by exact (conf_up _ _ _ _ _ S2 E3 (Hc bl T He)).
      apply conf_c; [apply Hc3; by left|]. apply conf_c; [apply Hc3; right; by left|]. apply conf_c; [|apply conf_n].
      apply C3. exact (conf_up _ _ _ _ _ Hst E He).
  Qed.

  Lemma mk_expr_made env e : forall h, stage h -> (forall u, u ∈ env -> src h u) -> scoped (length env) e = true ->
    made env h (mk_expr B env h e).1 (mk_expr B env h e).2.
  Proof.
    induction e as [i|z|z| |s a IHa|s a IHa b IHb|order a IHa|a IHa b IHb|k a IHa|k a IHa b IHb|k a IHa b IHb c IHc]; intros h Hst Henv Hsc; cbn [mk_expr].
    - cbn [scoped] in Hsc. apply bool_decide_eq_true in Hsc. destruct (lookup_lt_is_Some_2 env i Hsc) as [v Hv]. rewrite Hv. cbn [default fst snd from_option id].
      assert (Hin : v ∈ env) by (eapply elem_of_list_lookup_2; exact Hv).
      split; [apply extends_refl|]. split; [exact Hst|]. split; [by apply Henv|]. intros bl T He. by apply He.
    - by apply made_const.
    - by apply made_const.
    - by apply made_const.
    - specialize (IHa h Hst Henv Hsc). destruct (mk_expr B env h a) as [h1 x]. cbn [fst snd] in IHa.
      destruct (args1 _ _ _ _ IHa) as (E & S1 & Hs & Hc). eapply made_step; [exact E|exact S1|exact Hs|exact Hc|]. exact (elem4 h1 s [x] S1 Hs).
    - cbn [scoped] in Hsc. apply andb_true_iff in Hsc as [Ha Hb]. specialize (IHa h Hst Henv Ha). destruct (mk_expr B env h a) as [h1 x]. cbn [fst snd] in IHa.
      specialize (IHb h1 (proj1 (proj2 IHa)) (src_up _ _ _ Hst (proj1 IHa) Henv) Hb). destruct (mk_expr B env h1 b) as [h2 y]. cbn [fst snd] in IHb.
      destruct (args2 _ _ _ _ _ _ Hst IHa IHb) as (E & S2 & Hs & Hc). eapply made_step; [exact E|exact S2|exact Hs|exact Hc|]. exact (elem4 h2 s [x; y] S2 Hs).
    - specialize (IHa h Hst Henv Hsc). destruct (mk_expr B env h a) as [h1 x]. cbn [fst snd] in IHa.
      destruct (args1 _ _ _ _ IHa) as (E & S1 & Hs & Hc). eapply made_step; [exact E|exact S1|exact Hs|exact Hc|].
      exact (app1_ok h1 (ODimShuffle order) [x] (b_shuffle B order (ty_def h1 x)) ltac:(done) S1 Hs).
    - cbn [scoped] in Hsc. apply andb_true_iff in Hsc as [Ha Hb]. specialize (IHa h Hst Henv Ha). destruct (mk_expr B env h a) as [h1 x]. cbn [fst snd] in IHa.
      specialize (IHb h1 (proj1 (proj2 IHa)) (src_up _ _ _ Hst (proj1 IHa) Henv) Hb). destruct (mk_expr B env h1 b) as [h2 y]. cbn [fst snd] in IHb.
      destruct (args2 _ _ _ _ _ _ Hst IHa IHb) as (E & S2 & Hs & Hc). eapply made_step; [exact E|exact S2|exact Hs|exact Hc|].
      exact (app1_ok h2 (OOther K_dot) [x; y] (b_dot B (ty_def h2 x) (ty_def h2 y)) ltac:(done) S2 Hs).
    - specialize (IHa h Hst Henv Hsc). destruct (mk_expr B env h a) as [h1 x]. cbn [fst snd] in IHa.
      destruct (args1 _ _ _ _ IHa) as (E & S1 & Hs & Hc). eapply made_step; [exact E|exact S1|exact Hs|exact Hc|].
      exact (app1_ok h1 (fun_op k) [x] (b_draw B h1 (fun_op k) [x]) ltac:(done) S1 Hs).
    - cbn [scoped] in Hsc. apply andb_true_iff in Hsc as [Ha Hb]. specialize (IHa h Hst Henv Ha). destruct (mk_expr B env h a) as [h1 x]. cbn [fst snd] in IHa.
      specialize (IHb h1 (proj1 (proj2 IHa)) (src_up _ _ _ Hst (proj1 IHa) Henv) Hb). destruct (mk_expr B env h1 b) as [h2 y]. cbn [fst snd] in IHb.
      destruct (args2 _ _ _ _ _ _ Hst IHa IHb) as (E & S2 & Hs & Hc). eapply made_step; [exact E|exact S2|exact Hs|exact Hc|].
      exact (app1_ok h2 (fun_op k) [x; y] (b_draw B h2 (fun_op k) [x; y]) ltac:(done) S2 Hs).
    - cbn [scoped] in Hsc. apply andb_true_iff in Hsc as [Hab Hcc]. apply andb_true_iff in Hab as [Ha Hb].
      specialize (IHa h Hst Henv Ha). destruct (mk_expr B env h a) as [h1 x]. cbn [fst snd] in IHa.
      pose proof (src_up _ _ _ Hst (proj1 IHa) Henv) as Henv1.
      specialize (IHb h1 (proj1 (proj2 IHa)) Henv1 Hb). destruct (mk_expr B env h1 b) as [h2 y]. cbn [fst snd] in IHb.
      specialize (IHc h2 (proj1 (proj2 IHb)) (src_up _ _ _ (proj1 (proj2 IHa)) (proj1 IHb) Henv1) Hcc). destruct (mk_expr B env h2 c) as [h3 z]. cbn [fst snd] in IHc.
      destruct (args3 _ _ _ _ _ _ _ _ Hst IHa IHb IHc) as (E & S2 & Hs & Hc). eapply made_step; [exact E|exact S2|exact Hs|exact Hc|].
      exact (app1_ok h3 (fun_op k) [x; y; z] (b_draw B h3 (fun_op k) [x; y; z]) ltac:(done) S2 Hs).
  Qed.

  Lemma mk_exprs_made env es : forall h, stage h -> (forall u, u ∈ env -> src h u) -> forallb (scoped (length env)) es = true ->
    let r := mk_exprs B env h es in extends h r.1 /\ stage r.1 /\ (forall u, u ∈ r.2 -> src r.1 u) /\
    (forall bl T, (forall u, u ∈ env -> conf h bl T u) -> forall u, u ∈ r.2 -> conf r.1 bl T u) /\ length r.2 = length es.
  Proof.
    induction es as [|e es IH]; intros h Hst Henv Hsc; cbn [mk_exprs].
    - cbn. split; [apply extends_refl|]. split; [done|]. split; [apply (src_n h0 S)|]. split; [|done]. intros bl T _. apply conf_n.
    - cbn [forallb] in Hsc. apply andb_true_iff in Hsc as [He Hes]. pose proof (mk_expr_made env e h Hst Henv He) as H1.
      destruct (mk_expr B env h e) as [h1 x]. cbn [fst snd] in H1. pose proof (proj1 H1) as E1. pose proof (proj1 (proj2 H1)) as S1.
      specialize (IH h1 S1 (src_up _ _ _ Hst E1 Henv) Hes). destruct (mk_exprs B env h1 es) as [h2 xs]. cbv zeta in *. cbn [fst snd] in *.
      destruct IH as (E2 & S2 & Hs & Hc & Hl). destruct H1 as (_ & _ & O1 & C1). split; [exact (extends_trans _ _ _ E1 E2)|]. split; [exact S2|].
      split; [apply (src_c h0 S); [exact (up h0 S _ _ _ S1 E2 O1)|exact Hs]|]. split; [|cbn; by rewrite Hl].
      intros bl T He'. apply conf_c; [exact (cup h0 _ _ _ _ _ S1 E2 (C1 bl T He'))|]. apply Hc. exact (conf_up _ _ _ _ _ Hst E1 He').
  Qed.

  Definition is_draw (c : cmd) : Prop := match c with CDraw _ _ _ => True | CLet _ => False end.
  Global Instance is_draw_dec c : Decision (is_draw c).
  Proof. destruct c; [right; by intros []|by left]. Defined.
  (** the generators of a function body: one for every draw, all new *)
  Definition new_generators (h h' : heap) (rs : list vid) : Prop :=
    NoDup rs /\ forall r, r ∈ rs -> hv h r = None /\ owner h' r = None /\ is_shared h' r = true.

  Lemma is_shared_extends h h' v : extends h h' -> is_Some (hv h v) -> is_shared h' v = is_shared h v.
  Proof. intros E [x Hx]. unfold is_shared. by rewrite Hx, (proj1 E v x Hx). Qed.

  Lemma mk_code_made cs outs : forall h env, stage h -> (forall u, u ∈ env -> src h u) -> scoped_code (length env) cs outs = true ->
    let r := mk_code B h env cs in extends h r.1 /\ stage r.1 /\ (forall u, u ∈ r.2 -> src r.1 u) /\
    (forall i, i ∈ outs -> i < length r.2) /\
    exists rs, new_generators h r.1 rs /\ length rs = length (filter is_draw cs) /\
      (forall bl T, (forall u, u ∈ env -> conf h bl T u) -> (forall u, u ∈ rs -> u ∈ T) -> forall u, u ∈ r.2 -> conf r.1 bl T u).
  Proof.
    induction cs as [|[e|d size params] cs IH]; intros h env Hst Henv Hsc; cbn [mk_code].
    - cbn [fst snd]. cbv zeta. cbn [fst snd]. split; [apply extends_refl|]. split; [done|]. split; [done|]. split.
      { intros i Hi. cbn [scoped_code] in Hsc. rewrite forallb_forall in Hsc. apply elem_of_list_In in Hi. apply Hsc in Hi. by apply bool_decide_eq_true in Hi. }
      exists []. split; [split; [constructor|by intros r ?%elem_of_nil]|]. split; [done|]. intros bl T Hc _. exact Hc.
    - cbn [scoped_code] in Hsc. apply andb_true_iff in Hsc as [He Hcs]. pose proof (mk_expr_made env e h Hst Henv He) as H1.
      destruct (mk_expr B env h e) as [h1 x]. cbn [fst snd] in H1. destruct H1 as (E1 & S1 & O1 & C1).
      assert (Hlen : length (env ++ [x]) = Datatypes.S (length env)) by (rewrite app_length; cbn; lia). rewrite <- Hlen in Hcs.
      assert (Hsrc : forall u, u ∈ env ++ [x] -> src h1 u).
      { intros u [Hu|Hu%elem_of_list_singleton]%elem_of_app; [|subst u]; [|exact O1]. exact (src_up _ _ _ Hst E1 Henv u Hu). }
      specialize (IH h1 (env ++ [x]) S1 Hsrc Hcs). destruct (mk_code B h1 (env ++ [x]) cs) as [h2 env2]. cbv zeta in *. cbn [fst snd] in *.
      destruct IH as (E2 & S2 & Hs & Hi & rs & [Hnd Hr] & Hl & Hc). split; [exact (extends_trans _ _ _ E1 E2)|]. split; [exact S2|]. split; [exact Hs|].
      split; [exact Hi|]. exists rs. split; [split; [exact Hnd|]|split; [exact Hl|]].
      + intros r Hin. destruct (Hr r Hin) as (A1 & A2 & A3). split; [exact (none_back _ _ _ E1 A1)|done].
      + intros bl T He' HT. apply Hc; [|exact HT]. intros u [Hu|Hu%elem_of_list_singleton]%elem_of_app; [|subst u]; [exact (conf_up _ _ _ _ _ Hst E1 He' u Hu)|exact (C1 bl T He')].
    - cbn [scoped_code] in Hsc. apply andb_true_iff in Hsc as [Hsc Hcs]. apply andb_true_iff in Hsc as [Hps Hsz].
      pose proof (mk_exprs_made env params h Hst Henv Hps) as H1. destruct (mk_exprs B env h params) as [h1 ps]. cbv zeta in H1. cbn [fst snd] in H1.
      destruct H1 as (E1 & S1 & O1 & C1 & _). pose proof (src_up _ _ _ Hst E1 Henv) as Henv1.
      assert (H2 : made env h1 (match size with Some e => mk_expr B env h1 e | None => mk_const h1 (b_nosize B) end).1
                     (match size with Some e => mk_expr B env h1 e | None => mk_const h1 (b_nosize B) end).2).
      { destruct size as [e|]; [exact (mk_expr_made env e h1 S1 Henv1 Hsz)|exact (made_const env h1 _ S1)]. }
      destruct (match size with Some e => mk_expr B env h1 e | None => mk_const h1 (b_nosize B) end) as [h2 sz]. cbn [fst snd] in H2.
      destruct H2 as (E2 & S2 & O2 & C2). pose proof (const_full h0 S h2 (b_dtype B) S2) as H3. destruct (mk_const h2 (b_dtype B)) as [h3 dt].
      cbv zeta in H3. cbn [fst snd] in H3. destruct H3 as (E3 & S3 & O3 & _ & C3). pose proof (extends_trans _ _ _ E2 E3) as E13.
      pose proof (extends_trans _ _ _ E1 E13) as E03.
      assert (Hgi : forall u, u ∈ sz :: dt :: ps -> src h3 u).
      { apply (src_c h0 S); [exact (up h0 S _ _ _ S2 E3 O2)|]. apply (src_c h0 S); [exact O3|exact (src_up _ _ _ S1 E13 O1)]. }
      pose proof (gen_ok h0 S B h3 (ORV d) (sz :: dt :: ps) ltac:(done) S3 Hgi) as H4.
      pose proof (gen_full B h3 (ORV d) (sz :: dt :: ps) (proj2 S3) ltac:(intros u Hu; by apply Hgi) ltac:(done)) as H4'.
      destruct (gen B h3 (ORV d) (sz :: dt :: ps)) as [h4 [[r r'] x]]. destruct H4 as (E4 & S4 & Or & _ & Ox & _).
      destruct H4' as (_ & _ & Fr & _ & _ & Wr & Sr & _ & C4). pose proof (extends_trans _ _ _ E03 E4) as E04.
      assert (Hlen : length (env ++ [x]) = Datatypes.S (length env)) by (rewrite app_length; cbn; lia). rewrite <- Hlen in Hcs.
      assert (Hsrc : forall u, u ∈ env ++ [x] -> src h4 u).
      { intros u [Hu|Hu%elem_of_list_singleton]%elem_of_app; [|subst u]; [|exact Ox]. exact (src_up _ _ _ Hst E04 Henv u Hu). }
      specialize (IH h4 (env ++ [x]) S4 Hsrc Hcs). destruct (mk_code B h4 (env ++ [x]) cs) as [h5 env5]. cbv zeta in *. cbn [fst snd] in *.
      destruct IH as (E5 & S5 & Hs & Hi & rs & [Hnd Hr] & Hl & Hc). split; [exact (extends_trans _ _ _ E04 E5)|]. split; [exact S5|]. split; [exact Hs|].
      split; [exact Hi|]. exists (r :: rs). split; [split|split; [cbn; by rewrite Hl|]].
      + apply NoDup_cons. split; [|exact Hnd]. intros Hin. destruct (Hr r Hin) as (A1 & _). destruct (proj1 Or) as [z Hz]. congruence.
      + intros q [->|Hin]%elem_of_cons.
        * split; [exact (none_back _ _ _ E03 Fr)|]. split; [rewrite (extends_owner_old h4 h5); [exact Wr|exact E5|exact (proj1 Or)]|].
          rewrite (is_shared_extends h4 h5); [exact Sr|exact E5|exact (proj1 Or)].
        * destruct (Hr q Hin) as (A1 & A2 & A3). split; [exact (none_back _ _ _ E04 A1)|done].
      + intros bl T He' HT. apply Hc; [|intros u Hu; apply HT; by right]. pose proof (conf_up _ _ _ _ _ Hst E1 He') as Hc1.
        assert (K : forall u, u ∈ sz :: dt :: ps -> conf h3 bl T u).
        { apply conf_c; [exact (cup h0 _ _ _ _ _ S2 E3 (C2 bl T Hc1))|]. apply conf_c; [apply C3|]. exact (conf_up _ _ _ _ _ S1 E13 (C1 bl T He')). }
        intros u [Hu|Hu%elem_of_list_singleton]%elem_of_app; [|subst u]; [exact (conf_up _ _ _ _ _ Hst E04 He' u Hu)|].
        apply (C4 bl T K). apply HT. by left.
  Qed.

  Lemma mk_body_made cs outs h env : stage h -> (forall u, u ∈ env -> src h u) -> scoped_code (length env) cs outs = true ->
    let r := mk_body B h env cs outs in extends h r.1 /\ stage r.1 /\ (forall u, u ∈ r.2 -> src r.1 u) /\ length r.2 = length outs /\
    exists rs, new_generators h r.1 rs /\ length rs = length (filter is_draw cs) /\
      (forall bl T, (forall u, u ∈ env -> conf h bl T u) -> (forall u, u ∈ rs -> u ∈ T) -> forall u, u ∈ r.2 -> conf r.1 bl T u).
  Proof.
    intros Hst Henv Hsc. unfold mk_body. pose proof (mk_code_made cs outs h env Hst Henv Hsc) as H. destruct (mk_code B h env cs) as [h1 env1].
    cbv zeta in *. cbn [fst snd] in *. destruct H as (E & S1 & Hs & Hi & rs & Hn & Hl & Hc).
    assert (Hin : forall u, u ∈ (fun i => default 0 (env1 !! i)) <$> outs -> u ∈ env1).
    { intros u (i & -> & Hin)%elem_of_list_fmap. destruct (lookup_lt_is_Some_2 env1 i (Hi i Hin)) as [v Hv]. rewrite Hv. cbn. by eapply elem_of_list_lookup_2. }
    split; [exact E|]. split; [exact S1|]. split; [intros u Hu; apply Hs, Hin, Hu|]. split; [by rewrite fmap_length|].
    exists rs. split; [exact Hn|]. split; [exact Hl|]. intros bl T He HT u Hu. exact (Hc bl T He HT u (Hin u Hu)).
  Qed.
End code.
