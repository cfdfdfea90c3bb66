(** When the finders build a step, when they find nothing and when they raise. *)
From Verif Require Import S_gibbs L_match L_match_fun E_basic L_build L_finders L_conjugates L_alloc.

(** ** the test of the factor *)
Lemma ne_minus1_elements x : ne_minus1 x = (fun z => negb (Z.eqb z (-1))) <$> elements_of x.
Proof.
  revert x. fix IH 1. intros [z|l]; [done|]. cbn. induction l as [|x l IHl]; [done|].
  cbn. rewrite fmap_app, <- IHl. f_equal. apply IH.
Qed.
Lemma np_bool_row r : np_bool (ne_minus1 r) =
  match elements_of r with [] => Ok false | [z] => Ok (negb (Z.eqb z (-1))) | _ => Raise ValueError end.
Proof. rewrite ne_minus1_elements. by destruct (elements_of r) as [|z [|]]. Qed.
Lemma py_all_false rows : py_all rows = Ok false <->
  exists rows1 r rows2, rows = rows1 ++ r :: rows2 /\
    Forall (fun r => exists z, elements_of r = [z] /\ z <> (-1)%Z) rows1 /\
    (elements_of r = [] \/ elements_of r = [(-1)%Z]).
Proof.
  induction rows as [|r rows IH]; cbn.
  - split; [done|]. intros ([|] & r & rows2 & H & _); done.
  - rewrite np_bool_row. destruct (elements_of r) as [|z [|z2 zs]] eqn:E; cbn.
    + split; [|done]. intros _. exists [], r, rows. split; [done|]. split; [constructor|by left].
    + destruct (Z.eqb_spec z (-1)) as [->|Hne]; cbn.
      * split; [|done]. intros _. exists [], r, rows. split; [done|]. split; [constructor|by right].
      * rewrite IH. split.
        -- intros (rows1 & r' & rows2 & -> & H1 & H2). exists (r :: rows1), r', rows2. split; [done|]. split; [|done].
           apply Forall_cons_2; [|done]. by exists z.
        -- intros (rows1 & r' & rows2 & H & H1 & H2). destruct rows1 as [|r1 rows1]; cbn in H; injection H as -> ->.
           ++ exfalso. destruct H2 as [H2|H2]; rewrite E in H2; by simplify_eq.
           ++ exists rows1, r', rows2. split; [done|]. split; [|done]. by apply Forall_cons_1 in H1 as [_ ?].
    + split; [done|]. intros (rows1 & r' & rows2 & H & H1 & H2). exfalso. destruct rows1 as [|r1 rows1]; cbn in H; injection H as -> ->.
      * destruct H2 as [H2|H2]; rewrite E in H2; by simplify_eq.
      * apply Forall_cons_1 in H1 as [(z' & H1 & _) _]. rewrite E in H1. by simplify_eq.
Qed.
Lemma py_all_exn rows e : py_all rows = Raise e -> e = ValueError.
Proof.
  induction rows as [|r rows IH]; cbn; [done|]. rewrite np_bool_row. destruct (elements_of r) as [|z [|]]; cbn; [done| |by intros [= <-]].
  destruct (negb _); [done|by intros].
Qed.

Lemma constant_of_fun h v c c' : constant_of h v c -> constant_of h v c' -> c = c'.
Proof. intros (nm & ty & H) (nm' & ty' & H'). rewrite H in H'. by injection H'. Qed.

Lemma check_cases (T : typing) h c :
  (exists e, neg_one_check T h c = Raise e /\ e <> ValueError /\ untestable T h c /\ ~ passes T h c) \/
  (neg_one_check T h c = Raise ValueError /\ ~ untestable T h c /\ ~ passes T h c) \/
  (neg_one_check T h c = Ok tt /\ ~ untestable T h c /\ passes T h c).
Proof.
  unfold neg_one_check. destruct (data_of T h c) as [data|e] eqn:Hd; cbn.
  - apply data_of_spec in Hd as (k & Hk & ->). destruct (a_data T k) as [z|rows] eqn:Ek; cbn.
    + left. exists TypeError. split; [done|]. split; [done|]. split; [right; eauto|].
      intros (k' & r1 & r & r2 & Hk' & E & _). rewrite (constant_of_fun _ _ _ _ Hk' Hk), Ek in E. done.
    + assert (Hnu : ~ untestable T h c).
      { intros [H|(k' & z & Hk' & E)]; [apply H; eauto|]. rewrite (constant_of_fun _ _ _ _ Hk' Hk), Ek in E. done. }
      assert (Hp : passes T h c <-> py_all rows = Ok false).
      { rewrite py_all_false. split.
        - intros (k' & r1 & r & r2 & Hk' & E & H1 & H2). rewrite (constant_of_fun _ _ _ _ Hk' Hk), Ek in E. injection E as ->. eauto 8.
        - intros (r1 & r & r2 & -> & H1 & H2). exists k, r1, r, r2. done. }
      destruct (py_all rows) as [[|]|e] eqn:Ep; cbn.
      * right; left. split; [done|]. split; [done|]. by rewrite Hp.
      * right; right. split; [done|]. split; [done|]. by rewrite Hp.
      * apply py_all_exn in Ep as Ee. subst e. right; left. split; [done|]. split; [done|]. by rewrite Hp.
  - left. destruct (data_of_exn _ _ _ _ Hd) as [-> Hno]. exists AttributeError. split; [done|]. split; [done|]. split; [by left|].
    intros (k' & r1 & r & r2 & Hk' & _). apply Hno. eauto.
Qed.

(** ** shared inputs *)
Lemma is_shared_spec h v : is_shared h v = true <-> shared_var h v.
Proof.
  unfold is_shared, shared_var. destruct (hv h v) as [[nm ty [c|u|] ow]|]; split; try done; try (by intros (? & ? & ? & ? & ?)).
  intros _. eauto.
Qed.
Lemma shared_extends h h' v : extends h h' -> is_Some (hv h v) -> shared_var h' v <-> shared_var h v.
Proof. intros E [x Hx]. unfold shared_var. by rewrite Hx, (proj1 E v x Hx). Qed.
(** a check that shared variables are leaves *)
Definition leaf_check (h : heap) : bool :=
  forallb (fun p => match p.2 with Var _ _ (KShared _) (Some _) => false | _ => true end) (map_to_list (h_vars h)).
Lemma leaf_check_ok h : leaf_check h = true -> forall v, shared_var h v -> owner h v = None.
Proof.
  unfold leaf_check. rewrite forallb_forall. intros H v (nm & ty & u & ow & Hv).
  specialize (H (v, Var nm ty (KShared u) ow)). unfold owner. rewrite Hv. cbn in *. destruct ow; [|done].
  discriminate H. by apply elem_of_list_In, elem_of_map_to_list.
Qed.

Lemma remove_constants_elem h (vs : list vid) u : u ∈ remove_constants h (PVar <$> vs) <-> u ∈ vs /\ is_constant h u = false.
Proof.
  induction vs as [|v vs IH]; cbn.
  - split; [by intros ?%elem_of_nil|by intros [?%elem_of_nil _]].
  - destruct (is_constant h v) eqn:E; rewrite ?elem_of_cons, IH; [|set_solver].
    split; [set_solver|]. intros [[->|H] H']; [congruence|done].
Qed.
Lemma shared_not_constant h v : shared_var h v -> is_constant h v = false.
Proof. intros (nm & ty & u & ow & H). unfold is_constant. by rewrite H. Qed.
Lemma any_shared h (vs : list vid) : existsb (is_shared h) (remove_constants h (PVar <$> vs)) = true <-> exists v, v ∈ vs /\ shared_var h v.
Proof.
  rewrite existsb_exists. split.
  - intros (v & Hin & Hs). apply elem_of_list_In in Hin. apply remove_constants_elem in Hin as [Hin _]. exists v. split; [done|]. by apply is_shared_spec.
  - intros (v & Hin & Hs). exists v. split; [|by apply is_shared_spec]. apply elem_of_list_In. apply remove_constants_elem. split; [done|]. by apply shared_not_constant.
Qed.

(** ** new variables are not shared *)
Lemma apply1_plain h o ins ty : let r := apply1 h o ins ty in
  exists ow, hv r.1 r.2 = Some (Var None ty KPlain ow).
Proof.
  cbv zeta. destruct (alloc_node_spec h o ins [(None, ty)]) as (_ & _ & _ & Hv & _). rewrite apply1_alloc in Hv. cbn in Hv.
  eexists. exact (Hv 0 _ None ty eq_refl eq_refl).
Qed.
Lemma mk_elem_plain B h e vs : let r := mk_elem B h e vs in exists ow, hv r.1 r.2 = Some (Var None (b_elem B e (ty_def h <$> vs)) KPlain ow).
Proof. cbv zeta. unfold mk_elem. destruct (pad_vars B _ h vs) as [h1 ws]. apply apply1_plain. Qed.
Lemma mk_elem_not_shared B h e vs : let r := mk_elem B h e vs in ~ shared_var r.1 r.2.
Proof.
  cbv zeta. unfold mk_elem. destruct (pad_vars B _ h vs) as [h1 ws].
  destruct (apply1_plain h1 (OElem e) ws (b_elem B e (ty_def h <$> vs))) as [ow H].
  intros (nm & ty & u & ow' & H'). rewrite H in H'. done.
Qed.

Lemma mk_body_struct B h ins cs outs : good_heap h -> (forall u, u ∈ ins -> is_Some (hv h u)) -> scoped_code (length ins) cs outs = true ->
  let r := mk_body B h ins cs outs in
  extends h r.1 /\ good_heap r.1 /\ (forall u, u ∈ r.2 -> is_Some (hv r.1 u)) /\ length r.2 = length outs.
Proof.
  intros Hg Hi Hsc. pose proof (mk_body_made B h (fun _ => True) cs outs h ins) as H. cbv zeta in H.
  destruct H as (A & C & F & L & _); [split; [apply extends_refl|done]|intros u Hu; split; [by apply Hi|by left]|exact Hsc|].
  cbv zeta. split; [done|]. split; [apply C|]. split; [|exact L]. intros u Hu. by destruct (F u Hu).
Qed.

(** what a kernel call does *)
Lemma mk_kernel_cases h kind (vs : list vid) inner names : good_heap h ->
  (forall u, u ∈ vs -> is_Some (hv h u)) -> (forall u, u ∈ inner -> is_Some (hv h u)) -> length inner = length names ->
  ((exists v, v ∈ vs /\ shared_var h v) /\ mk_kernel h kind (remove_constants h (PVar <$> vs)) inner names = Raise TypeError) \/
  ((forall v, v ∈ vs -> ~ shared_var h v) /\ exists h' outs m,
     mk_kernel h kind (remove_constants h (PVar <$> vs)) inner names = Ok (h', outs) /\
     extends h h' /\ good_heap h' /\ length outs = length names /\ NoDup outs /\
     hn h' m = Some (Node (OGraph kind (remove_constants h (PVar <$> vs)) inner) (remove_constants h (PVar <$> vs) ++ shared_inputs h (remove_constants h (PVar <$> vs)) inner) outs) /\
     (forall i v, outs !! i = Some v -> owner h' v = Some (m, i) /\ hv h v = None /\ ~ shared_var h' v)).
Proof.
  intros Hg Hv Hr Hln. unfold mk_kernel. destruct (existsb _ _) eqn:He.
  - left. apply any_shared in He. done.
  - right. split.
    { intros v Hin Hs. assert (Ht : existsb (is_shared h) (remove_constants h (PVar <$> vs)) = true) by (apply any_shared; eauto). pose proof (eq_trans (eq_sym Ht) He). done. }
    set (ins := remove_constants h _ ++ _). set (tys := zip_with _ names inner). set (o := OGraph _ _ _).
    assert (Hi : forall u, u ∈ ins -> is_Some (hv h u)).
    { intros u [Hu|Hu]%elem_of_app; [apply remove_constants_elem in Hu as [Hu _]; by apply Hv|].
      apply elem_of_list_filter in Hu as [_ Hu]. apply graph_inputs_spec in Hu as [_ Hu].
      clear -Hu Hr Hg. induction Hu as [r Hr'|v u Hv IH Hb Hi]; [by apply Hr|eapply wf_parent; [apply Hg|exact Hi]]. }
    pose proof (alloc_node_extends h o ins tys) as E. pose proof (alloc_node_good h o ins tys) as G.
    destruct (alloc_node_spec h o ins tys) as (Hlen & Hnd & Hfr & Hval & _ & _ & Hn & _).
    pose proof (alloc_node_out_some h o ins tys) as Hsome.
    destruct (alloc_node h o ins tys) as [h' outs]. cbn in *.
    exists h', outs, (fresh (dom (h_nodes h))). split; [done|]. split; [done|]. split; [by apply G|]. split; [rewrite Hlen; unfold tys; rewrite zip_with_length; lia|].
    split; [done|]. split; [done|]. intros i v Hiv.
    destruct (Hsome v (elem_of_list_lookup_2 _ _ _ Hiv)) as (k & nm & ty & Hk & Ht & Hx).
    rewrite (NoDup_lookup _ _ _ _ Hnd Hk Hiv) in Hx. split; [unfold owner; by rewrite Hx|].
    split; [apply Hfr; by eapply elem_of_list_lookup_2|]. intros (nm' & ty' & u' & ow' & H'). rewrite Hx in H'. done.
Qed.

(** ** the patterns of conjugates.py *)
Lemma dget_key (s : dict nat nat) i : i ∈ dkeys s -> is_Some (dget s i).
Proof.
  induction s as [|[k v] s IH]; cbn; [by intros ?%elem_of_nil|]. case_decide; [eauto|].
  intros [->|Hi]%elem_of_cons; [done|by apply IH].
Qed.
Lemma gamma_poisson_inv h y s : umatch h gamma_poisson_pattern y [] = Some s ->
  (exists ps, rv_node h y RV_poisson ps) /\
  is_Some (dget s size_lv) /\ is_Some (dget s dtype_lv) /\ is_Some (dget s alpha_lv) /\ is_Some (dget s prior_beta_lv).
Proof.
  intros Hm. apply umatch_top in Hm as [Hk Hi]; [|repeat constructor; set_solver].
  split; [|split_and!; apply dget_key; rewrite Hk; cbn; set_solver].
  unfold gamma_poisson_pattern in Hi. inv_inst. eexists. apply rv_node_applied. do 6 eexists. split_and!; fin.
Qed.
Lemma beta_binomial_inv h y s : umatch h beta_binomial_pattern y [] = Some s ->
  (exists ps, rv_node h y RV_binomial ps) /\
  is_Some (dget s size_lv) /\ is_Some (dget s dtype_lv) /\ is_Some (dget s alpha_lv) /\ is_Some (dget s prior_beta_lv) /\ is_Some (dget s n_lv).
Proof.
  intros Hm. apply umatch_top in Hm as [Hk Hi]; [|repeat constructor; set_solver].
  split; [|split_and!; apply dget_key; rewrite Hk; cbn; set_solver].
  unfold beta_binomial_pattern in Hi. inv_inst. eexists. apply rv_node_applied. do 6 eexists. split_and!; fin.
Qed.
Lemma beta_nb_inv h y s : umatch h beta_nb_pattern y [] = Some s ->
  (exists ps, rv_node h y RV_nbinom ps) /\
  is_Some (dget s size_lv) /\ is_Some (dget s dtype_lv) /\ is_Some (dget s alpha_lv) /\ is_Some (dget s prior_beta_lv) /\ is_Some (dget s n_lv).
Proof.
  intros Hm. apply umatch_top in Hm as [Hk Hi]; [|repeat constructor; set_solver].
  split; [|split_and!; apply dget_key; rewrite Hk; cbn; set_solver].
  unfold beta_nb_pattern in Hi. inv_inst. eexists. apply rv_node_applied. do 6 eexists. split_and!; fin.
Qed.

(** ** normal_horseshoe_finder *)
Section finders.
  Context (B : builder) (h : heap) (Hg : good_heap h).
  Context (n : nid) (nd : node) (y : vid) (Hn : hn h n = Some nd) (Hy : n_outs nd !! 1 = Some y).
  (** shared variables below [y] are leaves *)
  Hypothesis Hleaf : forall v, reachable h [y] v -> shared_var h v -> owner h v = None.

  Lemma y_owner : owner h y = Some (n, 1).
  Proof using Hg Hn Hy. exact (wf_outs h (proj1 Hg) n nd 1 y Hn Hy). Qed.
  Lemma y_some : is_Some (hv h y).
  Proof using Hg Hn Hy. pose proof y_owner as H. unfold owner in H. destruct (hv h y); [done|done]. Qed.
  Lemma y_plain : ~ shared_var h y.
  Proof using Hg Hn Hy Hleaf. intros H. apply Hleaf in H; [|apply reachable_root; by left]. rewrite y_owner in H. done. Qed.

  Lemma rv_input v d ps : rv_node h v d ps -> forall u, u ∈ ps -> input_of h v u.
  Proof using Type.
    intros (m & k & md & r & sz & dt & Ho & Hm & _ & Hi) u Hu. unfold input_of, parents. rewrite Ho, Hm, Hi. by do 3 right.
  Qed.
  Lemma owner_some v o : owner h v = Some o -> is_Some (hv h v).
  Proof using Type. unfold owner. by destruct (hv h v). Qed.

  Lemma horseshoe_built lam tau : horseshoe_match B h y = Ok (lam, tau) ->
    exists h' lam' tau', normal_horseshoe_finder B h n = (h', Ok [(lam, lam', []); (tau, tau', [])]) /\
      extends h h' /\ good_heap h' /\ hv h lam' = None /\ hv h tau' = None /\ lam' <> tau'.
  Proof using All.
    intros Hm. unfold normal_horseshoe_finder, with_rv. rewrite Hn, Hy, Hm.
    apply horseshoe_match_iff in Hm as (mu & scale & a & b & Hrv & Hap & (na & ka & nda & Ha & _) & (nb & kb & ndb & Hb & _) & Hlt).
    assert (Hlt' : is_Some (hv h lam) /\ is_Some (hv h tau)).
    { apply owner_some in Ha. apply owner_some in Hb. destruct Hlt as [(_ & -> & ->)|(_ & _ & -> & ->)]; done. }
    destruct Hlt' as [Slam Stau]. clear Hlt.
    pose proof (mk_const_struct h (b_int B 2) Hg) as T1. destruct (mk_const h _) as [h1 two]. cbn in T1. destruct T1 as (E1 & G1 & S1).
    pose proof (mk_elem_struct B h1 E_pow [tau; two] G1 (two_some _ _ _ (extends_some _ _ _ E1 Stau) S1)) as T2.
    pose proof (mk_elem_not_shared B h1 E_pow [tau; two]) as P2.
    destruct (mk_elem B h1 E_pow _) as [h2 tau2]. cbn in T2, P2. destruct T2 as (E2 & G2 & S2).
    pose proof (mk_const_struct h2 (b_int B 2) G2) as T3. destruct (mk_const h2 _) as [h3 two']. cbn in T3. destruct T3 as (E3 & G3 & S3).
    pose proof (extends_trans _ _ _ (extends_trans _ _ _ E1 E2) E3) as E13.
    pose proof (mk_elem_struct B h3 E_pow [lam; two'] G3 (two_some _ _ _ (extends_some _ _ _ E13 Slam) S3)) as T4.
    pose proof (mk_elem_not_shared B h3 E_pow [lam; two']) as P4.
    destruct (mk_elem B h3 E_pow _) as [h4 lam2]. cbn in T4, P4. destruct T4 as (E4 & G4 & S4).
    pose proof (extends_trans _ _ _ E13 E4) as E14. pose proof (extends_trans _ _ _ E3 E4) as E34.
    assert (Hi : forall u, u ∈ [y; lam2; tau2] -> is_Some (hv h4 u)).
    { intros u [->|[->|[->|?%elem_of_nil]%elem_of_cons]%elem_of_cons]%elem_of_cons; [|done| |done].
      - eapply extends_some; [exact E14|exact y_some].
      - eapply extends_some; [exact E34|done]. }
    pose proof (mk_body_struct B h4 [y; lam2; tau2] horseshoe_code horseshoe_outs G4 Hi eq_refl) as T5.
    destruct (mk_body B h4 _ _ _) as [h5 inner]. cbv zeta in T5. cbn [fst snd] in T5. destruct T5 as (E5 & G5 & Hr & Hli).
    change [PVar y; PVar lam2; PVar tau2] with (PVar <$> [y; lam2; tau2]).
    destruct (mk_kernel_cases h5 K_horseshoe [y; lam2; tau2] inner [posterior_name h lam "lambda"; posterior_name h tau "tau"] G5) as [[(v & Hv & Hs) _]|[_ H]].
    - intros u Hu. eapply extends_some; [exact E5|by apply Hi].
    - intros u Hu. by apply Hr.
    - exact Hli.
    - exfalso. apply (shared_extends h4 h5) in Hs; [|done|by apply Hi].
      apply elem_of_cons in Hv as [->|[->|[->|?%elem_of_nil]%elem_of_cons]%elem_of_cons]; [| | |done].
      + apply (shared_extends h h4) in Hs; [by apply y_plain|done|exact y_some].
      + done.
      + apply (shared_extends h2 h4) in Hs; [done|done|done].
    - destruct H as (h' & outs & m & -> & E6 & G6 & Hlen & Hnd & _ & Ho).
      destruct outs as [|l' [|t' [|]]]; try done.
      pose proof (extends_trans _ _ _ (extends_trans _ _ _ E14 E5) E6) as E16.
      pose proof (extends_trans _ _ _ E14 E5) as E15.
      destruct (Ho 0 l' eq_refl) as (_ & Hl & _). destruct (Ho 1 t' eq_refl) as (_ & Ht & _).
      assert (Hback : forall w, hv h5 w = None -> hv h w = None).
      { intros w Hw. destruct (hv h w) as [x|] eqn:Ex; [|done]. apply (proj1 E15) in Ex. congruence. }
      exists h', l', t'. split; [done|]. split; [done|]. split; [done|]. split; [by apply Hback|]. split; [by apply Hback|].
      apply NoDup_cons in Hnd as [Hni _]. intros ->. apply Hni. by left.
  Qed.
  Lemma horseshoe_nothing : (forall lam tau, horseshoe_match B h y <> Ok (lam, tau)) -> normal_horseshoe_finder B h n = (h, Ok []).
  Proof using Hn Hy.
    intros H. unfold normal_horseshoe_finder, with_rv. rewrite Hn, Hy. destruct (horseshoe_match B h y) as [[lam tau]|e] eqn:Hm; [by destruct (H lam tau)|].
    apply horseshoe_match_exn in Hm as ->. done.
  Qed.

  (** ** the regressions *)
  Lemma owner_input4_cases v :
    (exists w, owner_input4 h v = Ok w /\ fifth_input h v w) \/
    (exists e, owner_input4 h v = Raise e /\ e <> ValueError /\ ~ exists w, fifth_input h v w).
  Proof using Hg.
    unfold owner_input4, fifth_input. destruct (owner h v) as [[m k]|] eqn:Ho.
    - destruct (wf_owner h (proj1 Hg) v m k Ho) as (md & Hm & _). rewrite Hm. destruct (n_ins md !! 4) as [w|] eqn:Hw.
      + left. exists w. split; [done|]. exists m, k, md. done.
      + right. exists IndexError. split; [done|]. split; [done|]. intros (w & m' & k' & md' & ? & ? & ?). simplify_eq.
    - right. exists AttributeError. split; [done|]. split; [done|]. intros (w & m' & k' & md' & ? & ? & ?). simplify_eq.
  Qed.
  Lemma fifth_fun v w w' : fifth_input h v w -> fifth_input h v w' -> w = w'.
  Proof using Type. intros (a & b & c & ? & ? & ?) (a' & b' & c' & ? & ? & ?). by simplify_eq. Qed.
  Lemma fifth_some v w : fifth_input h v w -> is_Some (hv h v) /\ is_Some (hv h w).
  Proof using Hg.
    intros (a & b & c & H1 & H2 & H3). split; [by eapply owner_some|].
    eapply (wf_ins h (proj1 Hg)); [exact H2|]. by eapply elem_of_list_lookup_2.
  Qed.
  Lemma applied_some v o ins : applied h v o ins -> forall u, u ∈ ins -> is_Some (hv h u).
  Proof using Hg. intros (m & k & md & Ho & Hm & _ & <-) u Hu. by eapply (wf_ins h (proj1 Hg)). Qed.
  Lemma rv_some v d ps : rv_node h v d ps -> forall u, u ∈ ps -> is_Some (hv h u).
  Proof using Hg.
    intros (r & sz & dt & H)%rv_node_applied u Hu. eapply applied_some; [exact H|]. by do 3 right.
  Qed.
  Lemma sigmoid_some p c X beta : sigmoid_dot h p c X beta -> is_Some (hv h X) /\ is_Some (hv h beta).
  Proof using Hg.
    intros (m & d & _ & _ & H). split; apply (applied_some _ _ _ H); [by left|right; by left].
  Qed.

  (** the two parts in which the regression finders agree: the step is built from the
      values of [vs = beta_rv :: beta_std :: others] *)
  Lemma regression_kernel kind others names cs couts : scoped_code (Datatypes.S (Datatypes.S (length others))) cs couts = true -> length couts = length names ->
    (forall u, u ∈ others -> is_Some (hv h u)) -> forall beta std, fifth_input h beta std ->
    let '(h1, inner) := mk_body B h (beta :: std :: others) cs couts in
    let r := mk_kernel h1 kind (remove_constants h1 (PVar <$> (beta :: std :: others))) inner names in
    ((forall v, v ∈ beta :: std :: others -> ~ shared_var h v) /\ exists h2 outs m, r = Ok (h2, outs) /\ extends h h2 /\ good_heap h2 /\ length outs = length names /\
       (forall v, v ∈ outs -> hv h v = None /\ is_Some (hv h2 v) /\ ~ shared_var h2 v) /\
       hn h2 m = Some (Node (OGraph kind (remove_constants h (PVar <$> (beta :: std :: others))) inner)
                              (remove_constants h (PVar <$> (beta :: std :: others)) ++
                               shared_inputs h1 (remove_constants h (PVar <$> (beta :: std :: others))) inner) outs)) \/
    ((exists v, v ∈ beta :: std :: others /\ shared_var h v) /\ r = Raise TypeError).
  Proof using Hg.
    intros Hsc Hln Hi beta std Hf. destruct (fifth_some _ _ Hf) as [Sb Ss].
    assert (Hall : forall u, u ∈ beta :: std :: others -> is_Some (hv h u)).
    { intros u [->|[->|Hu]%elem_of_cons]%elem_of_cons; [done|done|by apply Hi]. }
    pose proof (mk_body_struct B h (beta :: std :: others) cs couts Hg Hall Hsc) as T. destruct (mk_body B h _ _ _) as [h1 inner]. cbv zeta in T. cbn [fst snd] in T.
    destruct T as (E1 & G1 & Hr & Hli). cbv zeta.
    assert (Hrc : remove_constants h1 (PVar <$> (beta :: std :: others)) = remove_constants h (PVar <$> (beta :: std :: others))).
    { clear - E1 Hall. induction (beta :: std :: others) as [|v l IH]; [done|]. cbn.
      assert (is_constant h1 v = is_constant h v) as ->.
      { unfold is_constant. destruct (Hall v ltac:(by left)) as [x Hx]. by rewrite Hx, (proj1 E1 v x Hx). }
      rewrite IH; [done|]. intros u Hu. apply Hall. by right. }
    destruct (mk_kernel_cases h1 kind (beta :: std :: others) inner names G1) as [[(v & Hv & Hs) ->]|[Hns H]].
    - intros u Hu. eapply extends_some; [exact E1|by apply Hall].
    - intros u Hu. by apply Hr.
    - by rewrite Hli.
    - right. split; [|done]. exists v. split; [done|]. apply (shared_extends h h1) in Hs; [done|done|by apply Hall].
    - left. split.
      { intros v Hv Hs. apply (Hns v Hv). apply (shared_extends h h1); [done|by apply Hall|done]. }
      destruct H as (h2 & outs & m & -> & E2 & G2 & Hlen & _ & Hm & Ho). exists h2, outs, m. split; [done|].
      split; [by eapply extends_trans|]. split; [done|]. split; [done|]. split; [|by rewrite <- Hrc].
      intros v [i Hiv]%elem_of_list_lookup. destruct (Ho i v Hiv) as (Hov & Hfr & Hnsh). split; [|split; [|done]].
      + destruct (hv h v) as [x|] eqn:Ex; [|done]. apply (proj1 E1) in Ex. congruence.
      + unfold owner in Hov. by destruct (hv h2 v).
  Qed.

  Lemma index_error_cases std X : is_Some (hv h std) -> is_Some (hv h X) ->
    (index_error B h std X = true /\ ~ (has_dims B h std 1 /\ has_dims B h X 2)) \/
    (index_error B h std X = false /\ has_dims B h std 1 /\ has_dims B h X 2).
  Proof using Type.
    intros [s Hs] [x Hx]. unfold index_error, has_dims, ty_def, ty_of. rewrite Hs, Hx. cbn [fmap option_fmap option_map default].
    case_bool_decide as Hd.
    - left. split; [done|]. intros [(? & [= <-] & ?) (? & [= <-] & ?)]. cbn in Hd. lia.
    - right. split; [done|]. split; (eexists; split; [reflexivity|]; cbn in Hd; lia).
  Qed.
  Lemma bern_nothing : (~ exists c X beta, bern_form h y c X beta) -> bern_logistic_finder B h n = (h, Ok []).
  Proof using Hn Hy.
    intros H. unfold bern_logistic_finder, with_rv. rewrite Hn, Hy. rewrite bern_match_other; [done|].
    intros (p & c & X & beta & H1 & H2). apply H. exists c, X, beta, p. done.
  Qed.
  Lemma bern_cases c X beta : bern_form h y c X beta ->
    (untestable B h c /\ ~ passes B h c /\ exists e, bern_logistic_finder B h n = (h, Raise e)) \/
    (~ untestable B h c /\ ~ passes B h c /\ bern_logistic_finder B h n = (h, Ok [])) \/
    (~ untestable B h c /\ passes B h c /\ ~ buildable B h beta X [y] /\ exists h' e, bern_logistic_finder B h n = (h', Raise e)) \/
    (~ untestable B h c /\ passes B h c /\ buildable B h beta X [y] /\
       exists h' beta', bern_logistic_finder B h n = (h', Ok [(beta, beta', [])]) /\ extends h h' /\ hv h beta' = None).
  Proof using All.
    intros (p & Hrv & Hsd). unfold bern_logistic_finder, with_rv. rewrite Hn, Hy, (bern_match_matched B h y p c X beta Hrv Hsd).
    destruct (check_cases B h c) as [(e & -> & He & Hu & Hp)|[(-> & Hu & Hp)|(-> & Hu & Hp)]]; cbn [rbind].
    - left. split; [done|]. split; [done|]. exists e. by destruct e.
    - right; left. done.
    - right; right. destruct (owner_input4_cases beta) as [(std & -> & Hf)|(e & -> & He & Hno)].
      2: { left. split; [done|]. split; [done|]. split; [intros (std & Hf & _); apply Hno; eauto|]. eauto. }
      destruct (sigmoid_some _ _ _ _ Hsd) as [SX Sb].
      assert (Soth : forall u, u ∈ [X; y] -> is_Some (hv h u)).
      { apply two_some; [exact SX|exact y_some]. }
      destruct (index_error_cases std X (proj2 (fifth_some _ _ Hf)) SX) as [[-> Hix]|[-> Hix]].
      { left. split; [done|]. split; [done|]. split; [|eauto]. intros (std' & Hf' & Hd1 & Hd2 & _). rewrite (fifth_fun _ _ _ Hf' Hf) in Hd1. by apply Hix. }
      pose proof (regression_kernel K_bern [X; y] [posterior_name h beta "beta"] bern_code bern_outs eq_refl eq_refl Soth beta std Hf) as H.
      destruct (mk_body B h _ _ _) as [h1 inner]. cbv zeta in H.
      change [PVar beta; PVar std; PVar X; PVar y] with (PVar <$> [beta; std; X; y]).
      destruct H as [(Hb & h2 & outs & m & -> & E2 & G2 & Hlen & Ho & _)|(Hb & ->)].
      + destruct outs as [|bp [|]]; try done. right. split; [done|]. split; [done|]. split.
        { exists std. split; [done|]. split; [apply Hix|]. split; [apply Hix|done]. }
        exists h2, bp. split; [done|]. split; [done|]. apply Ho. by left.
      + left. split; [done|]. split; [done|]. split; [|eauto]. intros (std' & Hf' & _ & _ & Hno). rewrite (fifth_fun _ _ _ Hf' Hf) in Hno.
        destruct Hb as (v & Hv & Hs). by apply (Hno v).
  Qed.

  Lemma dispersion_cases h1 X hh bp a b : good_heap h1 ->
    is_Some (hv h1 X) -> is_Some (hv h1 hh) -> is_Some (hv h1 bp) -> is_Some (hv h1 y) -> is_Some (hv h1 a) -> is_Some (hv h1 b) ->
    ~ shared_var h1 hh -> ~ shared_var h1 y ->
    ((shared_var h1 a \/ shared_var h1 b) /\ exists h' e, dispersion_step B h1 X hh bp y a b = (h', Raise e)) \/
    (~ shared_var h1 a /\ ~ shared_var h1 b /\
     exists h' hp u1 u2 rs rg r1 r2 m ins x gn sn, dispersion_step B h1 X hh bp y a b = (h', Ok (hh, hp, [(r1, u1); (r2, u2)])) /\
       extends h1 h' /\ good_heap h' /\ hv h1 rs = None /\ hv h1 rg = None /\
       kernel_node h' m ins [x; gn; sn] [hp; u1; u2] /\ dispersion_graph_ok h' rs rg x gn sn /\ NoDup [hp; u1; u2] /\ hv h1 hp = None /\
       ((forall v, v ∈ [hh; a; b; y] -> is_constant h1 v = true -> owner h1 v = None) -> r1 = rs /\ r2 = rg)).
  Proof using All.
    intros G1 SX Sh Sb Sy Sa Sb' Ph Py. unfold dispersion_step.
    pose proof (mk_elem_struct B h1 E_neg [X] G1 ltac:(by intros u ->%elem_of_list_singleton)) as T2.
    destruct (mk_elem B h1 _ _) as [h2 nX]. cbn in T2. destruct T2 as (E2 & G2 & S2).
    pose proof (apply1_ok h2 (fun _ => True) h2 (OOther K_dot) [nX; bp] (b_dot B (ty_def h2 nX) (ty_def h2 bp)) ltac:(done)
      ltac:(split; [apply extends_refl|done])) as T3. cbv zeta in T3.
    destruct (apply1 h2 _ _ _) as [h3 psi]. cbn in T3. destruct T3 as (E3 & [_ G3] & [S3 _] & _).
    { apply src_cons; [|apply src_cons; [|apply src_nil]]; (split; [|by left]); [done|]. by eapply extends_some. }
    pose proof (mk_elem_struct B h3 E_sigmoid [psi] G3 ltac:(by intros u ->%elem_of_list_singleton)) as T4.
    pose proof (mk_elem_not_shared B h3 E_sigmoid [psi]) as P4.
    pose proof (mk_elem_plain B h3 E_sigmoid [psi]) as Pp. cbv zeta in Pp.
    destruct (mk_elem B h3 _ _) as [h4 p]. cbn [fst snd] in T4, P4, Pp. destruct T4 as (E4 & G4 & S4).
    pose proof (extends_trans _ _ _ (extends_trans _ _ _ E2 E3) E4) as E14.
    assert (Hi : forall u, u ∈ [hh; p; a; b; y] -> is_Some (hv h4 u)).
    { intros u [->|[->|[->|[->|[->|?%elem_of_nil]%elem_of_cons]%elem_of_cons]%elem_of_cons]%elem_of_cons]%elem_of_cons; try done;
        (eapply extends_some; [exact E14|done]). }
    pose proof (dispersion_inner_ok B h4 (fun _ => True) h4 hh p a b y ltac:(split; [apply extends_refl|done])
      ltac:(intros u Hu; split; [by apply Hi|by left])) as T5.
    destruct (dispersion_inner B h4 hh p a b y) as [h5 g].
    destruct T5 as (E5 & [_ G5] & Hr & (Ws & Ss & Fs) & (Wg & Sg & Fg) & Hne & Nscan & Ngamma & HC).
    pose proof (extends_trans _ _ _ E14 E5) as E15.
    change [PVar hh; PVar p; PVar a; PVar b; PVar y] with (PVar <$> [hh; p; a; b; y]).
    assert (Hback : forall w, hv h4 w = None -> hv h1 w = None).
    { intros w Hw. destruct (hv h1 w) as [x|] eqn:Ex; [|done]. apply (proj1 E14) in Ex. congruence. }
    destruct (mk_kernel_cases h5 K_dispersion [hh; p; a; b; y] (dispersion_outputs g) [posterior_name h1 hh "h"; None; None] G5) as [[(v & Hv & Hs) ->]|[Hns H]].
    - intros u Hu. eapply extends_some; [exact E5|by apply Hi].
    - intros u Hu. by apply Hr.
    - done.
    - left. split; [|eauto].
      apply (shared_extends h4 h5) in Hs; [|done|by apply Hi].
      apply elem_of_cons in Hv as [->|[->|[->|[->|[->|?%elem_of_nil]%elem_of_cons]%elem_of_cons]%elem_of_cons]%elem_of_cons]; try done.
      + apply (shared_extends h1 h4) in Hs; done.
      + left. by apply (shared_extends h1 h4) in Hs.
      + right. by apply (shared_extends h1 h4) in Hs.
      + apply (shared_extends h1 h4) in Hs; done.
    - right. destruct H as (h6 & outs & m & -> & E6 & G6 & Hlen & Hnd & Hm & Ho).
      destruct outs as [|hp [|u1 [|u2 [|]]]]; try done.
      rewrite !lookup_app_r by lia. rewrite Nat.sub_diag, Nat.sub_succ_l, Nat.sub_diag by lia.
      set (ins := remove_constants h5 (PVar <$> [hh; p; a; b; y])) in *.
      assert (Hbl : forall w, hv h4 w = None -> w ∉ ins).
      { intros w Hw Hin. apply remove_constants_elem in Hin as [Hin _]. destruct (Hi w Hin) as [z Hz]. congruence. }
      assert (Rs : cut_reachable h5 ins [dg_scan_next g] (dg_scan_rng g)).
      { eapply cut_step; [apply cut_root; by left|apply Hbl, Hr; do 2 right; by left|].
        destruct Nscan as (k & o' & ys & res & Wk & Nk & _). unfold input_of, parents. rewrite Wk, Nk. right; by left. }
      assert (Rg : cut_reachable h5 ins [dg_sample g; dg_next g] (dg_rng g)).
      { eapply cut_step; [apply cut_root; right; by left|apply Hbl, Hr; right; by left|].
        destruct Ngamma as (k & sz & dt & sh & sc & Wk & _ & Nk & _). unfold input_of, parents. rewrite Wk, Nk. by left. }
      assert (Rs' : dg_scan_rng g ∈ shared_inputs h5 ins (dispersion_outputs g)).
      { apply elem_of_list_filter. split; [done|]. apply graph_inputs_spec. split; [done|]. clear -Rs.
        induction Rs as [r Hr|v u Hv IH Hb Hi]; [apply cut_root; do 2 right; done|by eapply cut_step]. }
      assert (Rg' : dg_rng g ∈ shared_inputs h5 ins (dispersion_outputs g)).
      { apply elem_of_list_filter. split; [done|]. apply graph_inputs_spec. split; [done|]. clear -Rg.
        induction Rg as [r Hr|v u Hv IH Hb Hi]; [apply cut_root; unfold dispersion_outputs; set_solver|by eapply cut_step]. }
      pose proof (shared_inputs_NoDup h5 ins (dispersion_outputs g)) as Hnds.
      assert (Hord : (forall v, v ∈ [hh; a; b; y] -> is_constant h1 v = true -> owner h1 v = None) ->
        shared_inputs h5 ins (dispersion_outputs g) = [dg_scan_rng g; dg_rng g]).
      { intros Hcl. destruct (HC ins) as (C1 & C2 & C3).
        - intros u Hu. assert (Hnsu : is_shared h4 u = true -> u ∈ []).
          { intros Hs. exfalso. apply (Hns u Hu). apply (shared_extends h4 h5); [done|by apply Hi|by apply is_shared_spec]. }
          assert (Hk : is_constant h5 u = is_constant h4 u).
          { unfold is_constant. destruct (Hi u Hu) as [z Hz]. by rewrite Hz, (proj1 E5 u z Hz). }
          destruct (is_constant h4 u) eqn:Ec; [|apply conf_block; [by apply remove_constants_elem|by apply Hi|done]].
          apply conf_step; [by apply Hi|done|]. intros w. unfold input_of, parents.
          assert (owner h4 u = None) as ->; [|by intros ?%elem_of_nil].
          destruct (decide (u = p)) as [->|Hup].
          { unfold is_constant in Ec. destruct Pp as [ow Pp]. rewrite Pp in Ec. done. }
          assert (Hu' : u ∈ [hh; a; b; y]) by (clear -Hu Hup; set_solver).
          assert (Hu1 : is_Some (hv h1 u)).
          { clear -Hu' Sh Sa Sb' Sy. apply elem_of_cons in Hu' as [->|[->|[->|[->|?%elem_of_nil]%elem_of_cons]%elem_of_cons]%elem_of_cons]; done. }
          rewrite (extends_owner_old h1 h4); [|done|done]. apply (Hcl u Hu').
          unfold is_constant in *. destruct Hu1 as [z Hz]. rewrite (proj1 E14 u z Hz) in Ec. by rewrite Hz.
        - change (dispersion_outputs g) with ([dg_sample g; dg_next g] ++ [dg_scan_next g]).
          apply shared_order; try done. intros u [->| ->%elem_of_list_singleton]%elem_of_cons; done. }
      assert (Hext : forall outs, (forall v, v ∈ outs -> is_Some (hv h5 v)) -> shared_inputs h6 ins outs = shared_inputs h5 ins outs).
      { intros os Hos. apply shared_inputs_extends; [done|apply G5|done]. }
      destruct (shared_inputs h5 ins (dispersion_outputs g)) as [|r1 [|r2 rest]] eqn:Hsi.
      { by apply elem_of_nil in Rs'. }
      { apply elem_of_list_singleton in Rs', Rg'. congruence. }
      assert (Hne12 : r1 <> r2). { apply NoDup_cons in Hnds as [Hni _]. intros ->. apply Hni. by left. }
      split; [intros Hs; apply (Hns a); [do 2 right; by left|]; apply (shared_extends h1 h5); [exact E15|exact Sa|exact Hs]|].
      split; [intros Hs; apply (Hns b); [do 3 right; by left|]; apply (shared_extends h1 h5); [exact E15|exact Sb'|exact Hs]|].
      exists h6, hp, u1, u2, (dg_scan_rng g), (dg_rng g), r1, r2, m, ins, (dg_sample g), (dg_next g), (dg_scan_next g).
      split; [cbn; by rewrite decide_False by done|]. split; [exact (extends_trans _ _ _ E15 E6)|]. split; [done|].
      split; [by apply Hback|]. split; [by apply Hback|].
      assert (Hos : forall v, v ∈ dispersion_outputs g -> is_Some (hv h5 v)) by (intros v Hv; by apply Hr).
      assert (Hsh6 : forall r, is_shared h5 r = true -> shared_var h6 r).
      { intros r Hs. apply is_shared_spec in Hs. apply (shared_extends h5 h6); [done| |done]. destruct Hs as (? & ? & ? & ? & ->). eauto. }
      split. { split; [done|]. exists K_dispersion; change [dg_sample g; dg_next g; dg_scan_next g] with (dispersion_outputs g); rewrite (Hext _ Hos), Hsi; exact Hm. }
      split; [|split; [done|split]].
      { split; [done|]. split; [by apply Hsh6|]. split; [by apply Hsh6|]. split.
        - destruct Ngamma as (k & sz & dt & sh & sc & W1 & W2 & Nk & Hni). exists k, sz, dt, sh, sc.
          split; [rewrite (extends_owner_old h5 h6); [done|done|apply Hos; right; by left]|].
          split; [rewrite (extends_owner_old h5 h6); [done|done|apply Hos; by left]|]. split; [by apply (proj2 E6)|exact Hni].
        - destruct Nscan as (k & o' & ys & res & W1 & Nk & Hni). exists k, o', ys, hh, res.
          split; [rewrite (extends_owner_old h5 h6); [done|done|apply Hos; do 2 right; by left]|]. split; [by apply (proj2 E6)|exact Hni]. }
      { destruct (Ho 0 hp eq_refl) as (_ & Hfr & _). apply Hback. destruct (hv h4 hp) as [z|] eqn:Ex; [|done]. apply (proj1 E5) in Ex. congruence. }
      intros Hcl. specialize (Hord Hcl). by injection Hord as -> -> _.
  Qed.

  Lemma nbinom_nothing : (~ exists hh c X beta, nbinom_form h y hh c X beta) -> nbinom_logistic_finder B h n = (h, Ok []).
  Proof using Hn Hy.
    intros H. unfold nbinom_logistic_finder, with_rv. rewrite Hn, Hy. rewrite nbinom_match_other; [done|].
    intros (hh & p & c & X & beta & H1 & H2). apply H. exists hh, c, X, beta, p. done.
  Qed.
  Lemma rv_node_extends h' v d ps : extends h h' -> is_Some (hv h v) -> rv_node h' v d ps <-> rv_node h v d ps.
  Proof using Hg.
    intros E [x Hx]. unfold rv_node, owner. rewrite (proj1 E v x Hx), Hx. split.
    - intros (m & k & md & r & sz & dt & Ho & Hm & Hop & Hi). cbn in Ho.
      assert (Ho' : owner h v = Some (m, k)) by (unfold owner; by rewrite Hx).
      destruct (wf_owner h (proj1 Hg) v m k Ho') as (md' & Hm' & _). pose proof (proj2 E _ _ Hm') as Hm''.
      simplify_eq. exists m, k, md, r, sz, dt. done.
    - intros (m & k & md & r & sz & dt & Ho & Hm & Hop & Hi). exists m, k, md, r, sz, dt. split; [done|]. split; [|done]. by apply (proj2 E).
  Qed.
  (** what nbinom_logistic_finder returns when it builds its steps: always one for beta,
      and one for the dispersion when its prior is a gamma *)
  Lemma nbinom_cases hh c X beta : nbinom_form h y hh c X beta ->
    (untestable B h c /\ ~ passes B h c /\ exists e, nbinom_logistic_finder B h n = (h, Raise e)) \/
    (~ untestable B h c /\ ~ passes B h c /\ nbinom_logistic_finder B h n = (h, Ok [])) \/
    (~ untestable B h c /\ passes B h c /\ ~ (buildable B h beta X [hh; y] /\ gamma_params_plain h hh) /\
       exists h' e, nbinom_logistic_finder B h n = (h', Raise e)) \/
    (~ untestable B h c /\ passes B h c /\ (buildable B h beta X [hh; y] /\ gamma_params_plain h hh) /\
       (exists a b, rv_node h hh RV_gamma [a; b]) /\
       exists h' beta' hh' u1 u2 rs rg r1 r2 m ins x gn sn,
         nbinom_logistic_finder B h n = (h', Ok [(beta, beta', []); (hh, hh', [(r1, u1); (r2, u2)])]) /\
         extends h h' /\ hv h beta' = None /\ hv h hh' = None /\ hv h rs = None /\ hv h rg = None /\
         kernel_node h' m ins [x; gn; sn] [hh'; u1; u2] /\ dispersion_graph_ok h' rs rg x gn sn /\ NoDup [hh'; u1; u2] /\
         (constant_leaves h -> r1 = rs /\ r2 = rg)) \/
    (~ untestable B h c /\ passes B h c /\ (buildable B h beta X [hh; y] /\ gamma_params_plain h hh) /\
       (~ exists a b, rv_node h hh RV_gamma [a; b]) /\
       exists h' beta', nbinom_logistic_finder B h n = (h', Ok [(beta, beta', [])]) /\ extends h h' /\ hv h beta' = None).
  Proof using All.
    intros (p & Hrv & Hsd). unfold nbinom_logistic_finder, with_rv. rewrite Hn, Hy, (nbinom_match_matched B h y hh p c X beta Hrv Hsd).
    destruct (check_cases B h c) as [(e & -> & He & Hu & Hp)|[(-> & Hu & Hp)|(-> & Hu & Hp)]]; cbn [rbind].
    - left. split; [done|]. split; [done|]. exists e. by destruct e.
    - right; left. done.
    - right; right. destruct (owner_input4_cases beta) as [(std & -> & Hf)|(e & -> & He & Hno)].
      2: { left. split; [done|]. split; [done|]. split; [intros ((std & Hf & _) & _); apply Hno; eauto|]. eauto. }
      destruct (sigmoid_some _ _ _ _ Hsd) as [SX Sb]. pose proof (rv_some _ _ _ Hrv hh ltac:(by left)) as Sh.
      assert (Soth : forall u, u ∈ [X; hh; y] -> is_Some (hv h u)).
      { intros u [->|Hux]%elem_of_cons; [exact SX|]. revert u Hux. apply two_some; [exact Sh|exact y_some]. }
      destruct (index_error_cases std X (proj2 (fifth_some _ _ Hf)) SX) as [[-> Hix]|[-> Hix]].
      { left. split; [done|]. split; [done|]. split; [|eauto]. intros [(std' & Hf' & Hd1 & Hd2 & _) _]. rewrite (fifth_fun _ _ _ Hf' Hf) in Hd1. by apply Hix. }
      pose proof (regression_kernel K_nbreg [X; hh; y] [posterior_name h beta "beta"] nbinom_code nbinom_outs eq_refl eq_refl Soth beta std Hf) as H.
      destruct (mk_body B h _ _ _) as [h1 inner]. cbv zeta in H.
      change [PVar beta; PVar std; PVar X; PVar hh; PVar y] with (PVar <$> [beta; std; X; hh; y]).
      destruct H as [(Hb & h2 & outs & m & -> & E2 & G2 & Hlen & Ho & _)|(Hb & ->)].
      2: { left. split; [done|]. split; [done|]. split; [|eauto]. intros [(std' & Hf' & _ & _ & Hno) _]. rewrite (fifth_fun _ _ _ Hf' Hf) in Hno.
           destruct Hb as (v & Hv & Hs). by apply (Hno v). }
      assert (Hbl : buildable B h beta X [hh; y]) by (exists std; split; [done|]; split; [apply Hix|]; split; [apply Hix|done]). clear Hb. rename Hbl into Hb.
      destruct outs as [|bp [|]]; try done. destruct (Ho bp ltac:(by left)) as (Hfr & Sbp & _).
      assert (Hup : forall u, is_Some (hv h u) -> is_Some (hv h2 u)) by (intros u; by apply extends_some).
      destruct (gamma_match h2 hh) as [[ga gb]|ge] eqn:Hgm.
      + apply gamma_match_iff in Hgm. apply (rv_node_extends h2 hh) in Hgm; [|done|done].
        pose proof (rv_some _ _ _ Hgm ga ltac:(by left)) as Sga. pose proof (rv_some _ _ _ Hgm gb ltac:(right; by left)) as Sgb.
        assert (Phh : ~ shared_var h2 hh).
        { intros Hs. apply (shared_extends h h2) in Hs; [|done|done]. apply Hleaf in Hs; [|eapply reachable_step; [apply reachable_root; by left|exact (rv_input _ _ _ Hrv hh ltac:(by left))]].
          destruct Hgm as (m' & k' & md' & r & sz & dt & Ho' & _). congruence. }
        assert (Py : ~ shared_var h2 y).
        { intros Hs. apply (shared_extends h h2) in Hs; [|done|exact y_some]. by apply y_plain. }
        destruct (dispersion_cases h2 X hh bp ga gb G2 (Hup _ SX) (Hup _ Sh) Sbp (Hup _ y_some) (Hup _ Sga) (Hup _ Sgb) Phh Py)
          as [(Hsh & h' & e & ->)|(Na & Nb & h' & hp & u1 & u2 & rs & rg & r1 & r2 & m' & ins & x & gn & sn & -> & E3 & G3 & F1 & F2 & Hm' & Hg' & Hnd & F3 & Hord)].
        * left. split; [done|]. split; [done|]. split; [|eauto]. intros [_ Hpl]. destruct (Hpl ga gb Hgm) as [N1 N2].
          destruct Hsh as [Hs|Hs]; (apply (shared_extends h h2) in Hs; [|done|done]); done.
        * right; left. split; [done|]. split; [done|]. split.
          { split; [done|]. intros a b Hab. assert (a = ga /\ b = gb) as [-> ->].
            { destruct Hab as (? & ? & ? & ? & ? & ? & A1 & A2 & _ & A3). destruct Hgm as (? & ? & ? & ? & ? & ? & B1 & B2 & _ & B3).
              rewrite A1 in B1. injection B1 as <- <-. rewrite A2 in B2. injection B2 as <-. rewrite A3 in B3. by injection B3. }
            split; intros Hs; [apply Na|apply Nb]; by apply (shared_extends h h2). }
          split; [eauto|].
          assert (Hback : forall w, hv h2 w = None -> hv h w = None).
          { intros w Hw. destruct (hv h w) as [z|] eqn:Ex; [|done]. apply (proj1 E2) in Ex. congruence. }
          exists h', bp, hp, u1, u2, rs, rg, r1, r2, m', ins, x, gn, sn. split; [done|]. split; [exact (extends_trans _ _ _ E2 E3)|].
          split; [done|]. split; [by apply Hback|]. split; [by apply Hback|]. split; [by apply Hback|]. split; [done|]. split; [done|].
          split; [done|]. intros Hcl. apply Hord. intros v Hv Hc.
          assert (Hvs : is_Some (hv h v)).
          { apply elem_of_cons in Hv as [->|[->|[->|[->|?%elem_of_nil]%elem_of_cons]%elem_of_cons]%elem_of_cons]; [exact Sh|exact Sga|exact Sgb|exact y_some|done]. }
          rewrite (extends_owner_old h h2); [|done|done]. unfold is_constant in Hc. destruct Hvs as [[nm ty k ow] Hz].
          rewrite (proj1 E2 v _ Hz) in Hc. destruct k as [k| |]; try done. unfold owner. rewrite Hz. exact (Hcl v _ _ _ _ Hz).
      + apply gamma_match_exn in Hgm as Hge. subst ge. right; right.
        assert (Hng : ~ exists a b, rv_node h hh RV_gamma [a; b]).
        { intros (a & b & Hab). apply (rv_node_extends h2) in Hab; [|done|done]. apply gamma_match_iff in Hab. congruence. }
        split; [done|]. split; [done|]. split; [split; [done|]; intros a b Hab; exfalso; apply Hng; eauto|]. split; [done|].
        exists h2, bp. done.
  Qed.

  (** ** conjugates.py *)
  Lemma last_input_some d ps : rv_node h y d ps -> is_Some (last (n_ins nd)).
  Proof using Hg Hn Hy.
    intros (m & k & md & r & sz & dt & Ho & Hm & _ & Hi). rewrite y_owner in Ho. simplify_eq. rewrite Hi.
    apply last_is_Some. done.
  Qed.
  Lemma gamma_poisson_returns : exists h' es, local_gamma_poisson_posterior B h n = (h', Ok es).
  Proof using Hg Hn Hy.
    unfold local_gamma_poisson_posterior, with_rv. rewrite Hn, Hy.
    destruct (umatch h gamma_poisson_pattern y []) as [s|] eqn:Hm; [|eauto].
    apply gamma_poisson_inv in Hm as ([ps Hrv] & [x1 ->] & [x2 ->] & [x3 ->] & [x4 ->]). destruct (last_input_some _ _ Hrv) as [l ->].
    destruct (gamma_poisson_posterior _ _ _ _ _ _ _). eauto.
  Qed.
  Lemma beta_binomial_returns : exists h' es, local_beta_binomial_posterior B h n = (h', Ok es).
  Proof using Hg Hn Hy.
    unfold local_beta_binomial_posterior, with_rv. rewrite Hn, Hy.
    destruct (umatch h beta_binomial_pattern y []) as [s|] eqn:Hm; [|eauto].
    apply beta_binomial_inv in Hm as ([ps Hrv] & [x1 ->] & [x2 ->] & [x3 ->] & [x4 ->] & [x5 ->]). destruct (last_input_some _ _ Hrv) as [l ->].
    destruct (beta_binomial_posterior _ _ _ _ _ _ _ _). eauto.
  Qed.
  Lemma beta_nb_returns : exists h' es, local_beta_negative_binomial_posterior B h n = (h', Ok es).
  Proof using Hg Hn Hy.
    unfold local_beta_negative_binomial_posterior, with_rv. rewrite Hn, Hy.
    destruct (umatch h beta_nb_pattern y []) as [s|] eqn:Hm; [|eauto].
    apply beta_nb_inv in Hm as ([ps Hrv] & [x1 ->] & [x2 ->] & [x3 ->] & [x4 ->] & [x5 ->]). destruct (last_input_some _ _ Hrv) as [l ->].
    destruct (beta_nb_posterior _ _ _ _ _ _ _ _). eauto.
  Qed.
End finders.
