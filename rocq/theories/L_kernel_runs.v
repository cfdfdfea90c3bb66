(** The inner graph of a kernel, whose inputs are the variables that are not constants, run on
    the values of these variables. *)
From Verif Require Export L_code_value.
From Verif Require Import L_array L_match L_match_fun L_build L_conjugates L_inner L_gibbs S_gibbs L_elem_value L_eval.
Global Open Scope nat_scope.

Lemma given_elem (ins : list vid) vals v : is_Some (given ins vals v) -> v ∈ ins.
Proof.
  revert vals. induction ins as [|i ins IH]; intros [|x vals]; cbn [given]; try (by intros [? ?]).
  case_decide; [subst; left|]. intros Hs. right. by eapply IH.
Qed.
Section given.
  Context (base : op -> list (tensor R) -> option (list (tensor R))) (cval : nat -> tensor R) (h : heap) (rho : vid -> option (tensor R)).
  Lemma given_det ins vals v x : Forall2 (evals base cval h rho) ins vals -> v ∈ ins -> evals base cval h rho v x -> given ins vals v = Some x.
  Proof.
    induction 1 as [|i z ins vals Hi _ IH]; intros Hv Hx; [by apply elem_of_nil in Hv|]. cbn [given]. case_decide as Hd.
    - subst i. f_equal. by eapply evals_det.
    - apply elem_of_cons in Hv as [?|Hv]; [done|by apply IH].
  Qed.
End given.
Lemma Forall2_remove {A} (P : vid -> A -> Prop) h vs xs : Forall2 P vs xs -> exists xs', Forall2 P (remove_constants h (PVar <$> vs)) xs'.
Proof.
  induction 1 as [|v x vs xs Hv _ [xs' IH]]; [exists []; constructor|]. cbn. destruct (is_constant h v).
  - by exists xs'.
  - exists (x :: xs'). by constructor.
Qed.
Lemma given_values B scalar other cval h rho vs xs : constant_leaves h -> no_constants h rho ->
  Forall2 (has_value B scalar other cval h rho) vs xs ->
  exists vals, Forall2 (evals (tensor_base scalar other) cval h rho) (remove_constants h (PVar <$> vs)) vals /\
    Forall2 (has_value B scalar other cval h (given (remove_constants h (PVar <$> vs)) vals)) vs xs.
Proof.
  intros Hcl Hnc Hv. destruct (Forall2_remove _ h vs xs Hv) as [vals Hvals].
  assert (He : Forall2 (evals (tensor_base scalar other) cval h rho) (remove_constants h (PVar <$> vs)) vals).
  { eapply Forall2_impl; [exact Hvals|]. by intros ? ? [? ?]. }
  exists vals. split; [exact He|]. apply Forall2_same_length_lookup. split; [by eapply Forall2_length|].
  intros i v x Hiv Hix. destruct (Forall2_lookup_lr _ _ _ _ _ _ Hv Hiv Hix) as [Hev Hrk]. split; [|exact Hrk].
  destruct (is_constant h v) eqn:Hc.
  - assert (Hg : given (remove_constants h (PVar <$> vs)) vals v = None).
    { destruct (given _ vals v) eqn:Hgv; [|done]. exfalso. pose proof (given_elem _ vals v ltac:(eauto)) as Hin.
      apply remove_constants_elem in Hin as [_ Hin]. congruence. }
    pose proof (Hnc v Hc) as Hrv. unfold is_constant in Hc. destruct (hv h v) as [[nm ty kd ow]|] eqn:Hw; [|done]. cbn in Hc.
    destruct kd as [c| |]; try done. pose proof (Hcl _ _ _ _ _ Hw) as ->.
    assert (x = cval c) as ->.
    { eapply evals_det; [exact Hev|]. by eapply ev_const. }
    by eapply ev_const.
  - apply ev_given. eapply given_det; [exact He| |exact Hev]. apply remove_constants_elem. split; [by eapply elem_of_list_lookup_2|done].
Qed.

Lemma kernel_values (B : builder) h others names cs couts kind beta std : good_heap h -> constant_leaves h -> builder_ok B ->
  scoped_code (Datatypes.S (Datatypes.S (length others))) cs couts = true -> length couts = length names ->
  (forall u, u ∈ others -> is_Some (hv h u)) -> fifth_input h beta std -> (forall v, v ∈ beta :: std :: others -> ~ shared_var h v) ->
  let vs := beta :: std :: others in let '(h1, inner) := mk_body B h vs cs couts in
  exists h2 outs m, mk_kernel h1 kind (remove_constants h1 (PVar <$> vs)) inner names = Ok (h2, outs) /\ extends h h2 /\ good_heap h2 /\
    length outs = length names /\ (forall v, v ∈ outs -> hv h v = None /\ is_Some (hv h2 v) /\ ~ shared_var h2 v) /\
    (forall h', extends h2 h' -> kernel_node h' m (remove_constants h (PVar <$> vs)) inner outs) /\
    forall scalar other cval rho xs p, ranks_ok B other -> constants_ok B cval -> gives_old h rho -> no_constants h rho ->
      Forall2 (has_value B scalar other cval h rho) vs xs -> runs B scalar other cval xs cs couts p ->
      forall h', extends h2 h' -> kernel_runs scalar other cval h' rho (remove_constants h (PVar <$> vs)) inner p.
Proof.
  intros Hg Hcl HB Hsc Hln Hi Hf Hns vs.
  destruct (fifth_some h Hg _ _ Hf) as [Sb Ss].
  assert (Hall : forall u, u ∈ vs -> is_Some (hv h u)).
  { intros u [->|[->|Hu]%elem_of_cons]%elem_of_cons; [done|done|by apply Hi]. }
  pose proof (mk_body_struct B h vs cs couts Hg Hall Hsc) as T.
  pose proof (fun scalar other cval HR HC => mk_body_realises B HB scalar other cval HR HC cs couts h vs) as V.
  destruct (mk_body B h vs cs couts) as [h1 inner]. cbv zeta in T, V. cbn [fst snd] in T, V.
  destruct T as (E1 & G1 & Hr & Hli).
  assert (Hrc : remove_constants h1 (PVar <$> vs) = remove_constants h (PVar <$> vs)).
  { clear - E1 Hall. clearbody vs. induction vs as [|v l IH]; [done|]. cbn.
    assert (is_constant h1 v = is_constant h v) as ->.
    { unfold is_constant. destruct (Hall v ltac:(by left)) as [x Hx]. by rewrite Hx, (proj1 E1 v x Hx). }
    rewrite IH; [done|]. intros u Hu. apply Hall. by right. }
  destruct (mk_kernel_cases h1 kind vs inner names G1) as [[(v & Hv & Hs) _]|[_ H]].
  - intros u Hu. eapply extends_some; [exact E1|by apply Hall].
  - intros u Hu. by apply Hr.
  - by rewrite Hli.
  - exfalso. apply (Hns v Hv). apply (shared_extends h h1) in Hs; [done|done|by apply Hall].
  - destruct H as (h2 & outs & m & -> & E2 & G2 & Hlen & _ & Hm & Ho). exists h2, outs, m. split; [done|].
    pose proof (extends_trans _ _ _ E1 E2) as E12.
    split; [done|]. split; [done|]. split; [done|]. split; [|split].
    + intros v [i Hiv]%elem_of_list_lookup. destruct (Ho i v Hiv) as (Hov & Hfr & Hnsh). split; [|split; [|done]].
      * destruct (hv h v) as [x|] eqn:Ex; [|done]. apply (proj1 E1) in Ex. congruence.
      * unfold owner in Hov. by destruct (hv h2 v).
    + intros h' E'. split; [by rewrite Hlen, Hli|]. exists kind. rewrite (proj2 E' m _ Hm), Hrc. do 3 f_equal. symmetry.
      apply shared_inputs_extends; [exact (extends_trans _ _ _ E2 E')|apply G1|exact Hr].
    + intros scalar other cval rho xs p HR HC Hold Hnc Hv Hp h' E'.
      destruct (given_values B scalar other cval h rho vs xs Hcl Hnc Hv) as (vals & He & Hgv).
      exists vals. pose proof (extends_trans _ _ _ E12 E') as E1'. split.
      { eapply Forall2_impl; [exact He|]. cbn. intros v x Hx. apply (extends_evals_iff _ _ h h'); [apply Hg|done| |done].
        by eapply ev_exists. }
      assert (Hgo : gives_old h (given (remove_constants h (PVar <$> vs)) vals)).
      { intros v Hvv. apply given_elem, remove_constants_elem in Hvv as [Hvv _]. by apply Hall. }
      destruct (V scalar other cval HR HC xs _ p Hg Hgo Hgv Hp) as (_ & _ & Hreal).
      eapply realises_extends; [apply G1|exact (extends_trans _ _ _ E2 E')|eapply gives_old_extends; [exact E1|exact Hgo]|exact Hreal].
Qed.

Section finders.
  Context (B : builder) (h : heap) (Hg : good_heap h) (Hleaf : forall v, shared_var h v -> owner h v = None) (Hcl : constant_leaves h) (HB : builder_ok B).
  Context (n : nid) (nd : node) (y : vid) (Hn : hn h n = Some nd) (Hy : n_outs nd !! 1 = Some y).

  Lemma bern_kernel c X beta std : bern_form h y c X beta -> passes B h c -> fifth_input h beta std -> buildable B h beta X [y] ->
    let vs := [beta; std; X; y] in
    exists h' beta' m inner, bern_logistic_finder B h n = (h', Ok [(beta, beta', [])]) /\ extends h h' /\ hv h beta' = None /\
      kernel_node h' m (remove_constants h (PVar <$> vs)) inner [beta'] /\
      forall scalar other cval rho xs p, ranks_ok B other -> constants_ok B cval -> gives_old h rho -> no_constants h rho ->
        Forall2 (has_value B scalar other cval h rho) vs xs -> runs B scalar other cval xs bern_code bern_outs p ->
        kernel_runs scalar other cval h' rho (remove_constants h (PVar <$> vs)) inner p.
  Proof using All.
    intros (p & Hrv & Hsd) Hpass Hf Hbl vs.
    unfold bern_logistic_finder, with_rv. rewrite Hn, Hy, (bern_match_matched B h y p c X beta Hrv Hsd).
    destruct (check_cases B h c) as [(e & _ & _ & _ & Hp)|[(_ & _ & Hp)|(-> & _ & _)]]; [by destruct (Hp Hpass)..|]. cbn [rbind].
    destruct (owner_input4_cases h Hg beta) as [(std' & -> & Hf')|(e & _ & _ & Hno)]; [|exfalso; apply Hno; eauto].
    rewrite (fifth_fun h _ _ _ Hf' Hf) in *. clear Hf' std'.
    destruct (sigmoid_some h Hg _ _ _ _ Hsd) as [SX Sb].
    assert (Soth : forall u, u ∈ [X; y] -> is_Some (hv h u)).
    { apply two_some; [exact SX|exact (y_some h Hg n nd y Hn Hy)]. }
    destruct Hbl as (std' & Hf' & Hd1 & Hd2 & Hns). rewrite (fifth_fun h _ _ _ Hf' Hf) in *. clear Hf' std'.
    destruct (index_error_cases B h std X (proj2 (fifth_some h Hg _ _ Hf)) SX) as [[_ Hix]|[-> _]]; [exfalso; by apply Hix|].
    pose proof (kernel_values B h [X; y] [posterior_name h beta "beta"] bern_code bern_outs K_bern beta std Hg Hcl HB eq_refl eq_refl Soth Hf Hns) as H.
    cbv zeta in H. subst vs. destruct (mk_body B h _ _ _) as [h1 inner].
    change [PVar beta; PVar std; PVar X; PVar y] with (PVar <$> [beta; std; X; y]).
    destruct H as (h2 & outs & m & -> & E2 & G2 & Hlen & Ho & Hm & Hk).
    destruct outs as [|bp [|]]; try done. exists h2, bp, m, inner. split; [done|]. split; [done|]. split; [apply Ho; by left|].
    split; [apply Hm, extends_refl|]. intros scalar other cval rho xs P H1 H2 H3 H4 H5 H6. eapply Hk; eauto. apply extends_refl.
  Qed.

  Lemma nbinom_kernel hh c X beta std : nbinom_form h y hh c X beta -> passes B h c -> fifth_input h beta std -> buildable B h beta X [hh; y] ->
    gamma_params_plain h hh ->
    let vs := [beta; std; X; hh; y] in
    exists h' beta' m inner rest, nbinom_logistic_finder B h n = (h', Ok ((beta, beta', []) :: rest)) /\ extends h h' /\ hv h beta' = None /\
      kernel_node h' m (remove_constants h (PVar <$> vs)) inner [beta'] /\
      forall scalar other cval rho xs p, ranks_ok B other -> constants_ok B cval -> gives_old h rho -> no_constants h rho ->
        Forall2 (has_value B scalar other cval h rho) vs xs -> runs B scalar other cval xs nbinom_code nbinom_outs p ->
        kernel_runs scalar other cval h' rho (remove_constants h (PVar <$> vs)) inner p.
  Proof using All.
    intros (p & Hrv & Hsd) Hpass Hf Hbl Hpl vs.
    unfold nbinom_logistic_finder, with_rv. rewrite Hn, Hy, (nbinom_match_matched B h y hh p c X beta Hrv Hsd).
    destruct (check_cases B h c) as [(e & _ & _ & _ & Hp)|[(_ & _ & Hp)|(-> & _ & _)]]; [by destruct (Hp Hpass)..|]. cbn [rbind].
    destruct (owner_input4_cases h Hg beta) as [(std' & -> & Hf')|(e & _ & _ & Hno)]; [|exfalso; apply Hno; eauto].
    rewrite (fifth_fun h _ _ _ Hf' Hf) in *. clear Hf' std'.
    destruct (sigmoid_some h Hg _ _ _ _ Hsd) as [SX Sb]. pose proof (rv_some h Hg _ _ _ Hrv hh ltac:(by left)) as Sh.
    pose proof (y_some h Hg n nd y Hn Hy) as Sy.
    assert (Soth : forall u, u ∈ [X; hh; y] -> is_Some (hv h u)).
    { intros u [->|Hux]%elem_of_cons; [exact SX|]. revert u Hux. apply two_some; [exact Sh|exact Sy]. }
    destruct Hbl as (std' & Hf' & Hd1 & Hd2 & Hns). rewrite (fifth_fun h _ _ _ Hf' Hf) in *. clear Hf' std'.
    destruct (index_error_cases B h std X (proj2 (fifth_some h Hg _ _ Hf)) SX) as [[_ Hix]|[-> _]]; [exfalso; by apply Hix|].
    pose proof (kernel_values B h [X; hh; y] [posterior_name h beta "beta"] nbinom_code nbinom_outs K_nbreg beta std Hg Hcl HB eq_refl eq_refl Soth Hf Hns) as H.
    cbv zeta in H. subst vs. destruct (mk_body B h _ _ _) as [h1 inner].
    change [PVar beta; PVar std; PVar X; PVar hh; PVar y] with (PVar <$> [beta; std; X; hh; y]).
    destruct H as (h2 & outs & m & -> & E2 & G2 & Hlen & Ho & Hm & Hk).
    destruct outs as [|bp [|]]; try done. destruct (Ho bp ltac:(by left)) as (Hfr & Sbp & _).
    assert (Hup : forall u, is_Some (hv h u) -> is_Some (hv h2 u)) by (intros u; by apply extends_some).
    destruct (gamma_match h2 hh) as [[ga gb]|ge] eqn:Hgm.
    - apply gamma_match_iff in Hgm. apply (rv_node_extends h Hg h2 hh) in Hgm; [|done|done].
      pose proof (rv_some h Hg _ _ _ Hgm ga ltac:(by left)) as Sga. pose proof (rv_some h Hg _ _ _ Hgm gb ltac:(right; by left)) as Sgb.
      assert (Phh : ~ shared_var h2 hh).
      { intros Hs. apply (shared_extends h h2) in Hs; [|done|done]. apply (Hns hh); [|done]. do 3 right. by left. }
      assert (Py : ~ shared_var h2 y).
      { intros Hs. apply (shared_extends h h2) in Hs; [|done|exact Sy]. apply (Hns y); [|done]. do 4 right. by left. }
      destruct (dispersion_cases B h Hg n nd y Hn Hy (fun v _ => Hleaf v) h2 X hh bp ga gb G2 (Hup _ SX) (Hup _ Sh) Sbp (Hup _ Sy) (Hup _ Sga) (Hup _ Sgb) Phh Py)
        as [(Hsh & h' & e & ->)|(Na & Nb & h' & hp & u1 & u2 & rs & rg & r1 & r2 & m' & ins & x & gn & sn & -> & E3 & G3 & _)].
      + exfalso. destruct (Hpl ga gb Hgm) as [N1 N2].
        destruct Hsh as [Hs|Hs]; (apply (shared_extends h h2) in Hs; [|done|done]); done.
      + exists h', bp, m, inner. eexists. split; [done|]. split; [by eapply extends_trans|]. split; [done|].
        split; [by apply Hm|]. intros scalar other cval rho xs P H1 H2 H3 H4 H5 H6. eapply Hk; eauto.
    - apply gamma_match_exn in Hgm as Hge. subst ge. exists h2, bp, m, inner, []. split; [done|]. split; [done|]. split; [done|].
      split; [apply Hm, extends_refl|]. intros scalar other cval rho xs P H1 H2 H3 H4 H5 H6. eapply Hk; eauto. apply extends_refl.
  Qed.
End finders.
