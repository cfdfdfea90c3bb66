(** Lemmas for the matching functions of gibbs.py. *)
From Verif Require Import S_match L_match.

Ltac inv_inst :=
  repeat match goal with
  | H : instance _ _ (PEt _ _) _ |- _ => inversion H; subst; clear H
  | H : instance _ _ PAny _ |- _ => clear H
  | H : instance _ _ (PLv _) _ |- _ => inversion H; subst; clear H
  | H : instances _ _ (_ :: _) _ |- _ => inversion H; subst; clear H
  | H : instances _ _ [] _ |- _ => inversion H; subst; clear H
  end.

Lemma umatch_top h p v s : NoDup (pat_lvs p) -> umatch h p v [] = Some s ->
  dkeys s = pat_lvs p /\ instance h (dget s) p v.
Proof. intros Hnd Hm. by destruct (umatch_sound h p v [] s Hnd Hm) as (e & -> & Hk & Hi). Qed.

Lemma umatch_applied h o ps v s ins : applied h v o ins -> umatch h (PEt o ps) v s = umatches h ps ins s.
Proof.
  intros (n & k & nd & Ho & Hn & Hs & <-). rewrite umatch_et, Ho, Hn. apply op_unify_spec in Hs. by rewrite Hs.
Qed.

Lemma rv_node_applied h v d params :
  rv_node h v d params <-> exists r sz dt, applied h v (ORV d) (r :: sz :: dt :: params).
Proof.
  split.
  - intros (n & k & nd & r & sz & dt & Ho & Hn & Hop & Hi). exists r, sz, dt, n, k, nd. split_and!; [done..| |done].
    by rewrite Hop.
  - intros (r & sz & dt & n & k & nd & Ho & Hn & Hop & Hi). exists n, k, nd, r, sz, dt. split_and!; [done..| |done].
    unfold stands_for in Hop. by destruct (n_op nd); simplify_eq.
Qed.

Lemma umatches_cons h p ps v vs s : umatches h (p :: ps) (v :: vs) s = match umatch h p v s with Some s' => umatches h ps vs s' | None => None end.
Proof. done. Qed.
Lemma umatches_any h ps v vs s : umatches h (PAny :: ps) (v :: vs) s = umatches h ps vs s.
Proof. done. Qed.
Lemma umatches_lv h i ps v vs s : umatches h (PLv i :: ps) (v :: vs) s = umatches h ps vs (dset s i v).
Proof. done. Qed.
Ltac um := rewrite ?umatches_any, ?umatches_lv.

Ltac get_dict :=
  repeat match goal with
  | H : dget _ _ = Some _ |- _ => vm_compute in H; injection H as <-
  end.
Ltac fin := first [done | symmetry; eassumption | eassumption].

(** ** horseshoe *)
Lemma umatch_horseshoe h v s :
  umatch h horseshoe_pattern v [] = Some s <->
  exists mu scale a b, rv_node h v RV_normal [mu; scale] /\ applied h scale (OElem E_mul) [a; b] /\
    s = [(zero_lv, mu); (halfcauchy_1_lv, a); (halfcauchy_2_lv, b)].
Proof.
  split.
  - intros Hm. apply umatch_top in Hm as [Hk Hi]; [|repeat constructor; set_solver].
    unfold horseshoe_pattern in Hi. inv_inst. cbn in Hk.
    destruct s as [|[q1 w1] [|[q2 w2] [|[q3 w3] [|]]]]; try discriminate Hk. cbn in Hk. injection Hk as -> -> ->. get_dict.
    do 4 eexists. split_and!; [| |done].
    + apply rv_node_applied. do 6 eexists. split_and!; fin.
    + do 3 eexists. split_and!; fin.
  - intros (mu & scale & a & b & Hrv & Happ & ->). apply rv_node_applied in Hrv as (r & sz & dt & Hrv).
    unfold horseshoe_pattern. rewrite (umatch_applied _ _ _ _ _ _ Hrv). um. rewrite umatches_cons.
    by rewrite (umatch_applied _ _ _ _ _ _ Happ).
Qed.

Lemma is_halfcauchy_spec h v : is_halfcauchy h v = true <-> half_cauchy h v.
Proof.
  unfold is_halfcauchy, half_cauchy, owner_op. destruct (owner h v) as [[n k]|] eqn:Ho; cbn.
  - destruct (hn h n) as [nd|] eqn:Hn; cbn.
    + split.
      * intros H. destruct (n_op nd) eqn:Hop; try done. apply bool_decide_eq_true in H as ->. by exists n, k, nd.
      * intros (n' & k' & nd' & ? & ? & Hop). simplify_eq. rewrite Hop. done.
    + split; [done|]. intros (n' & k' & nd' & ? & ? & Hop). simplify_eq.
  - split; [done|]. intros (n' & k' & nd' & ? & ? & Hop). simplify_eq.
Qed.

Lemma scalar_like_spec A h v : scalar_like A h v = true <-> one_element A h v.
Proof.
  unfold scalar_like, one_element. destruct (ty_of h v) as [ty|]; [|split; [done|by intros (? & ? & _)]].
  rewrite orb_true_iff, bool_decide_eq_true.
  assert (Hf : forallb (fun s => bool_decide (s = Some 1)) (a_shape A ty) = true <-> Forall (fun d => d = Some 1) (a_shape A ty)).
  { rewrite forallb_forall, Forall_forall. split; intros H x Hx.
    - apply elem_of_list_In, H, bool_decide_eq_true in Hx. done.
    - apply bool_decide_eq_true. by apply H, elem_of_list_In. }
  rewrite Hf. split; [eauto|]. by intros (ty' & [= <-] & H).
Qed.

(** acceptance, whatever the subsumed products stand for *)
Lemma horseshoe_match_iff A h v lam tau :
  horseshoe_match A h v = Ok (lam, tau) <->
  exists mu scale a b, rv_node h v RV_normal [mu; scale] /\ applied h scale (OElem E_mul) [a; b] /\
    half_cauchy h a /\ half_cauchy h b /\
    ((one_element A h a /\ tau = a /\ lam = b) \/ (~ one_element A h a /\ one_element A h b /\ tau = b /\ lam = a)).
Proof.
  unfold horseshoe_match. destruct (umatch h horseshoe_pattern v []) as [s|] eqn:Hm.
  - apply umatch_horseshoe in Hm as (mu & scale & a & b & Hrv & Happ & ->).
    change (dget _ halfcauchy_1_lv) with (Some a). change (dget _ halfcauchy_2_lv) with (Some b). cbv iota beta.
    split.
    + intros H. exists mu, scale, a, b. split; [done|]. split; [done|].
      destruct (is_halfcauchy h a) eqn:Ha; [|done]. destruct (is_halfcauchy h b) eqn:Hb; [|done].
      apply is_halfcauchy_spec in Ha, Hb. split; [done|]. split; [done|].
      destruct (scalar_like A h a) eqn:Hsa; [left|right].
      * apply scalar_like_spec in Hsa. by injection H as -> ->.
      * destruct (scalar_like A h b) eqn:Hsb; [|done]. injection H as -> ->. rewrite <- !scalar_like_spec, Hsa. done.
    + intros (mu' & scale' & a' & b' & Hrv' & Happ' & Ha & Hb & Hc).
      assert (a' = a /\ b' = b) as [-> ->].
      { apply rv_node_applied in Hrv as (r & sz & dt & n & k & nd & Ho & Hn & _ & Hi), Hrv' as (r' & sz' & dt' & n' & k' & nd' & Ho' & Hn' & _ & Hi').
        simplify_eq. rewrite Hi in Hi'. simplify_eq.
        destruct Happ as (n2 & k2 & nd2 & Ho2 & Hn2 & _ & Hi2), Happ' as (n2' & k2' & nd2' & Ho2' & Hn2' & _ & Hi2'). simplify_eq.
        rewrite Hi2 in Hi2'. by simplify_eq. }
      apply is_halfcauchy_spec in Ha, Hb. rewrite Ha, Hb. rewrite <- !scalar_like_spec in Hc.
      destruct Hc as [(-> & -> & ->)|(Hna & -> & -> & ->)]; [done|]. by destruct (scalar_like A h a).
  - split; [done|]. intros (mu & scale & a & b & Hrv & Happ & _).
    assert (Hx : umatch h horseshoe_pattern v [] = Some [(zero_lv, mu); (halfcauchy_1_lv, a); (halfcauchy_2_lv, b)]).
    { apply umatch_horseshoe. eauto 10. }
    congruence.
Qed.

Lemma horseshoe_match_exn A h v e : horseshoe_match A h v = Raise e -> e = ValueError.
Proof.
  unfold horseshoe_match. destruct (umatch h horseshoe_pattern v []) as [s|] eqn:Hm.
  - apply umatch_horseshoe in Hm as (mu & scale & a & b & Hrv & Happ & ->).
    change (dget _ halfcauchy_1_lv) with (Some a). change (dget _ halfcauchy_2_lv) with (Some b). cbv iota beta.
    destruct (is_halfcauchy h a); [|by intros [=]]. destruct (is_halfcauchy h b); [|by intros [=]].
    destruct (scalar_like A h a); [done|]. destruct (scalar_like A h b); [done|by intros [=]].
  - by intros [=].
Qed.

(** ** gamma *)
Lemma umatch_gamma h v s :
  umatch h gamma_pattern v [] = Some s <->
  exists a b, rv_node h v RV_gamma [a; b] /\ s = [(a_lv, a); (b_lv, b)].
Proof.
  split.
  - intros Hm. apply umatch_top in Hm as [Hk Hi]; [|repeat constructor; set_solver].
    unfold gamma_pattern in Hi. inv_inst. cbn in Hk.
    destruct s as [|[q1 w1] [|[q2 w2] [|]]]; try discriminate Hk. cbn in Hk. injection Hk as -> ->. get_dict.
    do 2 eexists. split; [|done]. apply rv_node_applied. do 6 eexists. split_and!; fin.
  - intros (a & b & Hrv & ->). apply rv_node_applied in Hrv as (r & sz & dt & Hrv).
    unfold gamma_pattern. by rewrite (umatch_applied _ _ _ _ _ _ Hrv).
Qed.

Lemma gamma_match_iff h v a b : gamma_match h v = Ok (a, b) <-> rv_node h v RV_gamma [a; b].
Proof.
  unfold gamma_match. destruct (umatch h gamma_pattern v []) as [s|] eqn:Hm.
  - pose proof Hm as Hm'. apply umatch_gamma in Hm as (a' & b' & Hrv & ->). cbn. split.
    + by intros [= -> ->].
    + intros Hrv2. assert (Hx : umatch h gamma_pattern v [] = Some [(a_lv, a); (b_lv, b)]) by (apply umatch_gamma; eauto).
      rewrite Hm' in Hx. by simplify_eq.
  - split; [done|]. intros Hrv. assert (Hx : umatch h gamma_pattern v [] = Some [(a_lv, a); (b_lv, b)]) by (apply umatch_gamma; eauto).
    congruence.
Qed.

Lemma gamma_match_exn h v e : gamma_match h v = Raise e -> e = ValueError.
Proof.
  unfold gamma_match. destruct (umatch h gamma_pattern v []) as [s|] eqn:Hm; [|by intros [=]].
  apply umatch_gamma in Hm as (a & b & Hrv & ->). done.
Qed.

(** ** regressions *)
Lemma umatch_sigmoid h v c X beta s0 :
  sigmoid_dot h v c X beta ->
  umatch h sigmoid_dot_pattern v s0 = Some (dset (dset (dset s0 neg_one_lv c) X_lv X) beta_lv beta).
Proof.
  intros (m & d & H1 & H2 & H3). unfold sigmoid_dot_pattern. rewrite (umatch_applied _ _ _ _ _ _ H1), umatches_cons.
  rewrite (umatch_applied _ _ _ _ _ _ H2). um. rewrite umatches_cons. by rewrite (umatch_applied _ _ _ _ _ _ H3).
Qed.

Lemma umatch_nbinom h v s :
  umatch h nbinom_sigmoid_dot_pattern v [] = Some s <->
  exists hh p c X beta, rv_node h v RV_nbinom [hh; p] /\ sigmoid_dot h p c X beta /\
    s = [(h_lv, hh); (neg_one_lv, c); (X_lv, X); (beta_lv, beta)].
Proof.
  split.
  - intros Hm. apply umatch_top in Hm as [Hk Hi]; [|repeat constructor; set_solver].
    unfold nbinom_sigmoid_dot_pattern, sigmoid_dot_pattern in Hi. inv_inst. cbn in Hk.
    destruct s as [|[q1 w1] [|[q2 w2] [|[q3 w3] [|[q4 w4] [|]]]]]; try discriminate Hk. cbn in Hk. injection Hk as -> -> -> ->. get_dict.
    do 5 eexists. split_and!; [| |done].
    + apply rv_node_applied. do 6 eexists. split_and!; fin.
    + do 2 eexists. split_and!; do 3 eexists; split_and!; fin.
  - intros (hh & p & c & X & beta & Hrv & Hsd & ->). apply rv_node_applied in Hrv as (r & sz & dt & Hrv).
    unfold nbinom_sigmoid_dot_pattern. rewrite (umatch_applied _ _ _ _ _ _ Hrv). um. rewrite umatches_cons.
    by rewrite (umatch_sigmoid _ _ _ _ _ _ Hsd).
Qed.

Lemma umatch_bern h v s :
  umatch h bernoulli_sigmoid_dot_pattern v [] = Some s <->
  exists p c X beta, rv_node h v RV_bernoulli [p] /\ sigmoid_dot h p c X beta /\
    s = [(neg_one_lv, c); (X_lv, X); (beta_lv, beta)].
Proof.
  split.
  - intros Hm. apply umatch_top in Hm as [Hk Hi]; [|repeat constructor; set_solver].
    unfold bernoulli_sigmoid_dot_pattern, sigmoid_dot_pattern in Hi. inv_inst. cbn in Hk.
    destruct s as [|[q1 w1] [|[q2 w2] [|[q3 w3] [|]]]]; try discriminate Hk. cbn in Hk. injection Hk as -> -> ->. get_dict.
    do 4 eexists. split_and!; [| |done].
    + apply rv_node_applied. do 6 eexists. split_and!; fin.
    + do 2 eexists. split_and!; do 3 eexists; split_and!; fin.
  - intros (p & c & X & beta & Hrv & Hsd & ->). apply rv_node_applied in Hrv as (r & sz & dt & Hrv).
    unfold bernoulli_sigmoid_dot_pattern. rewrite (umatch_applied _ _ _ _ _ _ Hrv). um. rewrite umatches_cons.
    by rewrite (umatch_sigmoid _ _ _ _ _ _ Hsd).
Qed.

Lemma data_of_spec A h v x : data_of A h v = Ok x <-> exists c, constant_of h v c /\ x = a_data A c.
Proof.
  unfold data_of, constant_of. destruct (hv h v) as [[nm ty [c|u|] [ow|]]|]; split; try done;
    try (by intros (c' & (nm' & ty' & ?) & ?)).
  - intros [= <-]. eauto.
  - intros (c' & (nm' & ty' & [= <- <- <-]) & ->). done.
Qed.
Lemma data_of_exn A h v e : data_of A h v = Raise e -> e = AttributeError /\ ~ exists c, constant_of h v c.
Proof.
  unfold data_of, constant_of. destruct (hv h v) as [[nm ty [c|u|] [ow|]]|]; intros [=<-]; (split; [done|]);
    by intros (c' & nm' & ty' & ?).
Qed.

(** what the test [all(c.data != -1)] does *)
Definition neg_one_check (A : typing) (h : heap) (c : vid) : result unit :=
  rbind (data_of A h c) (fun data =>
  rbind (all_ne_minus1 data) (fun b => if b : bool then Raise ValueError else Ok tt)).

Lemma nbinom_match_matched A h v hh p c X beta :
  rv_node h v RV_nbinom [hh; p] -> sigmoid_dot h p c X beta ->
  nbinom_sigmoid_dot_match A h v = rbind (neg_one_check A h c) (fun _ => Ok (X, hh, beta)).
Proof.
  intros Hrv Hsd. unfold nbinom_sigmoid_dot_match.
  assert (umatch h nbinom_sigmoid_dot_pattern v [] = Some [(h_lv, hh); (neg_one_lv, c); (X_lv, X); (beta_lv, beta)]) as ->
    by (apply umatch_nbinom; eauto 10).
  done.
Qed.
Lemma nbinom_match_other A h v :
  (~ exists hh p c X beta, rv_node h v RV_nbinom [hh; p] /\ sigmoid_dot h p c X beta) ->
  nbinom_sigmoid_dot_match A h v = Raise ValueError.
Proof.
  intros Hno. unfold nbinom_sigmoid_dot_match. destruct (umatch h nbinom_sigmoid_dot_pattern v []) as [s|] eqn:Hm; [|done].
  apply umatch_nbinom in Hm as (hh & p & c & X & beta & H1 & H2 & _). exfalso. apply Hno. eauto 10.
Qed.
Lemma nbinom_matched_dec h v :
  (exists hh p c X beta, rv_node h v RV_nbinom [hh; p] /\ sigmoid_dot h p c X beta) \/
  ~ (exists hh p c X beta, rv_node h v RV_nbinom [hh; p] /\ sigmoid_dot h p c X beta).
Proof.
  destruct (umatch h nbinom_sigmoid_dot_pattern v []) as [s|] eqn:Hm.
  - left. apply umatch_nbinom in Hm as (hh & p & c & X & beta & H1 & H2 & _). eauto 10.
  - right. intros (hh & p & c & X & beta & H1 & H2).
    assert (umatch h nbinom_sigmoid_dot_pattern v [] = Some [(h_lv, hh); (neg_one_lv, c); (X_lv, X); (beta_lv, beta)])
      by (apply umatch_nbinom; eauto 10). congruence.
Qed.

Lemma bern_match_matched A h v p c X beta :
  rv_node h v RV_bernoulli [p] -> sigmoid_dot h p c X beta ->
  bern_sigmoid_dot_match A h v = rbind (neg_one_check A h c) (fun _ => Ok (X, beta)).
Proof.
  intros Hrv Hsd. unfold bern_sigmoid_dot_match.
  assert (umatch h bernoulli_sigmoid_dot_pattern v [] = Some [(neg_one_lv, c); (X_lv, X); (beta_lv, beta)]) as ->
    by (apply umatch_bern; eauto 10).
  done.
Qed.
Lemma bern_match_other A h v :
  (~ exists p c X beta, rv_node h v RV_bernoulli [p] /\ sigmoid_dot h p c X beta) ->
  bern_sigmoid_dot_match A h v = Raise ValueError.
Proof.
  intros Hno. unfold bern_sigmoid_dot_match. destruct (umatch h bernoulli_sigmoid_dot_pattern v []) as [s|] eqn:Hm; [|done].
  apply umatch_bern in Hm as (p & c & X & beta & H1 & H2 & _). exfalso. apply Hno. eauto 10.
Qed.
Lemma bern_matched_dec h v :
  (exists p c X beta, rv_node h v RV_bernoulli [p] /\ sigmoid_dot h p c X beta) \/
  ~ (exists p c X beta, rv_node h v RV_bernoulli [p] /\ sigmoid_dot h p c X beta).
Proof.
  destruct (umatch h bernoulli_sigmoid_dot_pattern v []) as [s|] eqn:Hm.
  - left. apply umatch_bern in Hm as (p & c & X & beta & H1 & H2 & _). eauto 10.
  - right. intros (p & c & X & beta & H1 & H2).
    assert (umatch h bernoulli_sigmoid_dot_pattern v [] = Some [(neg_one_lv, c); (X_lv, X); (beta_lv, beta)])
      by (apply umatch_bern; eauto 10). congruence.
Qed.

(** a vector of constants *)
Lemma py_all_vector zs : py_all (NScalar <$> zs) = Ok (negb (bool_decide ((-1)%Z ∈ zs))).
Proof.
  induction zs as [|z zs IH]; [done|]. cbn [fmap list_fmap py_all ne_minus1 np_bool rbind].
  destruct (Z.eqb_spec z (-1)) as [->|Hne]; cbn.
  - rewrite bool_decide_true by (by left). done.
  - rewrite IH. f_equal. f_equal. apply bool_decide_ext. rewrite elem_of_cons. naive_solver.
Qed.
