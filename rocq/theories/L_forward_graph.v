(** Lemmas for C68: the graph of forward_step. *)
From Verif Require Export S_forward_graph L_ffbs_value2.
Global Open Scope nat_scope.

Lemma forward_code_values (cval : nat -> wval) B l Gam a bound a' : bound <> 0%R ->
  forward_step bound (length a) l Gam a = Some a' ->
  exists vals, vals_of forward_base cval B [WLogs l; WMat Gam; WVec a; WNum bound] forward_step_code = Some vals /\ length vals = 9 /\ vals !! 8 = Some (WVec a').
Proof.
  intros Hb Hf. unfold forward_step, lik in Hf. destruct (lmax l) as [m|] eqn:Hm; [|done].
  set (lk := map (fun x => match x with Some a => exp (a - m) | None => 0%R end) l) in Hf.
  set (al := vmul (length a) (vdot (length a) a Gam) lk) in Hf. injection Hf as Hf.
  eexists. split; [|split].
  - eapply (step _ _ _ _ _ _ (WLogs l)); [reflexivity|]. cbn [app].
    eapply (step _ _ _ _ _ _ (WVec lk)).
    { assert (Hlk : lk = map (fun x => match x with Some a => exp a | None => 0%R end) (map (fun x => match x with Some a => Some (a - m)%R | None => None end) l)).
      { unfold lk. rewrite map_map. apply map_ext. by intros [?|]. }
      rewrite Hlk. cbn. rewrite Hm. reflexivity. }
    cbn [app]. eapply (step _ _ _ _ _ _ (WVec al)).
    { change (Some (WVec (vmul (length (vdot (length a) a Gam)) (vdot (length a) a Gam) lk)) = Some (WVec al)).
      unfold al. unfold vdot at 1. by rewrite map_length, seq_length. }
    cbn [app]. eapply (step _ _ _ _ _ _ (WNum (lsum al))); [reflexivity|].
    cbn [app]. eapply (step _ _ _ _ _ _ (WVec a')); [|reflexivity].
    assert (Hd : val forward_base cval B [WLogs l; WMat Gam; WVec a; WNum bound; WLogs l; WVec lk; WVec al; WNum (lsum al)] (E2 E_truediv (EV 6) (EV 3)) = Some (WVec (map (fun y => y / bound)%R al))).
    { cbn. by destruct (Req_EM_T bound 0). }
    remember (E2 E_truediv (EV 6) (EV 3)) as e. cbn [val lookup list_lookup mbind option_bind] in *. rewrite Hd. clear Hd Heqe e.
    change (Some (WVec (if (if Rlt_dec (lsum al) bound then true else false) then map (fun y => y / bound)%R al else al)) = Some (WVec a')).
    rewrite <- Hf. by destruct (Rlt_dec (lsum al) bound).
  - reflexivity.
  - reflexivity.
Qed.

Lemma forward_shuffle order x : forward_base (ODimShuffle order) [x] = Some [x].
Proof. done. Qed.

Lemma forward_graph_value B h ll G al lb : good_heap h -> (forall u, u ∈ [ll; G; al; lb] -> is_Some (hv h u)) ->
  let '(h', out) := forward_step_graph B h ll G al lb in
  forall (cval : nat -> wval) (rho : vid -> option wval) l Gam a bound a',
    (forall u, hv h u = None -> rho u = None) ->
    rho ll = Some (WLogs l) -> rho G = Some (WMat Gam) -> rho al = Some (WVec a) -> rho lb = Some (WNum bound) -> bound <> 0%R ->
    forward_step bound (length a) l Gam a = Some a' -> evals forward_base cval h' rho out (WVec a').
Proof.
  intros Hg Hi. unfold forward_step_graph.
  pose proof (fun cval rho => kept_lets forward_base cval B forward_shuffle rho forward_step_code h [ll; G; al; lb]) as V. cbv zeta in V.
  destruct (mk_code B h _ _) as [h1 env]. cbn [fst snd] in V.
  intros cval rho l Gam a bound a' Hrho E0 E1 E2 E3 Hb Hf.
  destruct (forward_code_values cval B l Gam a bound a' Hb Hf) as (vals & Hv & _ & H8).
  assert (Hoks : Forall2 (ok forward_base cval rho h1) env vals).
  { apply (V cval rho [WLogs l; WMat Gam; WVec a; WNum bound]); [done|exact Hrho| |done].
    assert (Hk : forall u x, u ∈ [ll; G; al; lb] -> rho u = Some x -> ok forward_base cval rho h u x).
    { intros u x Hu Hx. split; [by apply Hi|by apply ev_given]. }
    do 4 (constructor; [apply Hk; [rewrite !elem_of_cons; tauto|done]|]). constructor. }
  destruct (Forall2_lookup_r _ _ _ _ _ Hoks H8) as (v & Hlv & _ & Hv'). by rewrite Hlv.
Qed.

Lemma forward_step_length bound M l G a a' : forward_step bound M l G a = Some a' -> length a' = M.
Proof.
  unfold forward_step. destruct (lik l) as [lk|]; [|done]. intros [= <-].
  destruct (Rlt_dec _ _); rewrite ?map_length; unfold vmul; by rewrite map_length, seq_length.
Qed.
Lemma forward_scan (step : list (option R) * mat -> M_ffbs.vec -> M_ffbs.vec -> Prop) bound M steps :
  (forall l G a a', length a = M -> forward_step bound (length a) l G a = Some a' -> step (l, G) a a') ->
  forall a acc alphas, length a = M -> forward bound M steps a acc = Some alphas ->
    exists outs, alphas = rev outs ++ acc /\ scan_outputs step steps a outs.
Proof.
  intros Hs. induction steps as [|[l G] steps IH]; intros a acc alphas Ha Hf; cbn [forward] in Hf.
  - injection Hf as <-. by exists [].
  - destruct (forward_step bound M l G a) as [a'|] eqn:Hst; [|done].
    destruct (IH a' (a' :: acc) alphas (forward_step_length _ _ _ _ _ _ Hst) Hf) as (outs & -> & Ho).
    exists (a' :: outs). split; [cbn; by rewrite <- app_assoc|]. split; [|exact Ho]. apply Hs; [done|]. by rewrite Ha.
Qed.
