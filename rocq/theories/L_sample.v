From Verif Require Export M_sample S_utils L_utils L_eval.

Section sample.
  Context {D : Type}.
  Context (base : op -> list D -> option (list D)) (cval : nat -> D).

  Lemma scan_run_envs h rvs updates n rho xss rho' :
    scan_run base cval h rvs updates n rho xss rho' ->
    length xss = n /\
    exists envs : nat -> vid -> option D,
      envs 0 = rho /\ envs n = rho' /\
      (forall i, i < n -> exists xs, xss !! i = Some xs /\ evals_list base cval h (envs i) rvs xs) /\
      (forall i, i < n -> next_env base cval h updates (envs i) (envs (S i))).
  Proof.
    induction 1 as [rho|n rho xs rho1 xss rho2 Hx Hne Hrun IH].
    - split; [done|]. exists (fun _ => rho). split_and!; [done|done|lia|lia].
    - destruct IH as (Hlen & envs & H0 & Hn & Hs & Hu). split; [simpl; lia|].
      exists (fun i => match i with 0 => rho | S j => envs j end). split_and!; [done|done| |].
      + intros [|i] Hi; [by exists xs|]. simpl. apply Hs. lia.
      + intros [|i] Hi; [by rewrite H0|]. apply Hu. lia.
  Qed.

  Lemma next_env_det h updates rho r1 r1' r2 r2' :
    (forall v, r1 v = r2 v) ->
    next_env base cval h updates r1 r1' -> next_env base cval h updates r2 r2' ->
    rho = r1 -> forall v, r1' v = r2' v.
  Proof.
    intros He [H1 H1'] [H2 H2'] -> v. destruct (dget updates v) as [u|] eqn:Hu.
    - destruct (H1 _ _ Hu) as (x & Hx & ->), (H2 _ _ Hu) as (y & Hy & ->). f_equal.
      eapply evals_det; [exact Hx|].
      eapply (evals_agree base cval (fun _ => True)); [done|by split|by intros; apply He|exact Hy|done].
    - rewrite H1', H2' by done. apply He.
  Qed.

  Lemma scan_run_det h rvs updates n rho1 rho2 xss1 xss2 r1 r2 :
    (forall v, rho1 v = rho2 v) ->
    scan_run base cval h rvs updates n rho1 xss1 r1 ->
    scan_run base cval h rvs updates n rho2 xss2 r2 ->
    xss1 = xss2 /\ forall v, r1 v = r2 v.
  Proof.
    intros He H1. revert rho2 xss2 r2 He.
    induction H1 as [rho|n rho xs rho' xss r1 Hx Hne Hrun IH]; intros rho2 xss2 r2 He H2.
    { by inversion H2; subst. }
    inversion H2 as [|n' rho2' ys rho2'' yss r2' Hy Hne2 Hrun2]; subst.
    assert (xs = ys) as ->.
    { eapply evals_list_det; [done|].
      eapply (proj2 (evals_agree_mut base cval (fun _ => True) h h rho2 rho
        ltac:(done) ltac:(by split) ltac:(by intros; apply He))); done. }
    destruct (IH rho2'' yss r2) as [-> Hr]; [|done..].
    by eapply (next_env_det h updates rho rho rho' rho2 rho2'').
  Qed.

  (** one iteration, described by the specification only *)
  Definition advances (h : heap) (su : list (vid * vid)) (rvs : list vid)
      (e e' : vid -> option D) : Prop :=
    forall v,
      (forall u, reachable h rvs v -> wanted_update h su v u ->
         exists x, evals base cval h e u x /\ e' v = Some x) /\
      ((~ exists u, reachable h rvs v /\ wanted_update h su v u) -> e' v = e v).

  Lemma sample_prior_spec h su rvs anc n rho xss rho' :
    NoDup (map fst su) -> enumerates_ancestors h rvs anc ->
    sample_prior_run base cval h su anc rvs n rho xss rho' ->
    length xss = n /\
    exists envs : nat -> vid -> option D,
      envs 0 = rho /\ envs n = rho' /\
      (forall i, i < n -> exists xs, xss !! i = Some xs /\ evals_list base cval h (envs i) rvs xs) /\
      (forall i, i < n -> advances h su rvs (envs i) (envs (S i))).
  Proof.
    intros Hsu Hanc (upd & Hupd & Hrun).
    pose proof (get_rv_updates_exact h su Hsu rvs anc upd Hanc Hupd) as [_ Hex].
    apply scan_run_envs in Hrun as (Hlen & envs & H0 & Hn & Hs & Hu).
    split; [done|]. exists envs. split_and!; [done..|].
    intros i Hi v. destruct (Hu i Hi) as [Hu1 Hu2]. split.
    - intros u Hr Hw. apply Hu1. apply Hex. done.
    - intros Hno. apply Hu2. destruct (dget upd v) as [u|] eqn:Hd; [|done].
      exfalso. apply Hno. exists u. by apply Hex.
  Qed.

  Lemma sample_prior_det h su rvs anc n rho xss1 xss2 r1 r2 :
    sample_prior_run base cval h su anc rvs n rho xss1 r1 ->
    sample_prior_run base cval h su anc rvs n rho xss2 r2 ->
    xss1 = xss2 /\ forall v, r1 v = r2 v.
  Proof.
    intros (u1 & Hu1 & H1) (u2 & Hu2 & H2). rewrite Hu1 in Hu2. simplify_eq.
    by eapply scan_run_det.
  Qed.

  Lemma shared_ancestor h rho a xa rvs xs :
    evals base cval h rho a xa ->
    evals_list base cval h rho rvs xs <->
    evals_list base cval h (fun v => if decide (v = a) then Some xa else rho v) rvs xs.
  Proof.
    intros Ha. set (rho' := fun v => _).
    assert (rho' a = Some xa) by (unfold rho'; by rewrite decide_True).
    assert (forall v, v <> a -> rho' v = rho v) by (intros; unfold rho'; by rewrite decide_False).
    split.
    - by apply (evals_fix_mut base cval h rho rho' a xa).
    - by apply (evals_unfix_mut base cval h rho rho' a xa).
  Qed.
End sample.

Lemma sample_prior_exists {D} (base : op -> list D -> option (list D)) cval
    h su rvs anc n rho :
  (exists upd, get_rv_updates h su anc = Ok upd) ->
  NoDup (map fst su) -> enumerates_ancestors h rvs anc ->
  (forall rho1 : vid -> option D, (forall v, is_Some (rho v) -> is_Some (rho1 v)) ->
     (exists xs, evals_list base cval h rho1 rvs xs) /\
     (forall v u, reachable h rvs v -> wanted_update h su v u -> exists x, evals base cval h rho1 u x)) ->
  exists samples rho', sample_prior_run base cval h su anc rvs n rho samples rho'.
Proof.
  intros [upd Hupd] Hsu Hanc Hev.
  pose proof (get_rv_updates_exact h su Hsu rvs anc upd Hanc Hupd) as [Hnd Hex].
  cut (exists samples rho', scan_run base cval h rvs upd n rho samples rho').
  { intros (xs & r & H). exists xs, r, upd. done. }
  (* the next state of an environment *)
  assert (Hnext : forall rho1, (forall v, is_Some (rho v) -> is_Some (rho1 v)) ->
    exists rho2, next_env base cval h upd rho1 rho2 /\ (forall v, is_Some (rho v) -> is_Some (rho2 v))).
  { intros rho1 Hle.
    assert (forall v u, dget upd v = Some u -> exists x, evals base cval h rho1 u x) as Hall.
    { intros v u Hvu. apply Hex in Hvu as [Hr Hw]. by eapply (Hev rho1 Hle). }
    assert (Hd : forall d : dict nat nat, NoDup (dkeys d) ->
      (forall v u, dget d v = Some u -> exists x, evals base cval h rho1 u x) ->
      exists rho2, next_env base cval h d rho1 rho2).
    { clear. induction d as [|[v0 u0] d IH]; intros Hnd Hd.
      - exists rho1. split; [done|]. by intros.
      - simpl in Hnd. apply NoDup_cons in Hnd as [Hv0 Hnd].
        destruct (Hd v0 u0) as [x0 Hx0]; [simpl; by rewrite decide_True|].
        destruct IH as (rho2 & H1 & H2); [done| |].
        { intros v u Hvu. apply (Hd v). simpl. rewrite decide_False; [done|].
          intros ->. apply Hv0. apply dget_in. eauto. }
        exists (fun v => if decide (v = v0) then Some x0 else rho2 v). split.
        + intros v u. simpl. case_decide as Hv; [|auto]. intros ?; simplify_eq. eauto.
        + intros v. simpl. case_decide; [done|]. auto. }
    destruct (Hd upd Hnd Hall) as [rho2 [H1 H2]]. exists rho2. split; [by split|].
    intros v Hv. destruct (dget upd v) as [u|] eqn:Hu.
    - destruct (H1 _ _ Hu) as (x & _ & ->). eauto.
    - rewrite H2 by done. by apply Hle. }
  assert (Hgen : forall rho1, (forall v, is_Some (rho v) -> is_Some (rho1 v)) ->
    exists samples rho', scan_run base cval h rvs upd n rho1 samples rho').
  { clear Hupd. induction n as [|n IH]; intros rho1 Hle.
    - exists [], rho1. constructor.
    - destruct (Hnext rho1 Hle) as (rho2 & Hne & Hle2).
      destruct (Hev rho1 Hle) as [[xs Hxs] _].
      destruct (IH rho2 Hle2) as (xss & r & Hrun).
      exists (xs :: xss), r. by econstructor. }
  apply Hgen. done.
Qed.
