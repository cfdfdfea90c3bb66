(** C68, continued: the graph of forward_step computes the forward weights. *)
From Verif Require Import L_forward_graph E_real.
From Coq Require Import Lra.
From Verif Require P_ffbs_graph.

(** ** C68: whatever the log likelihoods of a time, the transition matrix, the weights of the
    time before and the bound, if M_ffbs.forward_step gives weights (it does unless all the log
    likelihoods are minus infinity), then the variable that forward_step returns has them as its value. *)
Theorem C68_forward_step_computes :
  forall (B : builder) h log_lik_T_n Gamma_n alpha_nm1 lower_prec_bound,
    good_heap h -> (forall u, u ∈ [log_lik_T_n; Gamma_n; alpha_nm1; lower_prec_bound] -> is_Some (hv h u)) ->
    let '(h', rescaled_alpha_n) := forward_step_graph B h log_lik_T_n Gamma_n alpha_nm1 lower_prec_bound in
    forall (cval : nat -> wval) (rho : vid -> option wval) l G alpha bound alpha',
      (forall u, hv h u = None -> rho u = None) ->
      rho log_lik_T_n = Some (WLogs l) -> rho Gamma_n = Some (WMat G) -> rho alpha_nm1 = Some (WVec alpha) ->
      rho lower_prec_bound = Some (WNum bound) -> bound <> 0%R ->
      forward_step bound (length alpha) l G alpha = Some alpha' ->
      evals forward_base cval h' rho rescaled_alpha_n (WVec alpha').
Proof. exact forward_graph_value. Qed.
Print Assumptions C68_forward_step_computes.

(** The forward scan: each output of a scan over the log likelihoods and the matrices is the value
    that forward_step's variable has for the elements of the sequences and the output before
    if and only if the outputs are those of M_ffbs.forward (which lists them last first). *)
Theorem C68_forward_scan_computes :
  forall (B : builder) h log_lik_T_n Gamma_n alpha_nm1 lower_prec_bound,
    good_heap h -> (forall u, u ∈ [log_lik_T_n; Gamma_n; alpha_nm1; lower_prec_bound] -> is_Some (hv h u)) ->
    let '(h', rescaled_alpha_n) := forward_step_graph B h log_lik_T_n Gamma_n alpha_nm1 lower_prec_bound in
    forall (cval : nat -> wval) bound (steps : list (list (option R) * mat)) alpha alphas outs,
      bound <> 0%R -> NoDup [log_lik_T_n; Gamma_n; alpha_nm1; lower_prec_bound] ->
      forward bound (length alpha) steps alpha [] = Some alphas ->
      (scan_outputs (fun x prev out =>
        forall rho, (forall u, hv h u = None -> rho u = None) ->
          rho log_lik_T_n = Some (WLogs x.1) -> rho Gamma_n = Some (WMat x.2) -> rho alpha_nm1 = Some (WVec prev) ->
          rho lower_prec_bound = Some (WNum bound) -> evals forward_base cval h' rho rescaled_alpha_n (WVec out)) steps alpha outs <->
       outs = rev alphas).
Proof.
  intros B h ll G al lb Hg Hi. pose proof (forward_graph_value B h ll G al lb Hg Hi) as H.
  destruct (forward_step_graph B h ll G al lb) as [h' out].
  intros cval bound steps alpha alphas outs Hb Hnd Hf.
  match goal with |- scan_outputs ?st _ _ _ <-> _ => set (step := st) end.
  destruct (forward_scan step bound (length alpha) steps) with (a := alpha) (acc := @nil M_ffbs.vec) (alphas := alphas) as (outs' & -> & Ho'); [|done|done|].
  - intros l Gm a a' _ Hst rho Hrho E0 E1 E2 E3. by eapply H.
  - rewrite app_nil_r, rev_involutive. split; [intros Ho|by intros ->].
    assert (Hdet : forall x prev o1 o2, step x prev o1 -> step x prev o2 -> o1 = o2).
    { intros x prev o1 o2 H1 H2.
      set (rho := fun v => if decide (v = ll) then Some (WLogs x.1) else if decide (v = G) then Some (WMat x.2)
                           else if decide (v = al) then Some (WVec prev) else if decide (v = lb) then Some (WNum bound) else None).
      rewrite !NoDup_cons, !not_elem_of_cons in Hnd. destruct Hnd as ((?&?&?&_)&(?&?&_)&(?&_)&_).
      assert (Hrho : forall u, hv h u = None -> rho u = None).
      { intros u Hu. unfold rho. repeat (case_decide; [subst u; exfalso; eapply none_some; [|exact Hu]; apply Hi; rewrite !elem_of_cons; tauto|]). done. }
      assert (E0 : rho ll = Some (WLogs x.1)) by (unfold rho; by rewrite decide_True).
      assert (E1 : rho G = Some (WMat x.2)) by (unfold rho; rewrite decide_False by done; by rewrite decide_True).
      assert (E2 : rho al = Some (WVec prev)) by (unfold rho; rewrite !decide_False by done; by rewrite decide_True).
      assert (E3 : rho lb = Some (WNum bound)) by (unfold rho; rewrite !decide_False by done; by rewrite decide_True).
      pose proof (H1 rho Hrho E0 E1 E2 E3) as V1. pose proof (H2 rho Hrho E0 E1 E2 E3) as V2.
      pose proof (L_eval.evals_det _ _ _ _ _ _ _ V1 V2) as [=]. done. }
    clear Hf. revert alpha outs outs' Ho Ho'. induction steps as [|x steps IH]; intros alpha [|o outs] [|o' outs'] Ho Ho'; try done.
    destruct Ho as [A1 A2], Ho' as [B1 B2]. pose proof (Hdet _ _ _ _ A1 B1) as ->. f_equal. by eapply IH.
Qed.
Print Assumptions C68_forward_scan_computes.

(** ** Example: two states, the second impossible at this time *)
Definition fw_h : heap :=
  Heap (list_to_map [(0, Var None (re_ty 1) KPlain None); (1, Var None (re_ty 2) KPlain None);
                     (2, Var None (re_ty 1) KPlain None); (3, Var None (re_ty 0) KPlain None)]) ∅.
Definition fw_rho : vid -> option wval := fun v =>
  match v with
  | 0 => Some (WLogs [Some (-1)%R; None])
  | 1 => Some (WMat [[9/10; 1/10]; [1/10; 9/10]]%R)
  | 2 => Some (WVec [1/2; 1/2]%R)
  | 3 => Some (WNum (1/100)%R)
  | _ => None
  end.
Example ex_forward_graph : good_heap fw_h /\ (forall u, u ∈ [0; 1; 2; 3] -> is_Some (hv fw_h u)) /\
  (forall u, hv fw_h u = None -> fw_rho u = None) /\
  forward_step (1/100) 2 [Some (-1)%R; None] [[9/10; 1/10]; [1/10; 9/10]]%R [1/2; 1/2]%R = Some [1/2; 0]%R.
Proof.
  split; [|split; [|split]].
  - assert (Hno : forall v, owner fw_h v = None).
    { intros v. unfold owner, hv, fw_h. cbn. destruct v as [|[|[|[|v]]]]; [reflexivity..|].
      rewrite !lookup_insert_ne by lia. by rewrite lookup_empty. }
    assert (Hni : forall v w, ~ input_of fw_h v w). { intros v w H. unfold input_of, parents in H. rewrite Hno in H. by apply elem_of_nil in H. }
    split; [|split].
    + constructor.
      * intros v n i H. by rewrite Hno in H.
      * intros n nd u H. done.
      * intros n nd i u H. done.
    + intros v H. inversion H; by eapply Hni.
    + intros n nd H. done.
  - intros u Hu. repeat (apply elem_of_cons in Hu as [->|Hu]; [vm_compute; eauto|]). by apply elem_of_nil in Hu.
  - intros [|[|[|[|u]]]] H; vm_compute in H; done.
  - unfold forward_step, lik, vmul, vdot, mget, vget. cbn.
    replace (-1 - -1)%R with 0%R by lra. rewrite exp_0. destruct (Rlt_dec _ _) as [H|_]; [exfalso; lra|].
    do 2 f_equal; [lra|]. f_equal. lra.
Qed.
