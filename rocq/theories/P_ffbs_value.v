(** C68, continued: the graph that ffbs_step builds computes the law of M_ffbs.v. *)
From Verif Require Import L_ffbs_value2 E_real.
From Verif Require P_ffbs P_ffbs_graph.

(** ** C68: the graph has a draw of the last state, a scan over two sequences that starts from that
    state, and inside the scan a draw of the next state.  Whatever the arguments of ffbs_step, if
    it does not fail: the last state is drawn with weights [w]; the scan goes backwards through the
    two sequences (the forward weights of all times but the last, the matrices of all times but the
    first); in it a state is drawn with the weights that backward_step says; the states
    returned are those of the scan, in the order of time, and then the last one.  Together
    this is the distribution of M_ffbs.ffbs_step (by C20 the posterior). *)
Theorem C68_graph_computes_ffbs :
  forall (B : builder) h gamma_0 Gammas log_lik,
    good_heap h -> (forall u, u ∈ [gamma_0; Gammas; log_lik] -> is_Some (hv h u)) ->
    let '(h', (states, updates)) := ffbs_graph B h gamma_0 Gammas log_lik in
    exists n1 r1 size1 dtype1 w1 next1 last n2 scan seq_alpha seq_Gamma r2 others next2 n0 size0 dtype0 wn next0 x0 a G s,
      (* the three nodes; [a], [G] and [s] are the arguments of backward_step *)
      hn h' n1 = Some (Node (ORV RV_categorical) [r1; size1; dtype1; w1] [next1; last]) /\
      hn h' n2 = Some (Node scan [seq_alpha; seq_Gamma; last; r2] [others; next2]) /\
      hn h' n0 = Some (Node (ORV RV_categorical) [r2; size0; dtype0; wn] [next0; x0]) /\
      NoDup [last; others; a; G; s] /\ (forall u, u ∈ [last; others; a; G; s] -> hv h u = None) /\
      forall (bound : R) (cval : nat -> fval) (rho : vid -> option fval),
        (forall u, hv h u = None -> u ∉ [last; others; a; G; s] -> rho u = None) ->
        (forall g0 Gs ll N,
          rho gamma_0 = Some (FVec g0) -> rho Gammas = Some (FMats Gs) -> rho log_lik = Some (FLogLik ll N) ->
          ffbs_step g0 Gs ll N bound <> dfail ->
          exists w alphas matrices,
            evals (ffbs_base bound) cval h' rho w1 (FVec w) /\
            evals (ffbs_base bound) cval h' rho seq_alpha (FAlphas alphas) /\
            evals (ffbs_base bound) cval h' rho seq_Gamma (FMats matrices) /\
            ffbs_step g0 Gs ll N bound =
              dbind (dcat w) (fun q =>
              dbind (backward (length g0) (combine (rev alphas) (rev matrices)) q) (fun rest =>
              dret (rev (q :: rest))))) /\
        (forall al (Gam : mat) q,
          rho a = Some (FVec al) -> rho G = Some (FMat Gam) -> rho s = Some (FState q) ->
          length Gam = length al -> backward_step (length al) al Gam q <> dfail ->
          exists w, evals (ffbs_base bound) cval h' rho wn (FVec w) /\ backward_step (length al) al Gam q = dcat w) /\
        (forall q rest, rho last = Some (FState q) -> rho others = Some (FStates rest) ->
          evals (ffbs_base bound) cval h' rho states (FStates (rev (q :: rest)))).
Proof.
  intros B h g Gm l Hg Hi. pose proof (ffbs_graph_values B h g Gm l Hg Hi) as H.
  destruct (ffbs_graph B h g Gm l) as [h' [states ups]].
  destruct H as (n1 & r1 & sz1 & dt1 & w1 & nx1 & last & n2 & sc & sa & sG & r2 & others & nx2 & n0 & sz0 & dt0 & wn & nx0 & x0 & a & G & s & N1 & N2 & N0 & Hnd & Hnew & _ & Hv).
  exists n1, r1, sz1, dt1, w1, nx1, last, n2, sc, sa, sG, r2, others, nx2, n0, sz0, dt0, wn, nx0, x0, a, G, s.
  split; [done|]. split; [done|]. split; [done|]. split; [done|]. split; [done|].
  intros bound cval rho Hrho. destruct (Hv bound cval rho Hrho) as (H1 & H2 & H3). split; [|split; [|done]].
  - intros g0 Gs0 ll N Eg EG El Hf. unfold ffbs_step in Hf |- *.
    destruct (Req_EM_T (lsum g0) 0) as [|Hs]; [done|]. destruct (broadcast Gs0 N) as [Gs|] eqn:Hb; [|done].
    destruct (forward bound _ _ _ []) as [[|alpha_N earlier]|] eqn:Hfw; [done| |done].
    destruct (Req_EM_T (lsum alpha_N) 0) as [Hz|HsN].
    { exfalso. apply Hf. unfold normed_categorical. destruct (Req_EM_T (lsum alpha_N) 0); [|done]. unfold dfail. cbn. do 2 f_equal. lra. }
    destruct (H1 g0 Gs0 ll N Gs alpha_N earlier Eg EG El Hs Hb Hfw HsN) as (A1 & A2 & A3).
    exists (normed alpha_N), (rev earlier), (tl Gs). split; [done|]. split; [done|]. split; [done|].
    rewrite rev_involutive. unfold normed_categorical. by destruct (Req_EM_T (lsum alpha_N) 0).
  - intros al Gam q Ea EG Es Hl Hf. unfold backward_step, normed_categorical in Hf |- *.
    assert (Hc : map (fun i => mget Gam i q) (seq 0 (length al)) = matrix_column Gam q) by (unfold matrix_column; by rewrite Hl).
    rewrite Hc in *. destruct (Req_EM_T _ 0) as [|Hs]; [done|]. eexists. split; [by apply H2|done].
Qed.
Print Assumptions C68_graph_computes_ffbs.

(** ** Example: values for which ffbs_step does not fail, given to the arguments only *)
Definition fg_rho : vid -> option fval := fun v =>
  match v with
  | 0 => Some (FVec P_ffbs.ex_gamma_0)
  | 1 => Some (FMats P_ffbs.ex_Gammas)
  | 2 => Some (FLogLik P_ffbs.ex_log_lik 2)
  | _ => None
  end.
Example ex_graph_computes :
  (forall u, hv P_ffbs_graph.fg_h u = None -> fg_rho u = None) /\
  ffbs_step P_ffbs.ex_gamma_0 P_ffbs.ex_Gammas P_ffbs.ex_log_lik 2 (1 / 10 ^ 20)%R <> dfail /\
  backward_step 2 [1/2; 1/2]%R [[9/10; 1/10]; [1/10; 9/10]]%R 0 <> dfail.
Proof.
  split; [|split].
  - intros [|[|[|u]]] H; vm_compute in H; done.
  - intros H. pose proof P_ffbs.ex_ffbs_posterior as Hp. rewrite H in Hp. cbn in Hp. lra.
  - unfold backward_step, normed_categorical. destruct (Req_EM_T _ 0) as [H|_]; [|done]. cbn in H. unfold mget, vget in H. cbn in H. lra.
Qed.
