(** C69: the graph that sample_CRT (/repo/aemcmc/gibbs.py:367-400) builds. *)
From Verif Require Import L_crt_graph E_real.
From Verif Require P_ffbs_graph S_crt P_crt.

(** ** C69: sample_CRT makes one generator.  In a function that computes the table counts that
    sample_CRT returns, compiled with the updates that it returns, one node uses that generator
    (the scan), no other generator made by sample_CRT is used, and after a call it holds the
    state in which the scan leaves it. *)
Theorem C69_generator_advanced :
  forall (B : builder) h y concentration,
    good_heap h -> (forall u, u ∈ [y; concentration] -> is_Some (hv h u)) ->
    let '(h', (tables, updates, _)) := crt_graph B h y concentration in
    extends h h' /\
    exists r counts next scan ins m,
      hv h r = None /\ shared_var h' r /\ updates = [(r, next)] /\
      hn h' m = Some (Node scan ins [counts; next]) /\ r ∈ ins /\
      node_reachable h' [tables] m /\ advanced_by_step h' tables updates r /\
      forall r' m', hv h r' = None -> shared_var h' r' -> node_reachable h' (tables :: dvalues updates) m' -> reads h' m' r' ->
        r' = r /\ m' = m.
Proof.
  intros B h y hh Hg Hi. pose proof (crt_graph_spec B h y hh Hg Hi) as H.
  destruct (crt_graph B h y hh) as [h' [[out ups] result]].
  destruct H as (E & G & n2 & o & ys & r & res & nx & n0 & sz & dt & pr & nx0 & dr & yi & hi & F & S & Hne & N2 & W2 & R2 & N0 & -> & D0 & W0 & HK & _).
  split; [done|]. exists r, res, nx, o, [ys; r; hh], n2.
  assert (Hrd : reads h' n2 r). { eexists. split; [exact N2|]. right. by left. }
  repeat split; try done; [right; by left| |..].
  - exists nx, n2, 1. split; [left; cbn; by rewrite decide_True|]. done.
  - destruct (decide (r' = r)) as [|Hr]; [done|exfalso]. rename H into Hf, H0 into Hs, H1 into Hm, H2 into Hd.
    assert (A : forall k, m' = k).
    { intros k. set (K := fun q : vid => if decide (q = r) then n2 else k). destruct (HK K ltac:(unfold K; by rewrite decide_True)) as [Ha Hb].
      replace k with (K r') by (unfold K; by rewrite decide_False). destruct Hm as (w & i & (v & Hv & Hvw) & Hw).
      apply elem_of_cons in Hv as [->| ->%elem_of_list_singleton]; [apply (Ha r' m')|apply (Hb r' m')]; try done; exists w, i; (split; [|done]); eexists; (split; [by left|done]). }
    pose proof (A 0). pose proof (A 1). congruence.
  - rename H into Hf, H0 into Hs, H1 into Hm, H2 into Hd.
    set (K := fun q : vid => n2). destruct (HK K eq_refl) as [Ha Hb]. change n2 with (K r'). destruct Hm as (w & i & (v & Hv & Hvw) & Hw).
    apply elem_of_cons in Hv as [->| ->%elem_of_list_singleton]; [apply (Ha r' m')|apply (Hb r' m')]; try done; exists w, i; (split; [|done]); eexists; (split; [by left|done]).
Qed.
Print Assumptions C69_generator_advanced.

(** The updates are needed: without them the scan does not advance its generator. *)
Theorem C69_updates_needed :
  forall (B : builder) h y concentration,
    good_heap h -> (forall u, u ∈ [y; concentration] -> is_Some (hv h u)) ->
    let '(h', (tables, updates, _)) := crt_graph B h y concentration in
    forall r, r ∈ dkeys updates -> ~ advanced_by_step h' tables [] r.
Proof.
  intros B h y hh Hg Hi. pose proof (crt_graph_spec B h y hh Hg Hi) as H.
  destruct (crt_graph B h y hh) as [h' [[out ups] result]].
  destruct H as (E & G & n2 & o & ys & r2 & res & nx & n0 & sz & dt & pr & nx0 & dr & yi & hi & F & S & Hne & N2 & W2 & R2 & N0 & -> & D0 & W0 & HK & _).
  cbn. intros r ->%elem_of_list_singleton (u & n & i & Hnv & Hu & Hrd & Hreach).
  destruct Hnv as [Hnv|[_ Hdf]]; [done|].
  assert (u = nx0). { destruct Hdf as (a & b & d & H1), D0 as (a' & b' & d' & H2). congruence. } subst u.
  assert (n = n0) by congruence. subst n.
  destruct (HK (fun _ => n2) eq_refl) as [Hd _]. pose proof (Hd r2 n0 (conj F S) Hreach Hrd) as Hc. done.
Qed.
Print Assumptions C69_updates_needed.

(** The graph computes the distribution of M_crt.sample_CRT (by C28 that of the
    number of tables).  The scan goes through the elements of y in row-major order.  For an element [z] of
    y and concentration [x] the inner function draws Bernoulli variables with probabilities [ps]
    and returns a function [count] of the draws, which has the distribution of single_sample_CRT.
    The counts [l] of the scan get the shape of y. *)
Theorem C69_graph_computes_crt :
  forall (B : builder) h y concentration,
    good_heap h -> (forall u, u ∈ [y; concentration] -> is_Some (hv h u)) ->
    let '(h', (tables, updates, result)) := crt_graph B h y concentration in
    exists n2 scan ys r counts next n0 size dtype probs next0 draws y_i h_i,
      hn h' n2 = Some (Node scan [ys; r; concentration] [counts; next]) /\
      hn h' n0 = Some (Node (ORV RV_bernoulli) [r; size; dtype; probs] [next0; draws]) /\
      NoDup [counts; draws; y_i; h_i] /\ (forall u, u ∈ [counts; draws; y_i; h_i] -> hv h u = None) /\
      forall (cval : nat -> crtval) (rho : vid -> option crtval),
        (forall k, cval (b_int B k).1 = CInt k) ->
        (forall u, hv h u = None -> u ∉ [counts; draws; y_i; h_i] -> rho u = None) ->
        (forall z x, rho y_i = Some (CInt z) -> rho h_i = Some (CReal x) ->
          exists ps count,
            evals crt_base cval h' rho probs (CReals ps) /\
            (forall bs, rho draws = Some (CBits bs) -> evals crt_base cval h' rho result (CCount (count bs))) /\
            forall P, dprob (single_sample_CRT z x) P = dprob (dbind (dberns ps) (fun bs => dret (count bs))) P) /\
        (forall yv x, rho y = Some (CArr yv) ->
          exists zs array,
            evals crt_base cval h' rho ys (CList zs) /\
            (forall l, rho counts = Some (CCounts l) -> evals crt_base cval h' rho tables (CTables (array l))) /\
            M_crt.sample_CRT yv x = dbind (M_crt.scan_CRT zs x) (fun l => dret (array l))).
Proof.
  intros B h y hh Hg Hi. pose proof (crt_graph_spec B h y hh Hg Hi) as H.
  destruct (crt_graph B h y hh) as [h' [[out ups] result]].
  destruct H as (E & G & n2 & o & ys & r2 & res & nx & n0 & sz & dt & pr & nx0 & dr & yi & hi & F & S & Hne & N2 & W2 & R2 & N0 & _ & D0 & W0 & HK & Hnd & Hnew & Hv).
  exists n2, o, ys, r2, res, nx, n0, sz, dt, pr, nx0, dr, yi, hi. do 4 (split; [done|]).
  intros cval rho Hc Hrho. destruct (Hv cval rho Hc Hrho) as (H1 & H2 & H3 & H4). split.
  - intros z x Hz Hx. exists (probabilities z x), (fun bs => if (z <? 1)%Z then 0 else 1 + list_sum bs).
    split; [by apply H2|]. split; [intros bs Hbs; by apply H3|]. intros P. apply single_law.
  - intros yv x Hy. exists (M_crt.a_data yv), (M_crt.Arr (M_crt.a_shape yv)). split; [by apply H1|]. split; [intros l Hl; by apply H4|]. reflexivity.
Qed.
Print Assumptions C69_graph_computes_crt.

(** With C28: for an element [n] of y and concentration [x] the value that the inner function
    returns is [l] with the probability of [l] tables for [n] customers, and l is 0 for
    elements below one. *)
Theorem C69_counts_have_the_crt_law :
  forall (B : builder) h y concentration,
    good_heap h -> (forall u, u ∈ [y; concentration] -> is_Some (hv h u)) ->
    let '(h', (tables, updates, result)) := crt_graph B h y concentration in
    exists n0 r size dtype probs next0 draws y_i h_i,
      hn h' n0 = Some (Node (ORV RV_bernoulli) [r; size; dtype; probs] [next0; draws]) /\
      NoDup [draws; y_i; h_i] /\ (forall u, u ∈ [draws; y_i; h_i] -> hv h u = None) /\
      forall (cval : nat -> crtval) (rho : vid -> option crtval) z x,
        (forall k, cval (b_int B k).1 = CInt k) ->
        (forall u, hv h u = None -> u ∉ [draws; y_i; h_i] -> rho u = None) ->
        rho y_i = Some (CInt z) -> rho h_i = Some (CReal x) -> (0 < x)%R ->
        exists ps count,
          evals crt_base cval h' rho probs (CReals ps) /\
          (forall bs, rho draws = Some (CBits bs) -> evals crt_base cval h' rho result (CCount (count bs))) /\
          forall l, dprob (dbind (dberns ps) (fun bs => dret (count bs))) (S_crt.is_nat l) = S_crt.crt_pmf (Z.to_nat z) x l.
Proof.
  intros B h y hh Hg Hi. pose proof (C69_graph_computes_crt B h y hh Hg Hi) as H.
  destruct (crt_graph B h y hh) as [h' [[out ups] result]].
  destruct H as (n2 & o & ys & r & res & nx & n0 & sz & dt & pr & nx0 & dr & yi & hi & _ & N0 & Hnd & Hnew & Hv).
  exists n0, r, sz, dt, pr, nx0, dr, yi, hi. split; [done|]. split; [by inversion Hnd|].
  split; [intros u Hu; apply Hnew; by right|]. intros cval rho z x Hc Hrho Hz Hx Hpos.
  destruct (Hv cval rho Hc) as [H _].
  { intros u Hu Hn. apply Hrho; [done|]. intros Hin. apply Hn. by right. }
  destruct (H z x Hz Hx) as (ps & count & H1 & H2 & H3). exists ps, count. split; [done|]. split; [done|].
  intros l. rewrite <- H3. destruct (Z_le_gt_dec 0 z) as [Hp|Hneg].
  - rewrite <- (P_crt.C28_crt_entry_law x (Z.to_nat z) l Hpos). by rewrite Z2Nat.id.
  - rewrite <- (P_crt.C28_crt_entry_law x (Z.to_nat z) l Hpos). destruct z as [|q|q]; [lia|lia|]. reflexivity.
Qed.
Print Assumptions C69_counts_have_the_crt_law.

(** ** Example: two arguments without owner, y = [[0, 3]] and concentration 2 *)
Definition cg_rho : vid -> option crtval := fun v =>
  match v with
  | 0 => Some (CArr (M_crt.Arr [1; 2] [0; 3]%Z))
  | 1 => Some (CReal 2)
  | _ => None
  end.
Example ex_crt_graph : good_heap P_ffbs_graph.fg_h /\ (forall u, u ∈ [0; 1] -> is_Some (hv P_ffbs_graph.fg_h u)) /\
  (forall u, hv P_ffbs_graph.fg_h u = None -> cg_rho u = None) /\
  (let '(h', (tables, updates, _)) := crt_graph re_B P_ffbs_graph.fg_h 0 1 in
   (length updates, owner_op h' tables, forallb (fun p => match hv P_ffbs_graph.fg_h p.1 with None => is_shared h' p.1 | Some _ => false end) updates))
  = (1, Some (fun_op F_reshape), true).
Proof.
  split; [apply P_ffbs_graph.ex_ffbs_graph|]. split; [|split].
  - intros u Hu. repeat (apply elem_of_cons in Hu as [->|Hu]; [vm_compute; eauto|]). by apply elem_of_nil in Hu.
  - intros [|[|[|u]]] H; vm_compute in H; done.
  - vm_compute. reflexivity.
Qed.
(** for z = 3 and x = 2 the probabilities of the second and the third customer are 2/3 and 1/2 *)
Example ex_probabilities : probabilities 3 2 = [2/3; 1/2]%R.
Proof.
  assert (H : probabilities 3 2 = [2 / (INR 2 - 1 + 2); 2 / (INR 3 - 1 + 2)]%R) by reflexivity.
  rewrite H. cbn [INR]. f_equal; [field|]. f_equal. field.
Qed.
(** constants that stand for the integers *)
Example ex_constants : exists cval : nat -> crtval, forall k, cval (b_int re_B k).1 = CInt k.
Proof. exists (fun n => CInt (default 0%Z (decode_nat n))). intros k. cbn. by rewrite decode_encode_nat. Qed.
