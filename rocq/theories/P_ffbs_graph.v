(** C68: the random generators of ffbs_step (/repo/aemcmc/ffbs.py). *)
From Verif Require Import L_ffbs_graph E_real.

(** ** C68: in a function that computes the states that ffbs_step returns, compiled with the
    updates that ffbs_step returns, every generator that is used is used by one node (one
    draw, or one scan), and after a call it holds the state in which that node leaves it. *)
Theorem C68_generators_advanced :
  forall (B : builder) h gamma_0 Gammas log_lik,
    good_heap h -> (forall u, u ∈ [gamma_0; Gammas; log_lik] -> is_Some (hv h u)) ->
    let '(h', (states, updates)) := ffbs_graph B h gamma_0 Gammas log_lik in
    extends h h' /\
    forall r m, hv h r = None -> shared_var h' r -> node_reachable h' (states :: dvalues updates) m -> reads h' m r ->
      advanced_by_step h' states updates r /\
      forall m', node_reachable h' (states :: dvalues updates) m' -> reads h' m' r -> m' = m.
Proof.
  intros B h g0 Gs ll Hg Hi. pose proof (ffbs_graph_spec B h g0 Gs ll Hg Hi) as H.
  destruct (ffbs_graph B h g0 Gs ll) as [h' [out ups]].
  destruct H as (E & G & r1 & n1 & nx1 & st & ins1 & r2 & n2 & sts & nx2 & ins2 & o & u0 & n0 & F1 & S1 & F2 & S2 & Hr & Hn & _ & D1 & N1 & _ & W1 & R1 & -> & N2 & _ & W2 & _ & R2 & _ & _ & _ & HK).
  split; [done|]. cbn [dvalues fmap list_fmap snd].
  assert (Hd : forall K, K r1 = n1 -> K r2 = n2 -> forall r m, hv h r = None -> shared_var h' r -> node_reachable h' [out; nx2] m -> reads h' m r -> m = K r).
  { intros K H1 H2 r m Hf Hs Hm Hrd. destruct (HK K H1 H2) as [Ha Hb]. destruct Hm as (w & i & (v & Hv & Hvw) & Hw).
    apply elem_of_cons in Hv as [->| ->%elem_of_list_singleton].
    - apply (Ha r m); [done| |done]. exists w, i. split; [|done]. exists out. split; [by left|done].
    - apply (Hb r m); [done| |done]. exists w, i. split; [|done]. exists nx2. split; [by left|done]. }
  assert (Hne : r2 <> r1) by by apply not_eq_sym.
  set (K k := fun q : vid => if decide (q = r1) then n1 else if decide (q = r2) then n2 else k).
  assert (HK1 : forall k, K k r1 = n1) by (intros k; unfold K; by rewrite decide_True).
  assert (HK2 : forall k, K k r2 = n2) by (intros k; unfold K; by rewrite decide_False, decide_True).
  assert (Hall : forall r m, hv h r = None -> shared_var h' r -> node_reachable h' [out; nx2] m -> reads h' m r -> r = r1 /\ m = n1 \/ r = r2 /\ m = n2).
  { intros r m Hf Hs Hm Hrd. pose proof (Hd (K 0) (HK1 0) (HK2 0) r m Hf Hs Hm Hrd) as A. pose proof (Hd (K 1) (HK1 1) (HK2 1) r m Hf Hs Hm Hrd) as C.
    unfold K in A, C. destruct (decide (r = r1)); [by left|]. destruct (decide (r = r2)); [by right|]. congruence. }
  intros r m Hf Hs Hm Hrd. split.
  - destruct (Hall r m Hf Hs Hm Hrd) as [[-> ->]|[-> ->]].
    + exists nx1, n1, 0. split; [right; split; [cbn; by rewrite decide_False|done]|]. split; [done|]. split; [|done].
      eexists. split; [exact N1|]. by left.
    + exists nx2, n2, 1. split; [left; cbn; by rewrite decide_True|]. split; [done|]. split; [|done].
      eexists. split; [exact N2|]. apply elem_of_app. right. by left.
  - intros m' Hm' Hrd'. destruct (Hall r m Hf Hs Hm Hrd) as [[-> ->]|[-> ->]], (Hall _ m' Hf Hs Hm' Hrd') as [[E1 ->]|[E1 ->]]; congruence.
Qed.
Print Assumptions C68_generators_advanced.

(** There are two of them: the last state is a categorical draw with a generator of its own,
    and the scan that draws the other states, starting from that one, has another, for which
    ffbs_step returns the update. *)
Theorem C68_two_generators :
  forall (B : builder) h gamma_0 Gammas log_lik,
    good_heap h -> (forall u, u ∈ [gamma_0; Gammas; log_lik] -> is_Some (hv h u)) ->
    let '(h', (states, updates)) := ffbs_graph B h gamma_0 Gammas log_lik in
    exists r1 r2 n1 n2 next1 next2 last_state other_states ins1 ins2 scan,
      hv h r1 = None /\ shared_var h' r1 /\ hv h r2 = None /\ shared_var h' r2 /\ r1 <> r2 /\
      hn h' n1 = Some (Node (ORV RV_categorical) (r1 :: ins1) [next1; last_state]) /\ next1 <> last_state /\ node_reachable h' [states] n1 /\
      hn h' n2 = Some (Node scan (ins2 ++ [r2]) [other_states; next2]) /\ other_states <> next2 /\ last_state ∈ ins2 /\ node_reachable h' [states] n2 /\
      default_of h' r1 next1 /\ updates = [(r2, next2)].
Proof.
  intros B h g0 Gs ll Hg Hi. pose proof (ffbs_graph_spec B h g0 Gs ll Hg Hi) as H.
  destruct (ffbs_graph B h g0 Gs ll) as [h' [out ups]].
  destruct H as (E & G & r1 & n1 & nx1 & st & ins1 & r2 & n2 & sts & nx2 & ins2 & o & u0 & n0 & F1 & S1 & F2 & S2 & Hr & Hn & _ & D1 & N1 & X1 & W1 & R1 & -> & N2 & X2 & W2 & Hin & R2 & _ & _ & _ & HK).
  by exists r1, r2, n1, n2, nx1, nx2, st, sts, ins1, ins2, o.
Qed.
Print Assumptions C68_two_generators.

(** The updates are needed: without them the scan's generator is not advanced by the scan (its
    default update belongs to the inner function of the scan). *)
Theorem C68_updates_needed :
  forall (B : builder) h gamma_0 Gammas log_lik,
    good_heap h -> (forall u, u ∈ [gamma_0; Gammas; log_lik] -> is_Some (hv h u)) ->
    let '(h', (states, updates)) := ffbs_graph B h gamma_0 Gammas log_lik in
    forall r, r ∈ dkeys updates -> ~ advanced_by_step h' states [] r.
Proof.
  intros B h g0 Gs ll Hg Hi. pose proof (ffbs_graph_spec B h g0 Gs ll Hg Hi) as H.
  destruct (ffbs_graph B h g0 Gs ll) as [h' [out ups]].
  destruct H as (E & G & r1 & n1 & nx1 & st & ins1 & r2 & n2 & sts & nx2 & ins2 & o & u0 & n0 & F1 & S1 & F2 & S2 & Hr & Hn & Hn0 & _ & N1 & _ & W1 & R1 & -> & N2 & _ & W2 & Hin & R2 & D0 & W0 & RD0 & HK).
  cbn. intros r ->%elem_of_list_singleton (u & n & i & Hnv & Hu & Hrd & Hreach).
  destruct Hnv as [Hnv|[_ Hdf]]; [done|].
  assert (u = u0). { destruct Hdf as (a & b & d & H1), D0 as (a' & b' & d' & H2). congruence. } subst u.
  assert (n = n0) by congruence. subst n.
  assert (Hne : r2 <> r1) by by apply not_eq_sym.
  destruct (HK (fun q => if decide (q = r1) then n1 else n2)) as [Hd _]; [by rewrite decide_True|by rewrite decide_False|].
  pose proof (Hd r2 n0 (conj F2 S2) Hreach Hrd) as Hc. cbn in Hc. rewrite decide_False in Hc by done. done.
Qed.
Print Assumptions C68_updates_needed.

(** ** Example: three arguments without owner *)
Definition fg_h : heap :=
  Heap (list_to_map [(0, Var (Some "gamma_0"%string) (re_ty 1) KPlain None); (1, Var (Some "Gammas"%string) (re_ty 3) KPlain None);
                     (2, Var (Some "log_lik"%string) (re_ty 2) KPlain None)]) ∅.
Example ex_ffbs_graph : good_heap fg_h /\ (forall u, u ∈ [0; 1; 2] -> is_Some (hv fg_h u)) /\
  (let '(h', (states, updates)) := ffbs_graph re_B fg_h 0 1 2 in
   (length updates, owner_op h' states, forallb (fun p => match hv fg_h p.1 with None => is_shared h' p.1 | Some _ => false end) updates))
  = (1, Some (fun_op F_reverse), true).
Proof.
  split; [|split].
  - assert (Hno : forall v, owner fg_h v = None).
    { intros v. unfold owner, hv, fg_h. cbn. destruct v as [|[|[|v]]]; [reflexivity..|].
      rewrite !lookup_insert_ne by lia. by rewrite lookup_empty. }
    assert (Hni : forall v w, ~ input_of fg_h v w). { intros v w H. unfold input_of, parents in H. rewrite Hno in H. by apply elem_of_nil in H. }
    split; [|split].
    + constructor.
      * intros v n i H. by rewrite Hno in H.
      * intros n nd u H. done.
      * intros n nd i u H. done.
    + intros v H. inversion H; by eapply Hni.
    + intros n nd H. done.
  - intros u Hu. repeat (apply elem_of_cons in Hu as [->|Hu]; [vm_compute; eauto|]). by apply elem_of_nil in Hu.
  - vm_compute. reflexivity.
Qed.
