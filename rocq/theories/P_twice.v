(** Property C64: samplers built one after the other do not disturb each other or the
    caller's models.

    construct_sampler (/repo/aemcmc/basic.py:18-130) rewrites graphs in place
    (basic.py:82-99: FunctionGraph(clone=False), replace_all, expand_subsumptions), and all
    graphs live in one heap with shared leaves.  A user who builds a second sampler, of the
    same model or of another one, relies on the first one still computing what it did. *)
From Verif Require Import L_subsume L_twice E_scan.

(** Whatever samplers are built in whatever number from the models of the heap [h]: each of
    them still computes, in the final heap, from the same inputs the same values as right
    after it was built, for its steps, updates and initial values and for every other
    variable; and no model variable was changed. *)
Theorem C64_earlier_samplers_keep_their_values h ss h' :
  good_heap h -> shuffles_ok h -> builds h h ss h' ->
  (forall s v, s ∈ ss -> given_out s v ->
     is_Some (hv (s_heap s) v) /\ hv h' v = hv (s_heap s) v /\
     forall D (base : op -> list D -> option (list D)) cval rho x,
       evals base cval (s_heap s) rho v x <-> evals base cval h' rho v x) /\
  (forall v x, hv h v = Some x -> hv h' v = Some x) /\
  (forall n nd, hn h n = Some nd -> hn h' n = Some nd).
Proof.
  intros Hg Hsh Hb. destruct (builds_extends h Hg h ss h' Hb Hg Hsh (extends_refl h)) as (H1 & [H2 H3] & H4).
  split; [|done]. intros s v Hs Hv. destruct (H4 s Hs) as (J1 & J2 & J3 & J4 & _). pose proof (J4 v Hv) as Hsome.
  split_and!; [done| |].
  - destruct Hsome as [x Hx]. rewrite Hx. by apply J3.
  - intros D base cval rho x. apply extends_evals_iff; [apply J1|done|done].
Qed.
Print Assumptions C64_earlier_samplers_keep_their_values.

(** The placeholders of different samplers are different variables: giving values to those
    of one sampler says nothing about the state of another. *)
Theorem C64_placeholders_are_not_shared h ss h' l1 s l2 s' rv rv' w w' :
  good_heap h -> shuffles_ok h -> builds h h ss h' -> ss = l1 ++ s :: l2 -> s' ∈ l2 ->
  dget (s_init s) rv = Some w -> dget (s_init s') rv' = Some w' -> w <> w'.
Proof.
  intros Hg Hsh Hb Heq Hin Hw Hw' <-.
  destruct (builds_split h Hg h ss h' l1 s l2 Hb Heq Hg Hsh (extends_refl h)) as (ha & G1 & G2 & G3 & Hb').
  inversion Hb' as [|? o obs topo topo_rv s1 ss1 h1 Hc Hm Ht Htr Hs Hsh1 Hb2]; subst.
  destruct (build_one h Hg ha o obs topo topo_rv s G1 G2 G3 Hc Hm Ht Htr Hs) as (H1 & H2 & H3 & _).
  destruct (builds_extends h Hg (s_heap s) l2 h' Hb2 H1 Hsh1 (extends_trans _ _ _ G3 H2)) as (_ & _ & K).
  destruct (K s' Hin) as (_ & _ & _ & _ & K5). pose proof (K5 rv' w Hw') as Hnone.
  destruct (H3 w) as [x Hx]; [right; right; by exists rv|]. congruence.
Qed.
Print Assumptions C64_placeholders_are_not_shared.

(** Everything proved about construct_sampler holds of a sampler built later too: the
    hypotheses about the model still hold in the heap the earlier ones left behind. *)
Theorem C64_models_stay_usable h ss h' obs topo topo_rv :
  good_heap h -> shuffles_ok h -> builds h h ss h' -> shuffles_ok h' ->
  model_ok h obs -> topo_order h (dkeys obs) topo -> topo_order h (rv_outputs h topo) topo_rv ->
  model_ok h' obs /\ topo_order h' (dkeys obs) topo /\ topo_order h' (rv_outputs h' topo) topo_rv /\
  (forall rv, model_rv h' obs rv <-> model_rv h obs rv).
Proof.
  intros Hg Hsh Hb Hsh' Hm Ht Htr. destruct (builds_extends h Hg h ss h' Hb Hg Hsh (extends_refl h)) as (H1 & H2 & _).
  destruct (ext_hyps h h' Hg H2 obs topo topo_rv Hm Ht Htr H1 Hsh') as (A & B & C0). split_and!; [done|done|done|].
  intros rv. apply (ext_model_rv h h' Hg H2).
  intros k Hkk. destruct (mo_keys _ _ Hm k Hkk) as (n & nd & d & _ & Hn & _ & Hout).
  pose proof (wf_outs h (proj1 Hg) _ _ _ _ Hn Hout) as Ho. unfold owner in Ho. by destruct (hv h k); [eauto|].
Qed.
Print Assumptions C64_models_stay_usable.

(** three samplers of one model: with finders for two variables, with NUTS alone, and with
    finders for all variables *)
Definition next (o : oracles) (h : heap) : sampler :=
  match construct_sampler o h ex_obs ex_topo ex_topo with Ok s => s | Raise _ => Sampler h [] [] [] [] end.
Definition sa := next (ex_o [0; 2]) ex_h.
Definition sb := next (ex_o []) (s_heap sa).
Definition sc := next (ex_o [0; 1; 2]) (s_heap sb).
Example C64_example :
  good_heap ex_h /\ shuffles_ok ex_h /\ builds ex_h ex_h [sa; sb; sc] (s_heap sc) /\
  s_init sa = [(4, 28); (6, 29); (8, 30)] /\ dget (s_steps sa) 8 = Some 27 /\
  s_parameters sb <> [] /\ length (s_steps sc) = 3.
Proof.
  split; [apply ex_model_ok|]. split; [apply ex_model_ok|]. split.
  - assert (Hone : forall o h s ss h', contracts o -> s = next o h ->
      match construct_sampler o h ex_obs ex_topo ex_topo with Ok _ => true | Raise _ => false end = true ->
      shuffles_check (s_heap s) = true -> builds ex_h (s_heap s) ss h' -> builds ex_h h (s :: ss) h').
    { intros o h s ss h' Hc -> Hok Hsh Hb. apply (builds_cons ex_h h o ex_obs ex_topo ex_topo).
      - done.
      - apply ex_model_ok.
      - apply ex_topo_ok.
      - apply ex_topo_rv_ok.
      - unfold next. by destruct (construct_sampler o h ex_obs ex_topo ex_topo).
      - by apply shuffles_check_ok.
      - done. }
    apply (Hone (ex_o [0; 2]) ex_h sa); [apply ex_contracts|reflexivity|vm_compute; reflexivity|vm_compute; reflexivity|].
    apply (Hone (ex_o []) (s_heap sa) sb); [apply ex_contracts|reflexivity|vm_compute; reflexivity|vm_compute; reflexivity|].
    apply (Hone (ex_o [0; 1; 2]) (s_heap sb) sc); [apply ex_contracts|reflexivity|vm_compute; reflexivity|vm_compute; reflexivity|].
    apply builds_nil.
  - vm_compute. split_and!; congruence.
Qed.
