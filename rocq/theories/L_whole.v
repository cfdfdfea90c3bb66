(** construct_sampler with its own parts meets the contracts. *)
From Verif Require Export M_whole L_discover L_nuts_step L_total.

Section whole.
  Context (canon : heap -> list vid -> heap * list vid) (sched : heap -> list vid -> list (entry * nid)).
  Context (order : heap -> list vid -> list nid) (iter : list vid -> list vid) (B : builder) (tr : transforms).
  Context (lp : heap -> dict nat nat -> dict nat nat -> heap * list vid) (nr kernel : nat).
  Hypothesis Hcanon : canon_ok canon.
  Hypothesis Hsched : sched_ok sched.
  Hypothesis Horder : order_ok order.
  Hypothesis Hiter : iter_ok iter.
  Hypothesis Hlp : lp_ok lp.
  Notation o := (whole canon sched order iter B tr lp nr kernel).

  Lemma whole_contracts : contracts o.
  Proof.
    constructor; cbn [o_canon o_finders o_order o_iter o_nuts o_ginputs whole]; [exact Hcanon| |exact Horder|exact Hiter| |].
    - intros h outs Hg Hr. exact (discover_contracts B sched h outs Hsched Hg Hr).
    - intros h ts re Hg Hv. destruct (step_spec B tr lp nr h ts re Hlp Hg Hv) as (S & _ & _).
      destruct (step B tr lp nr h ts re) as [h' s]. cbn [fst snd] in *. destruct S as [E G Hb].
      destruct (ns_params s) as [eps imm] eqn:Hp. destruct Hb as (tvs & q & newq & p & mr & rngs & rngs' & Hb).
      destruct Hb as (_ & _ & _ & _ & _ & _ & _ & _ & Hl1 & _ & _ & _ & _ & _ & Hl2 & _ & _ & _ & _ & _ & _ & Hr' & Hu & Hl & Hw & _).
      split; [exact E|]. split; [exact G|]. split; [exact Hl|]. intros v [Hv'|Hv']%elem_of_app; [by apply Hw|].
      rewrite Hu in Hv'. apply Hr'. unfold dvalues in Hv'. change (v ∈ (zip rngs rngs').*2) in Hv'. rewrite snd_zip in Hv' by lia. exact Hv'.
    - intros h roots v Hg Hr Hv. apply graph_inputs_spec in Hv as [_ Hc]. apply cut_reach in Hc as (x & Hx & Hc).
      eapply (wf_reachable h [x]); [apply Hg| |exact Hc]. intros r ->%elem_of_list_singleton. by apply Hr.
  Qed.

  Lemma whole_pairable : nuts_pairable o.
  Proof.
    intros h ts re Hg Hv. cbn [o_nuts o_ginputs whole]. destruct (step_spec B tr lp nr h ts re Hlp Hg Hv) as (S & _ & _).
    destruct (step B tr lp nr h ts re) as [h' s]. cbn [fst snd] in *. destruct S as [E G Hb].
    destruct (ns_params s) as [eps imm] eqn:Hp. destruct Hb as (tvs & q & newq & p & mr & rngs & rngs' & Hb).
    destruct Hb as (_ & _ & _ & _ & _ & _ & _ & _ & Hl1 & Hnd & _ & Hrng & _ & _ & Hl2 & Happ & _ & _ & _ & _ & _ & _ & Hu & _).
    rewrite Hu. assert (Hz : dvalues (zip rngs rngs') = rngs') by (unfold dvalues; apply (snd_zip rngs rngs'); lia). rewrite Hz.
    assert (Hlz : length (zip rngs rngs') = length rngs) by (rewrite zip_with_length; lia). rewrite Hlz.
    apply submseteq_length, NoDup_submseteq; [done|]. intros r Hr. destruct (Hrng r Hr) as (_ & Ho & Hs).
    apply elem_of_list_filter. split; [done|]. apply graph_inputs_spec. split; [done|].
    destruct rngs' as [|r0 rngs0]. { apply elem_of_list_lookup in Hr as [i Hi%lookup_lt_Some]. cbn in Hl2. lia. }
    destruct (Happ 0 r0 eq_refl) as (_ & n & nd & Hown & Hn & _ & Hins). eapply cut_step.
    - apply cut_root. apply elem_of_app. right. by left.
    - by intros ?%elem_of_nil.
    - unfold input_of, parents. rewrite Hown, Hn, Hins. apply elem_of_app. right. apply elem_of_app. by left.
  Qed.
End whole.
