From Verif Require Export L_LibPy S_tracker.

Global Instance succeeds_dec c : Decision (succeeds c).
Proof.
  destruct (c_out c) as [[|e es]|e] eqn:H; [right|left|right].
  - intros (? & ? & H'). congruence.
  - by exists e, es.
  - intros (? & ? & H'). congruence.
Defined.

Lemma add_samplers_get fname es : forall d rv,
  dget (foldl (add_sampler fname) d es) rv =
  match omap (fun '(r, step, u) => if decide (r = rv) then Some (Found fname step u) else None) es with
  | [] => dget d rv
  | l => Some (default [] (dget d rv) ++ l)
  end.
Proof.
  induction es as [|[[r step] u] es IH]; intros d rv; [done|]. cbn [foldl]. rewrite IH. unfold add_sampler. cbn [omap list_omap].
  rewrite dget_dset. destruct (decide (rv = r)) as [->|Hne].
  - rewrite decide_True by done. change (list_omap ?f ?l) with (omap f l).
    destruct (omap _ es) as [|x l]; cbn; [done|]. by rewrite <- app_assoc.
  - rewrite decide_False by done. done.
Qed.

(** the sublist of the calls that have an effect *)
Fixpoint effective (seen : list (nat * vid)) (cs : list call) : list call :=
  match cs with
  | [] => []
  | c :: cs' =>
      if decide (c_key c ∉ seen /\ succeeds c) then c :: effective (seen ++ [c_key c]) cs'
      else effective seen cs'
  end.

Fixpoint effective_flags (seen : list (nat * vid)) (cs : list call) : list bool :=
  match cs with
  | [] => []
  | c :: cs' =>
      if decide (c_key c ∉ seen /\ succeeds c) then true :: effective_flags (seen ++ [c_key c]) cs'
      else false :: effective_flags seen cs'
  end.

Lemma run_calls_spec cs : forall t,
  let '(t', bs) := run_calls t cs in
  tk_seen t' = tk_seen t ++ map c_key (effective (tk_seen t) cs) /\
  bs = effective_flags (tk_seen t) cs /\
  forall rv, dget (tk_samplers t') rv =
    match effective (tk_seen t) cs ≫= proposed rv with
    | [] => dget (tk_samplers t) rv
    | l => Some (default [] (dget (tk_samplers t) rv) ++ l)
    end.
Proof.
  induction cs as [|c cs IH]; intros t; cbn [run_calls effective effective_flags].
  { split_and!; [by rewrite app_nil_r|done|done]. }
  unfold sampler_finder_call. change (c_name c, c_rv c) with (c_key c). unfold rbind.
  case_decide as Hin.
  { specialize (IH t). destruct (run_calls t cs) as [t' bs]. destruct IH as (A1 & A2 & A3).
    rewrite !decide_False by tauto. split_and!; [done|by rewrite A2|]. done. }
  destruct (c_out c) as [[|e es]|ex] eqn:Hout.
  - specialize (IH t). destruct (run_calls t cs) as [t' bs]. destruct IH as (A1 & A2 & A3).
    assert (~ succeeds c) by (intros (? & ? & ?); congruence).
    rewrite !decide_False by tauto. split_and!; [done|by rewrite A2|]. done.
  - assert (Hs : succeeds c) by (by exists e, es).
    set (t1 := Tracker (foldl (add_sampler (c_name c)) (tk_samplers t) (e :: es)) (tk_seen t ++ [c_key c])).
    specialize (IH t1). destruct (run_calls t1 cs) as [t' bs]. destruct IH as (A1 & A2 & A3).
    cbn [tk_seen t1] in A1, A2, A3. rewrite !decide_True by done. split_and!.
    + rewrite A1. cbn. by rewrite <- app_assoc.
    + by rewrite A2.
    + intros rv. rewrite A3. unfold t1. cbn [tk_samplers]. rewrite add_samplers_get.
      rewrite bind_cons. change (proposed rv c) with (omap (fun x : vid * vid * dict nat nat => let '(r, step, u) := x in if decide (r = rv) then Some (Found (c_name c) step u) else None) (c_entries c)). unfold c_entries. rewrite Hout.
      set (l1 := omap _ (e :: es)). set (l2 := effective _ cs ≫= proposed rv).
      destruct l1 as [|x l1]; [done|]. destruct l2 as [|y l2]; cbn; [by rewrite app_nil_r|]. by rewrite <- app_assoc.
  - specialize (IH t). destruct (run_calls t cs) as [t' bs]. destruct IH as (A1 & A2 & A3).
    assert (~ succeeds c) by (intros (? & ? & ?); congruence).
    rewrite !decide_False by tauto. split_and!; [done|by rewrite A2|]. done.
Qed.

Lemma effective_flags_spec cs : forall seen j,
  effective_flags seen cs !! j = Some true <->
  exists c, cs !! j = Some c /\ succeeds c /\ c_key c ∉ seen /\
    forall k c', k < j -> cs !! k = Some c' -> c_key c' = c_key c -> ~ succeeds c'.
Proof.
  induction cs as [|c cs IH]; intros seen j; cbn.
  { split; [done|]. by intros (? & ? & _). }
  destruct (decide (c_key c ∉ seen /\ succeeds c)) as [[Hns Hs]|Hn].
  - destruct j as [|j]; cbn.
    + split; [|done]. intros _. exists c. split_and!; try done. lia.
    + rewrite IH. split; intros (c' & Hc & Hs' & Hk & Hf); exists c'; split_and!; try done.
      * set_solver.
      * intros [|k] c'' Hkj Hc''; cbn in Hc''.
        -- injection Hc'' as <-. intros He. exfalso. apply Hk. rewrite He. set_solver.
        -- apply (Hf k); [lia|done].
      * intros Hin. apply elem_of_app in Hin as [?|Hin]; [done|]. apply elem_of_list_singleton in Hin.
        by apply (Hf 0 c ltac:(lia) eq_refl).
      * intros k c'' Hkj Hc''. apply (Hf (S k)); [lia|done].
  - destruct j as [|j]; cbn.
    + split; [done|]. intros (c' & Hc & Hs' & Hk & _). injection Hc as <-. tauto.
    + rewrite IH. split; intros (c' & Hc & Hs' & Hk & Hf); exists c'; split_and!; try done.
      * intros [|k] c'' Hkj Hc''; cbn in Hc''.
        -- injection Hc'' as <-. intros He Hs. apply Hn. by rewrite He.
        -- apply (Hf k); [lia|done].
      * intros k c'' Hkj Hc''. apply (Hf (S k)); [lia|done].
Qed.

Lemma effective_flags_length cs : forall seen, length (effective_flags seen cs) = length cs.
Proof. induction cs as [|c cs IH]; intros seen; [done|]. cbn. case_decide; cbn; by rewrite IH. Qed.

Lemma effective_pick cs : forall seen,
  effective seen cs = omap (fun p => if p.2 : bool then Some p.1 else None) (zip cs (effective_flags seen cs)).
Proof. induction cs as [|c cs IH]; intros seen; [done|]. cbn. case_decide; cbn; by rewrite IH. Qed.

Lemma effective_nodup cs : forall seen, NoDup (map c_key (effective seen cs)) /\
  forall k, k ∈ map c_key (effective seen cs) -> k ∉ seen /\ k ∈ map c_key cs.
Proof.
  induction cs as [|c cs IH]; intros seen; cbn.
  { split; [constructor|]. by intros k ?%elem_of_nil. }
  case_decide as Hd.
  - destruct (IH (seen ++ [c_key c])) as [A B]. cbn. split.
    + constructor; [|done]. intros Hin. destruct (B _ Hin) as [Hni _]. apply Hni, elem_of_app. right. by left.
    + intros k [->|Hk]%elem_of_cons; [split; [tauto|by left]|]. destruct (B _ Hk) as [B1 B2]. split; [set_solver|by right].
  - destruct (IH seen) as [A B]. split; [done|]. intros k Hk. destruct (B _ Hk) as [B1 B2]. split; [done|by right].
Qed.

Lemma effective_all cs : forall seen c, c ∈ cs -> succeeds c -> c_key c ∈ seen ++ map c_key (effective seen cs).
Proof.
  induction cs as [|c0 cs IH]; intros seen c Hin Hs; [by apply elem_of_nil in Hin|]. cbn.
  apply elem_of_cons in Hin as [->|Hin].
  - case_decide as Hd; [cbn; set_solver|]. apply elem_of_app. left. destruct (decide (c_key c0 ∈ seen)); [done|]. tauto.
  - case_decide; [|by apply IH]. cbn. specialize (IH (seen ++ [c_key c0]) c Hin Hs). by rewrite <- app_assoc in IH.
Qed.

Lemma effective_sub cs : forall seen c, c ∈ effective seen cs -> c ∈ cs /\ succeeds c.
Proof.
  induction cs as [|c0 cs IH]; intros seen c; cbn; [by intros ?%elem_of_nil|]. case_decide as Hd.
  - intros [->|Hc]%elem_of_cons; [split; [by left|tauto]|]. apply IH in Hc as [? ?]. split; [by right|done].
  - intros Hc. apply IH in Hc as [? ?]. split; [by right|done].
Qed.

Lemma effective_count cs : forall seen,
  length (filter (fun b => b = true) (effective_flags seen cs)) = length (map c_key (effective seen cs)).
Proof. induction cs as [|c cs IH]; intros seen; [done|]. cbn [effective effective_flags].
  destruct (decide (c_key c ∉ seen /\ succeeds c)).
  - rewrite filter_cons_True by done. cbn. by rewrite IH.
  - rewrite filter_cons_False by done. by rewrite IH.
Qed.

(** ** the statements *)
Section run.
  Context (cs : list call) (t : tracker) (bs : list bool).
  Hypothesis Hrun : run_calls new_tracker cs = (t, bs).

  Lemma run_flags j : bs !! j = Some true <-> first_success cs j.
  Proof.
    pose proof (run_calls_spec cs new_tracker) as H. rewrite Hrun in H. destruct H as (_ & -> & _).
    rewrite effective_flags_spec. unfold first_success. cbn. split.
    - intros (c & ? & ? & _ & ?). by exists c.
    - intros (c & ? & ? & ?). exists c. split_and!; try done. by intros ?%elem_of_nil.
  Qed.

  Lemma run_flags_length : length bs = length cs.
  Proof.
    pose proof (run_calls_spec cs new_tracker) as H. rewrite Hrun in H. destruct H as (_ & -> & _). apply effective_flags_length.
  Qed.

  Lemma run_samplers rv : dget (tk_samplers t) rv =
    match omap (fun p => if p.2 : bool then Some p.1 else None) (zip cs bs) ≫= proposed rv with
    | [] => None
    | l => Some l
    end.
  Proof.
    pose proof (run_calls_spec cs new_tracker) as H. rewrite Hrun in H. destruct H as (_ & -> & ->).
    rewrite <- effective_pick. cbn. by destruct (effective [] cs ≫= proposed rv).
  Qed.

  Lemma run_seen k : NoDup (tk_seen t) /\ (k ∈ tk_seen t <-> exists c, c ∈ cs /\ c_key c = k /\ succeeds c).
  Proof.
    pose proof (run_calls_spec cs new_tracker) as H. rewrite Hrun in H. destruct H as (-> & _ & _). cbn.
    split; [apply effective_nodup|]. split.
    - intros Hk. apply elem_of_list_fmap in Hk as (c & -> & Hc).
      destruct (effective_sub _ _ _ Hc). by exists c.
    - intros (c & Hc & <- & Hs). by apply (effective_all cs [] c).
  Qed.

  (** number of calls that report a change *)
  Lemma run_bound keys : (forall c, c ∈ cs -> c_key c ∈ keys) ->
    length (filter (fun b => b = true) bs) <= length keys.
  Proof.
    intros Hk. pose proof (run_calls_spec cs new_tracker) as H. rewrite Hrun in H. destruct H as (_ & -> & _).
    cbn [tk_seen new_tracker].
    rewrite effective_count. destruct (effective_nodup cs []) as [Hnd Hin].
    apply submseteq_length, NoDup_submseteq; [done|]. intros k Hkk. apply Hin in Hkk as [_ Hkk].
    apply elem_of_list_fmap in Hkk as (c & -> & Hc). by apply Hk.
  Qed.
End run.
