(** Property C11: sampler discovery (/repo/aemcmc/rewriting.py) *)
From Verif Require Import S_tracker L_tracker.

(** For every sequence of calls the rewriter may make, whatever the decorated functions
    do: a call reports a change (hands back the node's own outputs) exactly when it is
    the first success of its finder on its variable. *)
Theorem C11_reports_first_success_only cs t bs :
  run_calls new_tracker cs = (t, bs) ->
  length bs = length cs /\ forall j, bs !! j = Some true <-> first_success cs j.
Proof. intros H. split; [exact (run_flags_length cs t bs H)|exact (run_flags cs t bs H)]. Qed.
Print Assumptions C11_reports_first_success_only.

(** The samplers recorded for a variable are those proposed for it by the calls that
    reported a change, in the order of these calls, and in the order in which each call
    lists them; a variable for which nothing was proposed has no entry. *)
Theorem C11_samplers_recorded cs t bs rv :
  run_calls new_tracker cs = (t, bs) ->
  dget (tk_samplers t) rv =
    match omap (fun p => if p.2 : bool then Some p.1 else None) (zip cs bs) ≫= proposed rv with
    | [] => None
    | l => Some l
    end.
Proof. intros H. exact (run_samplers cs t bs H rv). Qed.
Print Assumptions C11_samplers_recorded.

Theorem C11_seen cs t bs k :
  run_calls new_tracker cs = (t, bs) ->
  NoDup (tk_seen t) /\ (k ∈ tk_seen t <-> exists c, c ∈ cs /\ c_key c = k /\ succeeds c).
Proof. intros H. exact (run_seen cs t bs H k). Qed.
Print Assumptions C11_seen.

(** No schedule can report a change more often than there are pairs of a finder and a
    variable, so a rewriter that goes on while changes are reported stops. *)
Theorem C11_changes_bounded cs t bs keys :
  run_calls new_tracker cs = (t, bs) -> (forall c, c ∈ cs -> c_key c ∈ keys) ->
  length (filter (fun b => b = true) bs) <= length keys.
Proof. intros H. exact (run_bound cs t bs H keys). Qed.
Print Assumptions C11_changes_bounded.

(** Finder 1 is called four times on variable 10 (failing, empty, succeeding, again),
    finder 2 once on the same variable. *)
Definition ex_calls : list call :=
  [Call 1 10 (Raise ValueError); Call 1 10 (Ok []); Call 1 10 (Ok [(10, 20, []); (11, 21, [(5, 6)])]);
   Call 2 10 (Ok [(10, 30, [])]); Call 1 10 (Ok [(10, 40, [])])].
Example C11_example :
  run_calls new_tracker ex_calls =
    (Tracker [(10, [Found 1 20 []; Found 2 30 []]); (11, [Found 1 21 [(5, 6)]])] [(1, 10); (2, 10)],
     [false; false; true; true; false]).
Proof. reflexivity. Qed.
Example C11_example_keys : forall c, c ∈ ex_calls -> c_key c ∈ [(1, 10); (2, 10)].
Proof. unfold ex_calls. intros c Hc. repeat (apply elem_of_cons in Hc as [->|Hc]; [vm_compute; set_solver|]). by apply elem_of_nil in Hc. Qed.
