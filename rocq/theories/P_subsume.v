(** Properties C13 and C14: dimension-shuffle subsumption (/repo/aemcmc/rewriting.py) *)
From Verif Require Import S_subsume S_tensor L_subsume L_tensor L_utils E_basic E_scan.

(** ** C13 *)

(** Whatever values [rho] gives to the variables (so also after other inputs have been
    substituted), the SubsumingElemwise node that replaces an Elemwise computes what the
    Elemwise computed.  [rho] must not give values to constants, to the output, or to
    the DimShuffles themselves.  Stated for tensors of any rank and shape; [scalar] is
    any family of scalar functions and [other] any meaning of all other operators. *)
Theorem C13_subsumption_preserves_values {A} scalar other (cval : nat -> tensor A) T h n h2 old new
    (rho : vid -> option (tensor A)) x :
  good_heap h -> shuffles_ok h ->
  subsume_node T h n = Ok (Some (h2, old, new)) ->
  (forall v, hv h v = None -> rho v = None) ->
  (forall v, is_constant h v = true -> rho v = None) -> rho old = None ->
  (forall i o y, input_of h old i -> shuffle_of h i o y -> rho i = None) ->
  evals (tensor_base scalar other) cval h rho old x <->
  evals (tensor_base scalar other) cval h2 rho new x.
Proof.
  intros Hg Hs Hsub He Hc Ho Hr.
  exact (subsume_node_value T h n h2 old new Hg Hs Hsub _ cval rho (tensor_shuffle_law scalar other) He Hc Ho Hr x).
Qed.
Print Assumptions C13_subsumption_preserves_values.

(** The graph handed to the rewriter is only extended, and stays well formed. *)
Theorem C13_subsumption_extends_graph T h n h2 old new :
  good_heap h -> shuffles_ok h ->
  subsume_node T h n = Ok (Some (h2, old, new)) ->
  extends h h2 /\ good_heap h2 /\ owner h old = Some (n, 0) /\ hv h new = None /\
  ty_of h2 new = ty_of h2 old.
Proof.
  intros Hg Hs Hsub. destruct (subsume_node_extends T h n h2 old new Hg Hs Hsub) as (A1 & A2 & _ & A4 & A5 & _ & A7).
  exact (conj A1 (conj A2 (conj A4 (conj A5 A7)))).
Qed.
Print Assumptions C13_subsumption_extends_graph.

(** Expanding a SubsumingElemwise on its current inputs, whatever they have become,
    keeps its value. *)
Theorem C13_inlining_preserves_values {D} (base : op -> list D -> option (list D)) cval h n h3 new w rho x :
  good_heap h -> inline_node h n = Some (h3, new, w) ->
  (forall v, hv h v = None -> rho v = None) -> rho new = None ->
  evals base cval h rho new x -> evals base cval h3 rho w x.
Proof.
  intros (Hwf & Hac & _) Hin He Hr. 
  exact (proj2 (proj2 (proj2 (proj2 (proj2 (proj2 (proj2 (proj2 (proj2 (proj2 (proj2 (inline_node_spec h n h3 new w Hwf Hac Hin)))))))))))
    D base cval rho x He Hr).
Qed.
Print Assumptions C13_inlining_preserves_values.

(** Subsuming and then expanding always succeeds and gives the value of the original;
    the SubsumingElemwise itself is not rewritten again. *)
Theorem C13_round_trip {A} scalar other (cval : nat -> tensor A) T h n h2 old new :
  good_heap h -> shuffles_ok h ->
  subsume_node T h n = Ok (Some (h2, old, new)) ->
  exists m h3 w, owner h2 new = Some (m, 0) /\ inline_node h2 m = Some (h3, new, w) /\
    extends h h3 /\ good_heap h3 /\ subsume_node T h2 m = Ok None /\
    forall (rho : vid -> option (tensor A)) x,
      (forall v, hv h v = None -> rho v = None) ->
      (forall v, is_constant h v = true -> rho v = None) -> rho old = None ->
      (forall i o y, input_of h old i -> shuffle_of h i o y -> rho i = None) ->
      evals (tensor_base scalar other) cval h rho old x ->
      evals (tensor_base scalar other) cval h3 rho w x.
Proof.
  intros Hg Hs Hsub. destruct (subsume_inline T h n h2 old new Hg Hs Hsub) as (m & h3 & w & A1 & A2 & A3 & A4 & A5 & A6).
  exists m, h3, w. split; [exact A1|]. split; [exact A2|]. split; [exact A3|]. split; [exact A4|]. split; [exact A5|].
  intros rho x. exact (A6 _ (tensor_base scalar other) cval rho x (tensor_shuffle_law scalar other)).
Qed.
Print Assumptions C13_round_trip.

(** ** C14 *)

(** Which nodes are rewritten: Elemwise nodes with an argument that is a DimShuffle whose
    leading entries, as many as the rank grows, are all new dimensions. *)
Theorem C14_rewrites_nothing_iff T h n :
  good_heap h -> shuffles_ok h ->
  subsume_node T h n = Ok None <->
  ~ exists s ins out outs ty, hn h n = Some (Node (OElem s) ins (out :: outs)) /\ ty_of h out = Some ty /\
      exists i, i ∈ ins /\ subsumable T h (t_ndim T ty) i.
Proof. exact (subsume_node_none T h n). Qed.
Print Assumptions C14_rewrites_nothing_iff.

(** The inner graph never lacks an input. *)
Theorem C14_no_missing_input T h n : subsume_node T h n <> Raise MissingInputError.
Proof. exact (subsume_node_no_missing T h n). Qed.
Print Assumptions C14_no_missing_input.

(** A shared variable among the arguments makes the rewrite fail. *)
Theorem C14_shared_argument_refused T h n s ins out ty i :
  good_heap h -> shuffles_ok h ->
  hn h n = Some (Node (OElem s) ins [out]) -> ty_of h out = Some ty ->
  (exists j, j ∈ ins /\ subsumable T h (t_ndim T ty) j) ->
  i ∈ ins -> is_shared_var h i = true -> owner h i = None ->
  subsume_node T h n = Raise TypeError.
Proof. exact (subsume_type_error T h n s ins out ty i). Qed.
Print Assumptions C14_shared_argument_refused.

(** The node made by calling a SubsumingElemwise on [inputs]: its inputs are the
    arguments that are variables and not constants, in order, without the shared
    variables of the inner graph when the caller passes these too; any other number of
    arguments is a ValueError. *)
Theorem C14_make_node h n_inner shared inputs :
  length shared <= n_inner ->
  let used := omap (fun i => match i with
                             | PVar v => if is_constant h v then None else Some v
                             | PNum _ => None
                             end) inputs in
  subsuming_make_node h n_inner shared inputs =
    if decide (length used + length shared = n_inner) then Ok used
    else if decide (length used = n_inner) then Ok (take (n_inner - length shared) used)
    else Raise ValueError.
Proof.
  intros Hs used. pose proof (subsuming_make_node_spec h n_inner shared inputs Hs) as H. cbn zeta in H.
  rewrite remove_constants_filter in H. exact H.
Qed.
Print Assumptions C14_make_node.

(** ** A concrete case.  A vector [a] (0), a rank-3 tensor [b] (1), a matrix [c] (2) and a
    constant scalar [k] (3).  The Elemwise (node 13, output 7) is applied to
    [a.dimshuffle("x", "x", 0)] (4), [b], [c.dimshuffle("x", 1, 0)] (5) and
    [k.dimshuffle("x", "x", "x")] (6). *)
Definition sub_T : tyops := TyOps ty_tag (fun _ o => VType false (length o)).
Definition rk (n : nat) : vtype := VType false n.
Definition sub_h : heap :=
  Heap (list_to_map [(0, Var None (rk 1) KPlain None); (1, Var None (rk 3) KPlain None);
                     (2, Var None (rk 2) KPlain None); (3, Var None (rk 0) (KConst 0) None);
                     (4, Var None (rk 3) KPlain (Some (10, 0))); (5, Var None (rk 3) KPlain (Some (11, 0)));
                     (6, Var None (rk 3) KPlain (Some (12, 0))); (7, Var None (rk 3) KPlain (Some (13, 0)))])
       (list_to_map [(10, Node (ODimShuffle [None; None; Some 0]) [0] [4]);
                     (11, Node (ODimShuffle [None; Some 1; Some 0]) [2] [5]);
                     (12, Node (ODimShuffle [None; None; None]) [3] [6]);
                     (13, Node (OElem 0) [4; 1; 5; 6] [7])]).
Definition sub_rho : vid -> option (tensor nat) := fun v =>
  match v with
  | 0 => Some (Tensor [2] [1; 2])
  | 1 => Some (Tensor [1; 2; 2] [10; 20; 30; 40])
  | 2 => Some (Tensor [2; 2] [100; 200; 300; 400])
  | _ => None
  end.
Definition sub_cval (c : nat) : tensor nat := Tensor [] [1000].
Definition sub_scalar (s : nat) (xs : list nat) : option nat := Some (foldr Nat.add 0 xs).
Definition sub_other (o : op) (xs : list (tensor nat)) : option (list (tensor nat)) := None.

Lemma sub_good : good_heap sub_h.
Proof. apply heap_check_good. vm_compute. reflexivity. Qed.
Lemma sub_shuffles : shuffles_ok sub_h.
Proof.
  split.
  - intros n nd o Hn. assert (H : map_Forall (fun (_ : nat) nd => n_op nd = ODimShuffle o -> (exists x, n_ins nd = [x]) /\ (exists v, n_outs nd = [v])) (h_nodes sub_h)).
    { repeat (apply map_Forall_insert_2; [cbn; eauto; intros ?; discriminate|]). apply map_Forall_empty. }
    exact (H n nd Hn).
  - intros v x c Hv. assert (H : map_Forall (fun (_ : nat) x => v_kind x = KConst c -> v_owner x = None) (h_vars sub_h)).
    { repeat (apply map_Forall_insert_2; [cbn; try discriminate; reflexivity|]). apply map_Forall_empty. }
    exact (H v x Hv).
Qed.

(** the three non-constant arguments become the inputs, the last one transposed first *)
Example C13_example_applies :
  match subsume_node sub_T sub_h 13 with
  | Ok (Some (h2, old, new)) =>
      old = 7 /\ owner_op h2 new = Some (OSubsume 0 [SIn 0 (Some [None; None; Some 0]); SIn 1 None;
        SIn 2 (Some [None; Some 0; Some 1]); SConst 0 (Some [None; None; None])]) /\
      eval (tensor_base sub_scalar sub_other) sub_cval sub_h sub_rho 5 old =
        Some (Tensor [1; 2; 2] [1111; 1322; 1231; 1442]) /\
      eval (tensor_base sub_scalar sub_other) sub_cval h2 sub_rho 5 new =
        Some (Tensor [1; 2; 2] [1111; 1322; 1231; 1442])
  | _ => False
  end.
Proof. vm_compute. repeat split. Qed.
Example C13_example_env :
  (forall v, hv sub_h v = None -> sub_rho v = None) /\
  (forall v, is_constant sub_h v = true -> sub_rho v = None) /\ sub_rho 7 = None /\
  (forall i o y, input_of sub_h 7 i -> shuffle_of sub_h i o y -> sub_rho i = None).
Proof.
  split_and!.
  - intros [|[|[|v]]]; [discriminate..|reflexivity].
  - intros [|[|[|v]]]; [discriminate..|reflexivity].
  - reflexivity.
  - intros i o y Hi (m & Ho & _). destruct i as [|[|[|i]]]; [discriminate..|reflexivity].
Qed.
Example C14_example_shared :
  let h := Heap (<[1 := Var None (rk 3) (KShared None) None]> (h_vars sub_h)) (h_nodes sub_h) in
  subsume_node sub_T h 13 = Raise TypeError.
Proof. vm_compute. reflexivity. Qed.
Example C14_example_make_node :
  subsuming_make_node sub_h 3 [9] [PVar 0; PVar 3; PVar 2] = Ok [0; 2] /\
  subsuming_make_node sub_h 3 [9] [PVar 0; PNum 5; PVar 2; PVar 9] = Ok [0; 2] /\
  subsuming_make_node sub_h 3 [9] [PVar 0; PVar 3] = Raise ValueError.
Proof. vm_compute. repeat split. Qed.

(** ** Rebuilding a node on other inputs *)

(** One may expect that a SubsumingElemwise with two inputs can be called on any two
    arguments, and that calling one on swapped arguments gives another node.  Neither
    holds when one argument is a constant ... *)
Theorem C47_rebuild_on_constant_refuted :
  exists h v c, is_constant h v = false /\ is_constant h c = true /\
    subsuming_make_node h 2 [] [PVar v; PVar v] = Ok [v; v] /\
    subsuming_make_node h 2 [] [PVar v; PVar c] = Raise ValueError /\
    subsuming_make_node h 1 [] [PVar v; PVar c] = Ok [v] /\
    subsuming_make_node h 1 [] [PVar c; PVar v] = Ok [v].
Proof. exists sub_h, 0, 3. vm_compute. repeat split. Qed.
Print Assumptions C47_rebuild_on_constant_refuted.

(** ... and can whenever none is. *)
Theorem C47_rebuild_partial h n_inner shared vs :
  length shared <= n_inner -> length vs + length shared = n_inner ->
  (forall v, v ∈ vs -> is_constant h v = false) ->
  subsuming_make_node h n_inner shared (PVar <$> vs) = Ok vs.
Proof.
  intros Hs Hl Hc. rewrite subsuming_make_node_spec by exact Hs.
  assert (remove_constants h (PVar <$> vs) = vs) as ->.
  { clear Hl. induction vs as [|v vs IH]; [reflexivity|]. cbn. rewrite Hc by (by left). f_equal. apply IH. intros; apply Hc. by right. }
  by rewrite decide_True by exact Hl.
Qed.
Print Assumptions C47_rebuild_partial.
