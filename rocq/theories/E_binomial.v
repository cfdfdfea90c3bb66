(** An example for property C62: p1 ~ Beta(1, 1), Y1 ~ Binomial(5, p1), p2 ~ Beta(1, 1),
    Y2 ~ Binomial(Y1, p2), where Y1 and Y2 are observed, and p1 and p2 take the values 1/4 and 3/4. *)
From Coq Require Import Reals Lra FunctionalExtensionality.
From Coquelicot Require Import Coquelicot.
From Verif Require Import L_sweep L_exact L_conditional L_elem_value L_whole L_conjugates L_bbsampler P_conditional P_exact P_closed E_nuts E_real.
From Verif Require E_sweep.

Definition bx_h : heap :=
  let rng k ow := Var None sp_rng k ow in
  let sc k ow := Var None sp_ty k ow in
  Heap (list_to_map
    [(0, rng (KShared None) None); (1, Var None (VType false 1) (KConst 1) None); (2, sc (KConst 2) None);
     (3, sc (KConst (encode_nat 1%Z)) None); (4, sc (KConst (encode_nat 5%Z)) None);
     (5, rng KPlain (Some (0, 0))); (6, sc KPlain (Some (0, 1)));
     (7, rng KPlain (Some (1, 0))); (8, sc KPlain (Some (1, 1)));
     (9, rng KPlain (Some (2, 0))); (10, sc KPlain (Some (2, 1)));
     (11, rng KPlain (Some (3, 0))); (12, sc KPlain (Some (3, 1)));
     (13, sc KPlain None); (14, sc KPlain None)])
   (list_to_map
    [(0, Node (ORV RV_beta) [0; 1; 2; 3; 3] [5; 6]); (1, Node (ORV RV_binomial) [0; 1; 2; 4; 6] [7; 8]);
     (2, Node (ORV RV_beta) [0; 1; 2; 3; 3] [9; 10]); (3, Node (ORV RV_binomial) [0; 1; 2; 8; 10] [11; 12])]).
Definition bx_obs : dict nat nat := [(8, 13); (12, 14)].
Definition bx_topo : list nid := [0; 1; 2; 3].
Lemma bx_topo_ok : topo_order bx_h (dkeys bx_obs) bx_topo.
Proof. apply topo_check_spec; vm_compute; reflexivity. Qed.
Lemma bx_topo_rv_ok : topo_order bx_h (rv_outputs bx_h bx_topo) bx_topo.
Proof. apply topo_check_spec; vm_compute; reflexivity. Qed.
Lemma bx_model_ok : model_ok bx_h bx_obs.
Proof. apply (model_check_ok _ _ _ bx_topo_ok). vm_compute; reflexivity. Qed.

Definition bx_canon : heap -> list vid -> heap * list vid := fun h outs => (h, outs).
Definition bx_order (h : heap) (roots : list vid) : list nid := elements (fg_nodes h roots).
Definition bx_iter (l : list vid) : list vid := rev l.
Definition bx_o : oracles := whole bx_canon all_calls bx_order bx_iter sp_B aeppl_default nu_lp 1 99.
Definition bx_init := sampler_init bx_o bx_h bx_obs bx_topo bx_topo.
Definition bx_i : ir := bx_init.1.1.1.
Definition bx_outs : list vid := bx_init.1.1.2.
Definition bx_inits : dict nat nat := bx_init.1.2.
Definition bx_st0 : state := bx_init.2.
Lemma bx_init_eq : sampler_init bx_o bx_h bx_obs bx_topo bx_topo = (bx_i, bx_outs, bx_inits, bx_st0).
Proof. unfold bx_i, bx_outs, bx_inits, bx_st0, bx_init. by destruct (sampler_init bx_o bx_h bx_obs bx_topo bx_topo) as [[[? ?] ?] ?]. Qed.
Definition bx_h0 : heap := ir_heap bx_i.
Definition bx_h3 : heap := st_heap bx_st0.
Definition bx_V : list vid := [16; 18; 20; 22].
Lemma bx_outs_eq : bx_outs = bx_V.
Proof. vm_compute. reflexivity. Qed.
Lemma bx_ir_outs : ir_outputs bx_i = bx_V.
Proof. vm_compute. reflexivity. Qed.
Lemma bx_ir_obs : ir_obs bx_i = [(18, 13); (22, 14)].
Proof. vm_compute. reflexivity. Qed.
Lemma bx_found : st_found bx_st0 = [(16, [Found 3 28 []]); (20, [Found 3 34 []])].
Proof. vm_compute. reflexivity. Qed.
(** the sampler is built; these are its generators, the values of the variables and the data *)
Definition bx_leaves (h : heap) : bool :=
  forallb (fun u => bool_decide (is_Some (hv h u)) && bool_decide (owner h u = None) && negb (is_constant h u)) [13; 14; 26; 32; 35; 36].
Lemma bx_built : exists s, construct_sampler bx_o bx_h bx_obs bx_topo bx_topo = Ok s /\
  dget (s_steps s) 6 = Some 28 /\ dget (s_steps s) 10 = Some 34 /\ bx_leaves (s_heap s) = true.
Proof. apply okP_ex. vm_compute. split; [reflexivity|]. split; reflexivity. Qed.
Lemma bx_inits_eq : bx_inits = [(16, 35); (20, 36)].
Proof. vm_compute. reflexivity. Qed.

(** the nodes of the graph *)
Section nodes.
  Context (h : heap).
  Lemma rv_is v d size dtype params n nd l o : rv_full h v d size dtype params -> owner h v = Some (n, 1) -> hn h n = Some nd ->
    nd = Node o l (n_outs nd) -> o = ORV d /\ tail l = size :: dtype :: params.
  Proof.
    intros (n' & nd' & r & Ho & Hn & Hop & Hi & _) Ho' Hn' E. rewrite Ho in Ho'. injection Ho' as ->. rewrite Hn in Hn'. injection Hn' as ->.
    rewrite E in Hop, Hi. cbn in Hop, Hi. by rewrite Hi.
  Qed.
  Definition flat (V us : list vid) (p : vid) : bool :=
    forallb (fun u => bool_decide (u ∈ V) || bool_decide (parents h u = [])) us && negb (bool_decide (p ∈ us)).
  Lemma flat_cut V us p : flat V us p = true -> ~ cut_reachable h V us p.
  Proof.
    intros [H1 H2]%andb_prop Hc. rewrite forallb_forall in H1. apply negb_true_iff, bool_decide_eq_false in H2. apply H2. clear H2.
    induction Hc as [u Hu|v u Hv IH Hn Hi]; [done|]. specialize (H1 v (proj1 (elem_of_list_In _ _) IH)). apply orb_prop in H1 as [H|H].
    - apply bool_decide_eq_true in H. done.
    - apply bool_decide_eq_true in H. unfold input_of in Hi. rewrite H in Hi. by apply elem_of_nil in Hi.
  Qed.
  Lemma used_once V p y n nd : forallb (fun rv => bool_decide (rv = y) || flat V (parents h rv) p) V = true ->
    owner h y = Some (n, 1) -> hn h n = Some nd -> flat V (take (pred (length (n_ins nd))) (n_ins nd)) p = true -> only_used_by h V p y.
  Proof.
    intros H1 Ho Hn H2. rewrite forallb_forall in H1. split.
    - intros rv Hrv Hne. apply flat_cut. specialize (H1 rv (proj1 (elem_of_list_In _ _) Hrv)). apply orb_prop in H1 as [H|H]; [|done].
      apply bool_decide_eq_true in H. done.
    - intros n' i nd' l Ho' Hn' Hi. rewrite Ho in Ho'. injection Ho' as <- <-. rewrite Hn in Hn'. injection Hn' as <-. apply flat_cut.
      rewrite Hi in H2. rewrite app_length, Nat.add_comm in H2. cbn [length Nat.add pred] in H2. by rewrite take_app in H2.
  Qed.
  Lemma leaf_apart (V : list vid) u : owner h u = None -> u ∉ V -> forall r, r ∈ V -> ~ reachable h [u] r.
  Proof.
    intros Ho Hu r Hr (u' & Hu' & Hp). apply elem_of_list_singleton in Hu' as ->. apply Hu. inversion Hp as [|? w ? Hi]; subst; [done|].
    unfold input_of, parents in Hi. rewrite Ho in Hi. by apply elem_of_nil in Hi.
  Qed.
  Definition draws_in (V : list vid) : bool :=
    forallb (fun v => match owner h v with
      | Some (n, k) => (negb (Nat.eqb k 1) || bool_decide (v ∈ V)) && match hn h n with Some (Node (OSubsume _ _) _ _) => false | _ => true end
      | None => true end) (elements (reach_set h V)).
  Lemma draws_in_ok V : draws_in V = true -> (forall y, rv_output h V y -> y ∈ V) /\ forall n, node_reachable h V n -> ~ is_subsume h n.
  Proof.
    intros H. unfold draws_in in H. rewrite forallb_forall in H.
    assert (Hr : forall v, reachable h V v -> In v (elements (reach_set h V))).
    { intros v Hv. apply elem_of_list_In, elem_of_elements. by apply elem_of_reach_set. }
    split.
    - intros y (Hy & n & Ho). specialize (H y (Hr y Hy)). rewrite Ho in H. apply andb_prop in H as [H _]. cbn in H. by apply bool_decide_eq_true in H.
    - intros n (v & k & Hv & Ho) (nd & s & args & Hn & Hop). specialize (H v (Hr v Hv)). rewrite Ho, Hn in H. apply andb_prop in H as [_ H].
      destruct nd as [o ? ?]. cbn in Hop. subst o. done.
  Qed.
End nodes.

Lemma bx_o16 : owner bx_h0 16 = Some (4, 1). Proof. vm_compute. reflexivity. Qed.
Lemma bx_o18 : owner bx_h0 18 = Some (5, 1). Proof. vm_compute. reflexivity. Qed.
Lemma bx_o20 : owner bx_h0 20 = Some (6, 1). Proof. vm_compute. reflexivity. Qed.
Lemma bx_o22 : owner bx_h0 22 = Some (7, 1). Proof. vm_compute. reflexivity. Qed.
Lemma bx_n4 : hn bx_h0 4 = Some (Node (ORV RV_beta) [0; 1; 2; 3; 3] [15; 16]). Proof. vm_compute. reflexivity. Qed.
Lemma bx_n5 : hn bx_h0 5 = Some (Node (ORV RV_binomial) [0; 1; 2; 4; 16] [17; 18]). Proof. vm_compute. reflexivity. Qed.
Lemma bx_n6 : hn bx_h0 6 = Some (Node (ORV RV_beta) [0; 1; 2; 3; 3] [19; 20]). Proof. vm_compute. reflexivity. Qed.
Lemma bx_n7 : hn bx_h0 7 = Some (Node (ORV RV_binomial) [0; 1; 2; 18; 20] [21; 22]). Proof. vm_compute. reflexivity. Qed.
Lemma bx_16 : rv_full bx_h0 16 RV_beta 1 2 [3; 3].
Proof. eexists 4, _, 0. split; [apply bx_o16|]. split; [apply bx_n4|]. repeat split. Qed.
Lemma bx_18 : rv_full bx_h0 18 RV_binomial 1 2 [4; 16].
Proof. eexists 5, _, 0. split; [apply bx_o18|]. split; [apply bx_n5|]. repeat split. Qed.
Lemma bx_20 : rv_full bx_h0 20 RV_beta 1 2 [3; 3].
Proof. eexists 6, _, 0. split; [apply bx_o20|]. split; [apply bx_n6|]. repeat split. Qed.
Lemma bx_22 : rv_full bx_h0 22 RV_binomial 1 2 [18; 20].
Proof. eexists 7, _, 0. split; [apply bx_o22|]. split; [apply bx_n7|]. repeat split. Qed.
Lemma bx_leaf u : u ∈ [1; 2; 3; 4] -> owner bx_h0 u = None /\ u ∉ bx_V.
Proof.
  intros Hu. repeat (apply elem_of_cons in Hu as [->|Hu]; [split; [vm_compute; reflexivity|apply (bool_decide_unpack _); vm_compute; exact I]|]).
  by apply elem_of_nil in Hu.
Qed.
Lemma bx_used1 : only_used_by bx_h0 bx_V 16 18.
Proof. eapply (used_once _ _ _ _ 5); [vm_compute; reflexivity|apply bx_o18|apply bx_n5|vm_compute; reflexivity]. Qed.
Lemma bx_used2 : only_used_by bx_h0 bx_V 20 22.
Proof. eapply (used_once _ _ _ _ 7); [vm_compute; reflexivity|apply bx_o22|apply bx_n7|vm_compute; reflexivity]. Qed.
Lemma bx_param u : u ∈ [1; 2; 3; 4; 18] -> u ∈ bx_V \/ forall r, r ∈ bx_V -> ~ reachable bx_h0 [u] r.
Proof.
  intros Hu. destruct (decide (u = 18)) as [->|Hne]; [left; unfold bx_V; right; left|right].
  destruct (bx_leaf u) as [H1 H2]; [|by apply leaf_apart]. rewrite elem_of_list_In in Hu |- *. cbn in Hu |- *. intuition.
Qed.
Lemma bx_pair1 : beta_of bx_h0 bx_V 16 18 1 2 3 3 4.
Proof.
  constructor; [left|right; left|apply bx_16|eexists _, _; apply bx_18|apply bx_used1|].
  intros u Hu. apply bx_param. rewrite elem_of_list_In in Hu |- *. cbn in Hu |- *. intuition.
Qed.
Lemma bx_pair2 : beta_of bx_h0 bx_V 20 22 1 2 3 3 18.
Proof.
  constructor; [do 2 right; left|do 3 right; left|apply bx_20|eexists _, _; apply bx_22|apply bx_used2|].
  intros u Hu. apply bx_param. rewrite elem_of_list_In in Hu |- *. cbn in Hu |- *. intuition.
Qed.
Lemma bx_pairs p y size dtype a b nn : beta_of bx_h0 bx_V p y size dtype a b nn -> p ∉ [18; 22] ->
  size = 1 /\ dtype = 2 /\ a = 3 /\ b = 3 /\ ((p = 16 /\ y = 18 /\ nn = 4) \/ (p = 20 /\ y = 22 /\ nn = 18)).
Proof.
  intros [Hp Hy Hb (sz & dt & Hn) _ _] Ho.
  assert (Hl : [1; 2; 3; 3] = size :: dtype :: [a; b] /\ (p = 16 \/ p = 20)).
  { unfold bx_V in Hp. repeat (apply elem_of_cons in Hp as [->|Hp]).
    - destruct (rv_is _ _ _ _ _ _ _ _ _ _ Hb bx_o16 bx_n4 eq_refl) as [_ H]. split; [exact H|by left].
    - destruct Ho. left.
    - destruct (rv_is _ _ _ _ _ _ _ _ _ _ Hb bx_o20 bx_n6 eq_refl) as [_ H]. split; [exact H|by right].
    - destruct Ho. right. left.
    - by apply elem_of_nil in Hp. }
  destruct Hl as [[= <- <- <- <-] Hpp].
  split; [reflexivity|]. split; [reflexivity|]. split; [reflexivity|]. split; [reflexivity|].
  assert (Hl : [1; 2; 4; 16] = sz :: dt :: [nn; p] /\ y = 18 \/ [1; 2; 18; 20] = sz :: dt :: [nn; p] /\ y = 22).
  { unfold bx_V in Hy. repeat (apply elem_of_cons in Hy as [->|Hy]).
    - destruct (rv_is _ _ _ _ _ _ _ _ _ _ Hn bx_o16 bx_n4 eq_refl) as [H _]. discriminate H.
    - destruct (rv_is _ _ _ _ _ _ _ _ _ _ Hn bx_o18 bx_n5 eq_refl) as [_ H]. left. split; [exact H|reflexivity].
    - destruct (rv_is _ _ _ _ _ _ _ _ _ _ Hn bx_o20 bx_n6 eq_refl) as [H _]. discriminate H.
    - destruct (rv_is _ _ _ _ _ _ _ _ _ _ Hn bx_o22 bx_n7 eq_refl) as [_ H]. right. split; [exact H|reflexivity].
    - by apply elem_of_nil in Hy. }
  destruct Hl as [[[= _ _ <- <-] ->]|[[= _ _ <- <-] ->]]; [left|right]; repeat split.
Qed.
Lemma bx_binomial : binomial_model sp_B bx_h0 bx_V [18; 22].
Proof.
  assert (H : draws_in bx_h0 bx_V = true) by (vm_compute; reflexivity). destruct (draws_in_ok _ _ H) as [H1 H2].
  constructor; [exact H1|exact H2| |]; clear H H1 H2.
  - apply cl_leaves_ok. vm_compute. reflexivity.
  - intros r Hr Ho. left. unfold bx_V in Hr. repeat (apply elem_of_cons in Hr as [->|Hr]).
    + eexists _, _, _, _, _, _. apply bx_pair1.
    + destruct Ho. left.
    + eexists _, _, _, _, _, _. apply bx_pair2.
    + destruct Ho. right. left.
    + by apply elem_of_nil in Hr.
Qed.

(** ** Values *)
Definition bx_ta : tensor R := Tensor [] [/ 4]%R.
Definition bx_tb : tensor R := Tensor [] [3 / 4]%R.
Definition bx_y1 : tensor R := Tensor [] [INR 3].
Definition bx_y2 : tensor R := Tensor [] [INR 2].
Definition bx_one : tensor R := Tensor [] [1%R].
Definition bx_five : tensor R := Tensor [] [5%R].
(** the beta draw with parameters A and C, restricted to 1/4 and 3/4, from a uniform number *)
Definition bx_chance (A C : tensor R) : R :=
  (beta_array [] A C (bval bx_ta) / (beta_array [] A C (bval bx_ta) + beta_array [] A C (bval bx_tb)))%R.
Definition bx_pick (A C st : tensor R) : tensor R := if Rlt_dec (bval st []) (bx_chance A C) then bx_ta else bx_tb.
Definition bx_other (o : op) (xs : list (tensor R)) : option (list (tensor R)) :=
  match xs with [st; _; _; A; B] => Some [st; bx_pick A B st] | _ => None end.
Definition bx_state (st : tensor R) : Prop := exists u, st = Tensor [] [u] /\ (0 < u < 1)%R.
Definition bx_seed : law (vid -> tensor R) := fun F => RInt (fun u => F (fun _ => Tensor [] [u])) 0 1.
Definition bx_own : law (vid -> tensor R) := fun f => (f (fun _ => bx_ta) + f (fun _ => bx_tb))%R.

Lemma bx_chance_in A C : (0 < bx_chance A C < 1)%R.
Proof.
  unfold bx_chance. pose proof (beta_array_pos [] A C (bval bx_ta)) as H1. pose proof (beta_array_pos [] A C (bval bx_tb)) as H2.
  set (u := beta_array [] A C (bval bx_ta)) in *. set (v := beta_array [] A C (bval bx_tb)) in *. clearbody u v. split.
  - apply Rdiv_lt_0_compat; lra.
  - apply (Rmult_lt_reg_r (u + v)); [lra|]. unfold Rdiv. rewrite Rmult_assoc, Rinv_l by lra. lra.
Qed.
Lemma bget_bval u : bval (Tensor [] [u]) [] = u.
Proof. unfold bval. by rewrite bget_scalar. Qed.
Lemma bx_seed_draw A C (F : tensor R -> R) (g : vid) :
  bx_seed (fun e => F (bx_pick A C (e g))) = (bx_chance A C * F bx_ta + (1 - bx_chance A C) * F bx_tb)%R.
Proof.
  unfold bx_seed. pose proof (bx_chance_in A C) as Hq. set (q := bx_chance A C) in *.
  set (G := fun u => F (bx_pick A C (Tensor [] [u]))).
  assert (H1 : is_RInt G 0 q ((q - 0) * F bx_ta)%R).
  { apply (is_RInt_ext (fun _ => F bx_ta)); [|apply (is_RInt_const (V := R_NormedModule))].
    intros u Hu. rewrite Rmin_left, Rmax_right in Hu by lra. unfold G, bx_pick. fold q. rewrite (bget_bval u). destruct (Rlt_dec u q) as [_|N]; [done|lra]. }
  assert (H2 : is_RInt G q 1 ((1 - q) * F bx_tb)%R).
  { apply (is_RInt_ext (fun _ => F bx_tb)); [|apply (is_RInt_const (V := R_NormedModule))].
    intros u Hu. rewrite Rmin_left, Rmax_right in Hu by lra. unfold G, bx_pick. fold q. rewrite (bget_bval u). destruct (Rlt_dec u q) as [N|_]; [lra|done]. }
  rewrite (is_RInt_unique _ _ _ _ (is_RInt_Chasles _ _ _ _ _ _ H1 H2)). unfold Hierarchy.plus. cbn. lra.
Qed.

Definition bx_rho (v : vid) : option (tensor R) := if Nat.eqb v 13 then Some bx_y1 else if Nat.eqb v 14 then Some bx_y2 else None.
Definition bx_data (v : vid) : tensor R := if Nat.eqb v 18 then bx_y1 else bx_y2.
Definition bx_shape (v : vid) : list nat := [].
Definition bx_dom (x : vid -> tensor R) : Prop :=
  (x 18 = bx_y1 /\ x 22 = bx_y2) /\ array_in unit_interval [] (x 16) /\ array_in unit_interval [] (x 20).
Definition tensor_dec (t t' : tensor R) : {t = t'} + {t <> t'}.
Proof.
  destruct t as [s d], t' as [s' d'].
  destruct (decide (s = s')) as [Hs|Hs], (List.list_eq_dec Req_EM_T d d') as [Hd|Hd]; [left; by rewrite Hs, Hd|right..]; by intros [= ? ?].
Defined.
Definition unit_dec (t : tensor R) : {array_in unit_interval [] t} + {~ array_in unit_interval [] t}.
Proof.
  destruct (tensor_dec t (Tensor [] [bval t []])) as [E|E].
  - destruct (Rlt_dec 0 (bval t [])) as [H1|H1]; [destruct (Rlt_dec (bval t []) 1) as [H2|H2]|].
    + left. rewrite E. by apply xb_unit.
    + right. intros (r & -> & Hr)%xb_scalar. rewrite bget_bval in H2. lra.
    + right. intros (r & -> & Hr)%xb_scalar. rewrite bget_bval in H1. lra.
  - right. intros (r & -> & Hr)%xb_scalar. apply E. by rewrite bget_bval.
Defined.
Definition bx_dom_dec (x : vid -> tensor R) : {bx_dom x} + {~ bx_dom x}.
Proof.
  destruct (tensor_dec (x 18) bx_y1) as [H1|H1]; [|right; by intros [[? ?] ?]].
  destruct (tensor_dec (x 22) bx_y2) as [H2|H2]; [|right; by intros [[? ?] ?]].
  destruct (unit_dec (x 16)) as [H3|H3]; [|right; by intros [[? ?] [? ?]]].
  destruct (unit_dec (x 20)) as [H4|H4]; [left|right; by intros [[? ?] [? ?]]]. done.
Defined.
(** the log-density of the four variables *)
Definition bx_l (x : vid -> tensor R) : R :=
  (sp_ld RV_beta [sp_cval 1; sp_cval 2; bx_one; bx_one] (x 16%nat) +
   (sp_ld RV_binomial [sp_cval 1; sp_cval 2; bx_five; x 16%nat] (x 18%nat) +
    (sp_ld RV_beta [sp_cval 1; sp_cval 2; bx_one; bx_one] (x 20%nat) +
     (sp_ld RV_binomial [sp_cval 1; sp_cval 2; x 18%nat; x 20%nat] (x 22%nat) + 0))))%R.
Definition bx_w (x : vid -> tensor R) : R := if bx_dom_dec x then exp (bx_l x) else 0%R.

Lemma bx_const z : sp_cval (encode_nat z) = Tensor [] [IZR z].
Proof. unfold sp_cval. by rewrite decode_encode_nat. Qed.
Lemma bx_hv u : u ∈ [1; 2; 3; 4] -> forall h, h = bx_h0 \/ h = bx_h3 ->
  exists w, hv h u = Some w /\ v_owner w = None /\
    v_kind w = KConst (match u with 1 => 1 | 2 => 2 | 3 => encode_nat 1%Z | _ => encode_nat 5%Z end).
Proof.
  intros Hu h [-> | ->]; repeat (apply elem_of_cons in Hu as [->|Hu]; [eexists; split; [vm_compute; reflexivity|split; vm_compute; reflexivity]|]);
  destruct (proj1 (elem_of_nil _) Hu).
Qed.
Section values.
  Context (h : heap) (Hh : h = bx_h0 \/ h = bx_h3) (x : vid -> tensor R) (rho : vid -> option (tensor R)).
  Hypothesis Hnone : forall u, u ∈ [1; 2; 3; 4] -> rho u = None.
  Notation EV := (evals (tensor_base sp_scalar bx_other) sp_cval h (over (on bx_V x) rho)).
  Lemma bx_var v : v ∈ bx_V -> EV v (x v).
  Proof using Type. intros Hv. apply ev_given. unfold over, on. by rewrite decide_True. Qed.
  Lemma bx_cst u : u ∈ [1; 2; 3; 4] -> EV u (sp_cval (match u with 1 => 1 | 2 => 2 | 3 => encode_nat 1%Z | _ => encode_nat 5%Z end)).
  Proof using Hh Hnone.
    intros Hu. destruct (bx_hv u Hu h Hh) as (w & H1 & H2 & H3). eapply ev_const; [|exact H1|exact H2|exact H3].
    unfold over, on. rewrite decide_False by (by apply (bx_leaf u)). by apply Hnone.
  Qed.
  Lemma bx_ev1 : EV 1 (sp_cval 1). Proof using Hh Hnone. apply (bx_cst 1). left. Qed.
  Lemma bx_ev2 : EV 2 (sp_cval 2). Proof using Hh Hnone. apply (bx_cst 2). right. left. Qed.
  Lemma bx_ev3 : EV 3 bx_one. Proof using Hh Hnone. change bx_one with (Tensor [] [IZR 1]). rewrite <- (bx_const 1). apply (bx_cst 3). do 2 right. left. Qed.
  Lemma bx_ev4 : EV 4 bx_five. Proof using Hh Hnone. change bx_five with (Tensor [] [IZR 5]). rewrite <- (bx_const 5). apply (bx_cst 4). do 3 right. left. Qed.
End values.
Lemma bx_16V : 16 ∈ bx_V. Proof. left. Qed.
Lemma bx_18V : 18 ∈ bx_V. Proof. right. left. Qed.
Lemma bx_20V : 20 ∈ bx_V. Proof. do 2 right. left. Qed.
Lemma bx_22V : 22 ∈ bx_V. Proof. do 3 right. left. Qed.
Lemma bx_rho_none u : u ∈ [1; 2; 3; 4] -> bx_rho u = None.
Proof. intros Hu. repeat (apply elem_of_cons in Hu as [->|Hu]; [reflexivity|]). by apply elem_of_nil in Hu. Qed.

Lemma bx_density x : bx_dom x -> density_at sp_scalar bx_other sp_cval sp_ld bx_h0 bx_rho bx_V bx_w x.
Proof.
  intros Hd. exists (bx_l x). split.
  - eexists [_; _; _; _]. split; [|reflexivity].
    pose proof (bx_ev1 bx_h0 (or_introl eq_refl) x bx_rho bx_rho_none) as H1. pose proof (bx_ev2 bx_h0 (or_introl eq_refl) x bx_rho bx_rho_none) as H2.
    pose proof (bx_ev3 bx_h0 (or_introl eq_refl) x bx_rho bx_rho_none) as H3. pose proof (bx_ev4 bx_h0 (or_introl eq_refl) x bx_rho bx_rho_none) as H4.
    assert (Hv : forall v, v ∈ bx_V -> on bx_V x v = Some (x v)) by (intros v Hv; unfold on; by rewrite decide_True).
    apply List.Forall2_cons; [|apply List.Forall2_cons; [|apply List.Forall2_cons; [|apply List.Forall2_cons; [|apply List.Forall2_nil]]]].
    + eapply factor_given; [apply bx_16|apply Hv, bx_16V| |reflexivity]. apply evals_list_Forall2.
      apply List.Forall2_cons; [exact H1|]. apply List.Forall2_cons; [exact H2|]. apply List.Forall2_cons; [exact H3|]. apply List.Forall2_cons; [exact H3|]. apply List.Forall2_nil.
    + eapply factor_given; [apply bx_18|apply Hv, bx_18V| |reflexivity]. apply evals_list_Forall2.
      apply List.Forall2_cons; [exact H1|]. apply List.Forall2_cons; [exact H2|]. apply List.Forall2_cons; [exact H4|]. apply List.Forall2_cons; [apply bx_var, bx_16V|]. apply List.Forall2_nil.
    + eapply factor_given; [apply bx_20|apply Hv, bx_20V| |reflexivity]. apply evals_list_Forall2.
      apply List.Forall2_cons; [exact H1|]. apply List.Forall2_cons; [exact H2|]. apply List.Forall2_cons; [exact H3|]. apply List.Forall2_cons; [exact H3|]. apply List.Forall2_nil.
    + eapply factor_given; [apply bx_22|apply Hv, bx_22V| |reflexivity]. apply evals_list_Forall2.
      apply List.Forall2_cons; [exact H1|]. apply List.Forall2_cons; [exact H2|]. apply List.Forall2_cons; [apply bx_var, bx_18V|]. apply List.Forall2_cons; [apply bx_var, bx_20V|]. apply List.Forall2_nil.
  - unfold bx_w. by destruct (bx_dom_dec x).
Qed.
Lemma bx_rank u : u ∈ [3; 4; 18; 22] -> a_ndim sp_B (ty_def bx_h0 u) = 0.
Proof. intros Hu. repeat (apply elem_of_cons in Hu as [->|Hu]; [vm_compute; reflexivity|]). by apply elem_of_nil in Hu. Qed.
Lemma bx_value u r rho : u ∈ [3; 4; 18; 22] -> evals (tensor_base sp_scalar bx_other) sp_cval bx_h0 rho u (Tensor [] [r]) ->
  has_value sp_B sp_scalar bx_other sp_cval bx_h0 rho u (Tensor [] [r]).
Proof. intros Hu Hv. split; [exact Hv|]. by rewrite bx_rank. Qed.
Lemma bx_posterior : posterior_on sp_B sp_scalar bx_other sp_cval sp_ld bx_h0 bx_rho bx_V [18; 22] bx_data bx_shape bx_dom bx_w.
Proof.
  constructor.
  - apply bx_density.
  - intros x. unfold bx_w. destruct (bx_dom_dec x) as [H|H]; [by left|by right].
  - intros x k [[H1 H2] _] Hk. apply elem_of_cons in Hk as [->|Hk]; [exact H1|]. apply elem_of_list_singleton in Hk as ->. exact H2.
  - intros x p y t (size & dtype & a & b & nn & Hb) Ho ((H1 & H2) & H3 & H4) Ht.
    destruct (bx_pairs _ _ _ _ _ _ _ Hb Ho) as (_ & _ & _ & _ & [(-> & _)|(-> & _)]); (split; [split; assumption|split; assumption]).
  - intros x p y size dtype a b nn Hb Ho ((H1 & H2) & H3 & H4) env s.
    pose proof (bx_ev3 bx_h0 (or_introl eq_refl) x bx_rho bx_rho_none) as E3. pose proof (bx_ev4 bx_h0 (or_introl eq_refl) x bx_rho bx_rho_none) as E4.
    pose proof (bx_var bx_h0 x bx_rho 18 bx_18V) as E18. pose proof (bx_var bx_h0 x bx_rho 22 bx_22V) as E22. rewrite H1 in E18. rewrite H2 in E22.
    destruct (bx_pairs _ _ _ _ _ _ _ Hb Ho) as (-> & -> & -> & -> & Hc).
    assert (V3 : has_value sp_B sp_scalar bx_other sp_cval bx_h0 env 3 bx_one) by (apply bx_value; [left|exact E3]).
    assert (V4 : has_value sp_B sp_scalar bx_other sp_cval bx_h0 env 4 bx_five) by (apply bx_value; [right; left|exact E4]).
    assert (V18 : has_value sp_B sp_scalar bx_other sp_cval bx_h0 env 18 bx_y1) by (apply bx_value; [do 2 right; left|exact E18]).
    assert (V22 : has_value sp_B sp_scalar bx_other sp_cval bx_h0 env 22 bx_y2) by (apply bx_value; [do 3 right; left|exact E22]).
    assert (Hpos : forall i, in_range s i -> (0 < bval bx_one i)%R /\ (0 < bval bx_one i)%R).
    { intros i _. unfold bval, bx_one. rewrite bget_scalar. cbn. lra. }
    destruct Hc as [(-> & -> & ->)|(-> & -> & ->)].
    + exists bx_one, bx_one, bx_five, (fun _ => 5), (fun _ => 3). rewrite H1.
      split; [exact V3|]. split; [apply fits_scalar|]. split; [exact V3|]. split; [apply fits_scalar|]. split; [exact Hpos|].
      split; [exact V4|]. split; [apply fits_scalar|]. split; [intros i _; unfold bx_five; rewrite bget_scalar; f_equal; cbn; lra|].
      split; [exact V18|]. split; [reflexivity|]. split; [reflexivity|]. split; [intros i _; exact (bget_scalar _ _)|]. intros i _. lia.
    + exists bx_one, bx_one, bx_y1, (fun _ => 3), (fun _ => 2). rewrite H2.
      split; [exact V3|]. split; [apply fits_scalar|]. split; [exact V3|]. split; [apply fits_scalar|]. split; [exact Hpos|].
      split; [exact V18|]. split; [apply fits_scalar|]. split; [intros i _; exact (bget_scalar _ _)|].
      split; [exact V22|]. split; [reflexivity|]. split; [reflexivity|]. split; [intros i _; exact (bget_scalar _ _)|]. intros i _. lia.
Qed.

(** ** The steps *)
Definition bx_a1 : tensor R := Tensor [] [1 + INR 3]%R.
Definition bx_c1 : tensor R := Tensor [] [1 + 5 - INR 3]%R.
Definition bx_a2 : tensor R := Tensor [] [1 + INR 2]%R.
Definition bx_c2 : tensor R := Tensor [] [1 + INR 3 - INR 2]%R.
Definition bx_x0 : vid -> tensor R := bx_data.
Definition bx_gen (p : vid) : vid := if Nat.eqb p 16 then 26 else 32.
Definition bx_blk (p : vid) : step_block (tensor R) :=
  if Nat.eqb p 16 then StepBlock [16] [26] bx_seed (fun _ e _ => bx_pick bx_a1 bx_c1 (e 26)) bx_own (fun f => bx_own (fun t => f (put [20] t bx_x0)))
  else StepBlock [20] [32] bx_seed (fun _ e _ => bx_pick bx_a2 bx_c2 (e 32)) bx_own (fun f => bx_own (fun t => f (put [16] t bx_x0))).
(** the reference measure: the four pairs of values of p1 and p2 *)
Definition bx_mu : law (vid -> tensor R) := fun f => bx_own (fun t2 => bx_own (fun t1 => f (put [16] t1 (put [20] t2 bx_x0)))).

Lemma bx_measure p : measure_on p (array_in unit_interval []) bx_own.
Proof.
  constructor; unfold bx_own.
  - intros a c. ring.
  - intros f f' Hf. rewrite !Hf; [done|apply xb_unit; lra..].
Qed.
Lemma put_swap {D} (p q : vid) (s t x : vid -> D) : p <> q -> put [p] s (put [q] t x) = put [q] t (put [p] s x).
Proof.
  intros Hne. apply functional_extensionality. intros u. unfold put.
  destruct (decide (u ∈ [p])) as [->%elem_of_list_singleton|Hp]; [|done]. rewrite decide_False; [done|]. by intros ->%elem_of_list_singleton.
Qed.
Lemma bx_iterated p : iterated (fun _ => True) bx_mu bx_w (bx_blk p).
Proof.
  intros g _. unfold bx_blk. destruct (Nat.eqb p 16); cbn [b_vars b_own b_rest]; [reflexivity|].
  unfold bx_mu, bx_own. rewrite !(put_swap 20 16) by done. ring.
Qed.
Lemma bx_draws p : draws_beta sp_scalar bx_other sp_cval bx_h0 bx_rho bx_V bx_shape bx_state (fun _ => True) bx_dom p (bx_gen p) (bx_blk p).
Proof.
  assert (Hseed : b_seed (bx_blk p) = bx_seed) by (unfold bx_blk; by destruct (Nat.eqb p 16)).
  assert (Hown : b_own (bx_blk p) = bx_own) by (unfold bx_blk; by destruct (Nat.eqb p 16)).
  constructor; rewrite Hseed.
  - intros F F' HF. unfold bx_seed. apply RInt_ext. intros u Hu. rewrite Rmin_left, Rmax_right in Hu by lra. apply HF. by exists u.
  - intros x y size dtype a b nn sv dv A C _ _ _ _ _ _ _ _ _. exists (bx_pick A C), (fun st => st). split; [|split].
    + intros st _. split; [reflexivity|]. unfold bx_pick. destruct (Rlt_dec _ _); apply xb_unit; lra.
    + rewrite Hown. unfold bx_own. pose proof (beta_array_pos [] A C (bval bx_ta)). pose proof (beta_array_pos [] A C (bval bx_tb)).
      unfold bx_shape. lra.
    + intros x0 f _. rewrite Hown. rewrite (bx_seed_draw A C (fun t => f (put [p] (fun _ => t) x0))). unfold bx_own, bx_chance, bx_shape.
      pose proof (beta_array_pos [] A C (bval bx_ta)). pose proof (beta_array_pos [] A C (bval bx_tb)). field. lra.
Qed.

Section steps.
  Context (x e : vid -> tensor R) (Hx : bx_dom x).
  Section one.
    Notation EV := (evals (tensor_base sp_scalar bx_other) sp_cval bx_h3 (over (on bx_V x) (over (on [26] e) bx_rho))).
    Lemma bx_none1 u : u ∈ [1; 2; 3; 4] -> over (on [26] e) bx_rho u = None.
    Proof using Type. intros Hu. repeat (apply elem_of_cons in Hu as [->|Hu]; [reflexivity|]). by apply elem_of_nil in Hu. Qed.
    Lemma bx_e18 : EV 18 bx_y1.
    Proof using Hx. destruct Hx as [[<- _] _]. apply bx_var, bx_18V. Qed.
    Lemma bx_23 : EV 23 bx_a1.
    Proof using Hx.
      apply (E_sweep.ev_node _ _ _ _ 23 8 0 (Node (OElem 0) [3; 18] [23]) [bx_one; bx_y1] [bx_a1]);
        [reflexivity|vm_compute; reflexivity|vm_compute; reflexivity| |reflexivity|reflexivity].
      cbn [n_ins]. apply List.Forall2_cons; [apply bx_ev3; [by right|apply bx_none1]|]. apply List.Forall2_cons; [apply bx_e18|]. apply List.Forall2_nil.
    Qed.
    Lemma bx_24 : EV 24 (Tensor [] [1 + 5]%R).
    Proof using Type.
      apply (E_sweep.ev_node _ _ _ _ 24 9 0 (Node (OElem 0) [3; 4] [24]) [bx_one; bx_five] [Tensor [] [1 + 5]%R]);
        [reflexivity|vm_compute; reflexivity|vm_compute; reflexivity| |reflexivity|reflexivity].
      cbn [n_ins]. apply List.Forall2_cons; [apply bx_ev3; [by right|apply bx_none1]|]. apply List.Forall2_cons; [apply bx_ev4; [by right|apply bx_none1]|]. apply List.Forall2_nil.
    Qed.
    Lemma bx_25 : EV 25 bx_c1.
    Proof using Hx.
      apply (E_sweep.ev_node _ _ _ _ 25 10 0 (Node (OElem 2) [24; 18] [25]) [Tensor [] [1 + 5]%R; bx_y1] [bx_c1]);
        [reflexivity|vm_compute; reflexivity|vm_compute; reflexivity| |reflexivity|reflexivity].
      cbn [n_ins]. apply List.Forall2_cons; [apply bx_24|]. apply List.Forall2_cons; [apply bx_e18|]. apply List.Forall2_nil.
    Qed.
    Lemma bx_28 : EV 28 (bx_pick bx_a1 bx_c1 (e 26)).
    Proof using Hx.
      apply (E_sweep.ev_node _ _ _ _ 28 11 1 (Node (ORV RV_beta) [26; 1; 2; 23; 25] [27; 28]) [e 26; sp_cval 1; sp_cval 2; bx_a1; bx_c1] [e 26; bx_pick bx_a1 bx_c1 (e 26)]);
        [reflexivity|vm_compute; reflexivity|vm_compute; reflexivity| |reflexivity|reflexivity].
      cbn [n_ins]. apply List.Forall2_cons; [apply ev_given; reflexivity|]. apply List.Forall2_cons; [apply bx_ev1; [by right|apply bx_none1]|].
      apply List.Forall2_cons; [apply bx_ev2; [by right|apply bx_none1]|]. apply List.Forall2_cons; [apply bx_23|]. apply List.Forall2_cons; [apply bx_25|]. apply List.Forall2_nil.
    Qed.
  End one.
  Section two.
    Notation EV := (evals (tensor_base sp_scalar bx_other) sp_cval bx_h3 (over (on bx_V x) (over (on [32] e) bx_rho))).
    Lemma bx_none2 u : u ∈ [1; 2; 3; 4] -> over (on [32] e) bx_rho u = None.
    Proof using Type. intros Hu. repeat (apply elem_of_cons in Hu as [->|Hu]; [reflexivity|]). by apply elem_of_nil in Hu. Qed.
    Lemma bx_e18' : EV 18 bx_y1.
    Proof using Hx. destruct Hx as [[<- _] _]. apply bx_var, bx_18V. Qed.
    Lemma bx_e22 : EV 22 bx_y2.
    Proof using Hx. destruct Hx as [[_ <-] _]. apply bx_var, bx_22V. Qed.
    Lemma bx_29 : EV 29 bx_a2.
    Proof using Hx.
      apply (E_sweep.ev_node _ _ _ _ 29 12 0 (Node (OElem 0) [3; 22] [29]) [bx_one; bx_y2] [bx_a2]);
        [reflexivity|vm_compute; reflexivity|vm_compute; reflexivity| |reflexivity|reflexivity].
      cbn [n_ins]. apply List.Forall2_cons; [apply bx_ev3; [by right|apply bx_none2]|]. apply List.Forall2_cons; [apply bx_e22|]. apply List.Forall2_nil.
    Qed.
    Lemma bx_30 : EV 30 (Tensor [] [1 + INR 3]%R).
    Proof using Hx.
      apply (E_sweep.ev_node _ _ _ _ 30 13 0 (Node (OElem 0) [3; 18] [30]) [bx_one; bx_y1] [Tensor [] [1 + INR 3]%R]);
        [reflexivity|vm_compute; reflexivity|vm_compute; reflexivity| |reflexivity|reflexivity].
      cbn [n_ins]. apply List.Forall2_cons; [apply bx_ev3; [by right|apply bx_none2]|]. apply List.Forall2_cons; [apply bx_e18'|]. apply List.Forall2_nil.
    Qed.
    Lemma bx_31 : EV 31 bx_c2.
    Proof using Hx.
      apply (E_sweep.ev_node _ _ _ _ 31 14 0 (Node (OElem 2) [30; 22] [31]) [Tensor [] [1 + INR 3]%R; bx_y2] [bx_c2]);
        [reflexivity|vm_compute; reflexivity|vm_compute; reflexivity| |reflexivity|reflexivity].
      cbn [n_ins]. apply List.Forall2_cons; [apply bx_30|]. apply List.Forall2_cons; [apply bx_e22|]. apply List.Forall2_nil.
    Qed.
    Lemma bx_34 : EV 34 (bx_pick bx_a2 bx_c2 (e 32)).
    Proof using Hx.
      apply (E_sweep.ev_node _ _ _ _ 34 15 1 (Node (ORV RV_beta) [32; 1; 2; 29; 31] [33; 34]) [e 32; sp_cval 1; sp_cval 2; bx_a2; bx_c2] [e 32; bx_pick bx_a2 bx_c2 (e 32)]);
        [reflexivity|vm_compute; reflexivity|vm_compute; reflexivity| |reflexivity|reflexivity].
      cbn [n_ins]. apply List.Forall2_cons; [apply ev_given; reflexivity|]. apply List.Forall2_cons; [apply bx_ev1; [by right|apply bx_none2]|].
      apply List.Forall2_cons; [apply bx_ev2; [by right|apply bx_none2]|]. apply List.Forall2_cons; [apply bx_29|]. apply List.Forall2_cons; [apply bx_31|]. apply List.Forall2_nil.
    Qed.
  End two.
End steps.
Lemma bx_in1 : exists n i nd, owner bx_h3 28 = Some (n, i) /\ hn bx_h3 n = Some nd /\ n_ins nd !! 0 = Some 26.
Proof. eexists 11, 1, _. split; [vm_compute; reflexivity|]. split; [vm_compute; reflexivity|]. vm_compute; reflexivity. Qed.
Lemma bx_in2 : exists n i nd, owner bx_h3 34 = Some (n, i) /\ hn bx_h3 n = Some nd /\ n_ins nd !! 0 = Some 32.
Proof. eexists 15, 1, _. split; [vm_compute; reflexivity|]. split; [vm_compute; reflexivity|]. vm_compute; reflexivity. Qed.
Lemma bx_block p f : p ∈ [16; 20] -> chosen (st_found bx_st0) p = Some f ->
  beta_block sp_scalar bx_other sp_cval bx_h0 bx_rho bx_V bx_shape bx_h3 (f_step f) bx_state (fun _ => True) bx_dom p (bx_gen p) (bx_blk p).
Proof.
  rewrite bx_found. intros Hp Hf. pose proof (bx_draws p) as Hd.
  apply elem_of_cons in Hp as [->|Hp].
  - assert (f = Found 3 28 []) as -> by (clear - Hf; cbn in Hf; by injection Hf).
    constructor; [reflexivity|reflexivity|exact bx_in1| | |apply bx_measure|exact Hd].
    + intros x e t Hx Ht. exact (evals_det _ _ _ _ _ _ _ (bx_28 x e Hx) Ht).
    + intros x e e' He. unfold bx_gen in He. cbn in He |- *. by rewrite He.
  - apply elem_of_list_singleton in Hp as ->.
    assert (f = Found 3 34 []) as -> by (clear - Hf; cbn in Hf; by injection Hf).
    constructor; [reflexivity|reflexivity|exact bx_in2| | |apply bx_measure|exact Hd].
    + intros x e t Hx Ht. exact (evals_det _ _ _ _ _ _ _ (bx_34 x e Hx) Ht).
    + intros x e e' He. unfold bx_gen in He. cbn in He |- *. by rewrite He.
Qed.
Lemma bx_old : gives_old bx_h0 bx_rho.
Proof.
  intros v [t Ht]. unfold bx_rho in Ht. destruct (Nat.eqb_spec v 13) as [->|_]; [vm_compute; by eexists|].
  destruct (Nat.eqb_spec v 14) as [->|_]; [vm_compute; by eexists|]. discriminate Ht.
Qed.
