(** Concrete models and kernels for the theorems about the NUTS step. *)
From Coq Require Import Lra.
From Verif Require Export E_real L_nuts_updates.

Definition sc (x : R) : tensor num := Tensor [] [Some x].

(** S ~ exponential(1), U ~ uniform(0, b), Y ~ normal(U, 1), Y observed.  [b] is 4 (the
    constant 4) or 9 (the variable S) *)
Definition nu_h (b : vid) : heap :=
  let rng k ow := Var None (VType true 20) k ow in
  let v k ow := Var None (re_ty 0) k ow in
  Heap (list_to_map
    [(0, rng (KShared None) None); (1, Var None (re_ty 1) (KConst 0) None); (2, v (KConst 0) None);
     (3, v (KConst 1) None); (4, v (KConst 4) None); (5, v (KConst 0) None);
     (6, rng (KShared None) None); (7, rng (KShared None) None);
     (8, rng KPlain (Some (0, 0))); (9, v KPlain (Some (0, 1)));
     (10, rng KPlain (Some (1, 0))); (11, v KPlain (Some (1, 1)));
     (12, rng KPlain (Some (2, 0))); (13, v KPlain (Some (2, 1)));
     (14, v KPlain None); (15, v KPlain None); (16, v KPlain None)])
   (list_to_map
    [(0, Node (ORV RV_exponential) [0; 1; 2; 3] [8; 9]);
     (1, Node (ORV RV_uniform) [6; 1; 2; 5; b] [10; 11]);
     (2, Node (ORV RV_normal) [7; 1; 2; 11; 3] [12; 13])]).
Lemma nu_good b : b = 4 \/ b = 9 -> good_heap (nu_h b).
Proof. intros [-> | ->]; apply heap_check_good; by vm_compute. Qed.
Definition nu_ts : dict nat nat := [(9, 14); (11, 15)].
Definition nu_re : dict nat nat := [(13, 16)].
Definition nu_lp (h : heap) (ts re : dict nat nat) : heap * list vid := (h, dvalues re).
Lemma nu_lp_ok : lp_ok nu_lp.
Proof.
  intros h ts re Hg Hv. cbn. split; [apply extends_refl|]. split; [done|]. intros v Hin. apply Hv, elem_of_app. by right.
Qed.
Definition nu_step (b : vid) := step re_B aeppl_default nu_lp 1 (nu_h b) nu_ts nu_re.
Lemma nu_vals b v : b = 4 \/ b = 9 -> v ∈ dvalues nu_ts ++ dvalues nu_re -> is_Some (hv (nu_h b) v).
Proof.
  intros Hb Hv. repeat (apply elem_of_cons in Hv as [->|Hv]; [by destruct Hb as [-> | ->]; vm_compute; eauto|]). by apply elem_of_nil in Hv.
Qed.

(** operators: a draw is the state of the generator *)
Definition nu_other (o : op) (xs : list (tensor num)) : option (list (tensor num)) :=
  match xs with r :: _ => Some [r; r] | [] => None end.
Definition nu_cval (c : nat) : tensor num := sc (INR c).
(** a kernel that always moves to zero *)
Definition to_zero (xs : list (tensor num)) : option (list (tensor num)) :=
  match xs with q :: rest => Some (Tensor (t_shape q) ((fun _ => Some 0%R) <$> t_data q) :: rest) | [] => None end.
Lemma to_zero_position : returns_position to_zero.
Proof.
  intros q args ys Hok Hf [= <-]. eexists _, _. split; [done|]. split; [unfold tensor_ok; cbn; by rewrite fmap_length|].
  split; [|done]. unfold finite. cbn. apply Forall_fmap, Forall_forall. intros x _. by eexists.
Qed.
(** a kernel that does not move *)
Definition stay (xs : list (tensor num)) : option (list (tensor num)) := match xs with [] => None | _ => Some xs end.
Lemma stay_position : returns_position stay /\ kernel_stays stay.
Proof. split; [intros q args ys Hok Hf [= <-]; by eexists _, _|intros q args ys [= <-]; by eexists]. Qed.

Definition nu_leaf (u : vid) : R := match u with 0 => 10 | 14 => 2 | 15 => 1 | _ => 0 end%R.
Definition nu_rho (b : vid) (u : vid) : option (tensor num) :=
  match hv (nu_h b) u with
  | Some (Var _ _ (KConst _) _) | Some (Var _ _ _ (Some _)) => None
  | Some _ => Some (sc (nu_leaf u))
  | None => match owner (nu_step b).1 u with Some _ => None | None => Some (sc 0) end
  end.
Definition nu_sigma (s u y : R) (v : vid) : option (tensor num) :=
  if decide (v = 9) then Some (sc s) else if decide (v = 11) then Some (sc u) else if decide (v = 13) then Some (sc y) else None.

Lemma sc_ok x : tensor_ok (sc x).
Proof. done. Qed.
Lemma sc_fits x y : fits (t_shape (sc x)) (sc y).
Proof. by apply (fits_full (sc y)). Qed.
Lemma sc_finite x : finite (sc x).
Proof. repeat constructor. by eexists. Qed.
Lemma sc_bget x idx : in_range [] idx -> bget (sc x) idx = Some (Some x) /\ t_at (sc x) idx = Some (Some x).
Proof. intros Hi. inversion Hi; subst. done. Qed.
Lemma sc_params ps idx : in_range [] idx -> mapM (fun p : tensor num => bget p idx) (sc <$> ps) = Some (Some <$> ps).
Proof.
  intros Hi. induction ps as [|p ps IH]; [done|]. change (mapM (fun p : tensor num => bget p idx) (sc <$> p :: ps)) with
    (x ← bget (sc p) idx; k ← mapM (fun p : tensor num => bget p idx) (sc <$> ps); mret (x :: k)).
  by rewrite (proj1 (sc_bget p idx Hi)), IH.
Qed.
(** supports of scalars *)
Lemma sc_support d ps S x : d <> RV_dirichlet -> scalar_support d ps = Some S -> in_support d (sc <$> ps) (sc x) <-> S x.
Proof.
  intros Hd HS. unfold in_support. rewrite decide_False by done. cbn [t_shape sc]. split.
  - intros H. assert (Hi : in_range [] []) by constructor. destruct (H [] Hi) as (ps' & S' & r & Hm & HS' & Hr & HSr).
    rewrite (sc_params ps [] Hi) in Hm. injection Hm as Hm. apply (inj (fmap Some)) in Hm as <-. rewrite HS in HS'. injection HS' as <-.
    cbn in Hr. by injection Hr as <-.
  - intros HSx idx Hi. exists ps, S, x. rewrite (sc_params ps idx Hi). split; [done|]. split; [done|]. split; [by apply sc_bget|done].
Qed.

Lemma elem1 (f : list num -> option num) a : numpy_elemwise f [sc a] = (x ← f [Some a]; Some (Tensor [] [x])).
Proof. lazy. by destruct (f [Some a]). Qed.
Lemma elem3 (f : list num -> option num) a b c : numpy_elemwise f [sc a; sc b; sc c] = (x ← f [Some a; Some b; Some c]; Some (Tensor [] [x])).
Proof. lazy. by destruct (f [Some a; Some b; Some c]). Qed.

Definition shared_check (h : heap) : bool :=
  forallb (fun p : nat * var => match v_kind p.2, v_owner p.2 with KShared _, Some _ => false | _, _ => true end) (map_to_list (h_vars h)).
Lemma shared_check_ok h u : shared_check h = true -> is_shared h u = true -> owner h u = None.
Proof.
  unfold shared_check. intros Hc. rewrite forallb_forall in Hc. unfold is_shared, owner. destruct (hv h u) as [w|] eqn:Hu; [|done].
  specialize (Hc (u, w) ltac:(apply elem_of_list_In, elem_of_map_to_list; exact Hu)).
  destruct w as [nm ty k o]. cbn in *. by destruct k, o.
Qed.

Section run.
  Context (b : vid) (hi : R).
  Hypothesis Hb : b = 4 /\ hi = 4%R \/ b = 9 /\ hi = 10%R.
  Notation h := (nu_h b).
  Notation rho := (nu_rho b).
  Notation h' := ((nu_step b).1).
  Notation s := ((nu_step b).2).

  Lemma nu_b : b = 4 \/ b = 9.
  Proof. naive_solver. Qed.
  Lemma nu_new u : hv h u = None -> is_Some (owner h' u) -> rho u = None.
  Proof. intros Hu [x Hx]. unfold nu_rho. by rewrite Hu, Hx. Qed.
  Lemma nu_leaves u : hv h u = None -> owner h' u = None -> is_Some (rho u).
  Proof. intros Hu Hx. unfold nu_rho. rewrite Hu, Hx. by eexists. Qed.

  Lemma nu_shared u : is_shared h' u = true -> owner h' u = None.
  Proof. apply shared_check_ok. destruct nu_b as [-> | ->]; vm_compute; reflexivity. Qed.

  Section ev.
    Context (K : list (tensor num) -> option (list (tensor num))).
    Notation base := (nuts_base K nu_other).
    Notation ev := (evals base nu_cval h).

    Lemma nu_const env v c w : env v = None -> hv h v = Some w -> v_owner w = None -> v_kind w = KConst c -> ev env v (sc (INR c)).
    Proof. intros. by eapply (ev_const base nu_cval). Qed.
    Lemma nu_s : ev rho 9 (sc 10).
    Proof.
      assert (Hr : forall v c w, hv h v = Some w -> v_owner w = None -> v_kind w = KConst c -> rho v = None).
      { intros v c w Hv Ho Hk. unfold nu_rho. rewrite Hv. destruct w as [nm ty k o]. cbn in *. by subst. }
      eapply (ev_app base nu_cval h rho 9 0 1 (Node (ORV RV_exponential) [0; 1; 2; 3] [8; 9])
        [sc 10; sc 0; sc 0; sc 1]); [by destruct nu_b as [-> | ->]..| |reflexivity|reflexivity].
      repeat apply evl_cons; [| | | |apply evl_nil].
      - apply ev_given. by destruct nu_b as [-> | ->].
      - eapply (nu_const rho 1 0); by destruct nu_b as [-> | ->].
      - eapply (nu_const rho 2 0); by destruct nu_b as [-> | ->].
      - eapply (nu_const rho 3 1); by destruct nu_b as [-> | ->].
    Qed.
    Lemma nu_four env : env 4 = None -> ev env 4 (sc 4).
    Proof.
      intros He. assert (Hv : exists w, hv h 4 = Some w /\ v_owner w = None /\ v_kind w = KConst 4) by (destruct nu_b as [-> | ->]; eexists; split; by try reflexivity).
      destruct Hv as (w & H1 & H2 & H3). pose proof (nu_const env 4 4 w He H1 H2 H3) as H. replace (INR 4) with 4%R in H by (cbn; lra). exact H.
    Qed.
    Lemma nu_zero env : env 5 = None -> ev env 5 (sc 0).
    Proof.
      intros He. assert (Hv : exists w, hv h 5 = Some w /\ v_owner w = None /\ v_kind w = KConst 0) by (destruct nu_b as [-> | ->]; eexists; split; by try reflexivity).
      destruct Hv as (w & H1 & H2 & H3). exact (nu_const env 5 0 w He H1 H2 H3).
    Qed.
    Lemma nu_one env : env 3 = None -> ev env 3 (sc 1).
    Proof.
      intros He. assert (Hv : exists w, hv h 3 = Some w /\ v_owner w = None /\ v_kind w = KConst 1) by (destruct nu_b as [-> | ->]; eexists; split; by try reflexivity).
      destruct Hv as (w & H1 & H2 & H3). exact (nu_const env 3 1 w He H1 H2 H3).
    Qed.
    Lemma nu_hi : ev rho b (sc hi).
    Proof.
      destruct Hb as [[Eb Eh]|[Eb Eh]]; rewrite Eh.
      - rewrite Eb at 3. apply nu_four. by rewrite Eb.
      - rewrite Eb at 3. apply nu_s.
    Qed.
  End ev.

  (** the variables and their parameters *)
  Lemma nu_rvS : rv_of h 9 RV_exponential [3].
  Proof. eexists 0, _, 0, 1, 2. destruct nu_b as [-> | ->]; by split_and!. Qed.
  Lemma nu_rvU : rv_of h 11 RV_uniform [5; b].
  Proof. eexists 1, _, 6, 1, 2. destruct nu_b as [-> | ->]; by split_and!. Qed.

  Lemma nu_results : exists w1 w2, ns_results s = [w1; w2] /\
    evals (nuts_base to_zero nu_other) nu_cval h' rho w1 (sc 1) /\ evals (nuts_base to_zero nu_other) nu_cval h' rho w2 (sc (hi / 2)).
  Proof.
    set (base := nuts_base to_zero nu_other).
    pose proof (step_eq re_B aeppl_default nu_lp 1 h nu_ts nu_re h' s ltac:(unfold nu_step; by destruct (step _ _ _ _ _ _ _)) nu_lp_ok (nu_good b nu_b) (fun v => nu_vals b v nu_b)) as Hsg.
    destruct (change_of_variables RV_exponential [sc 1] (sc 2)) as (y1 & Hy1 & Hok1 & Hf1 & _); [done|done|by repeat constructor| |].
    { apply (sc_support RV_exponential [1%R]  (fun x => 0 < x)%R); [done|done|lra]. }
    destruct (change_of_variables RV_uniform [sc 0; sc hi] (sc 1)) as (y2 & Hy2 & Hok2 & Hf2 & _); [done|done| | |].
    { constructor; [apply sc_fits|]. constructor; [apply sc_fits|constructor]. }
    { apply (sc_support RV_uniform [0; hi]%R (fun x => 0 < x < hi)%R); [done|done|]. destruct Hb as [[_ ->]|[_ ->]]; lra. }
    assert (Hs1 : exists a, y1 = Tensor [] [a]).
    { revert Hy1. cbn -[forward]. change (forward KLog [sc 2]) with (numpy_elemwise (fwd_elem KLog) [sc 2]). rewrite elem1.
      destruct (fwd_elem KLog [Some 2%R]); [|done]. intros [= <-]. by eexists. }
    assert (Hs2 : exists a, y2 = Tensor [] [a]).
    { revert Hy2. cbn -[forward]. change (forward KInterval [sc 1; sc 0; sc hi]) with (numpy_elemwise (fwd_elem KInterval) [sc 1; sc 0; sc hi]). rewrite elem3.
      destruct (fwd_elem KInterval [Some 1%R; Some 0%R; Some hi]); [|done]. intros [= <-]. by eexists. }
    destruct Hs1 as [a1 ->], Hs2 as [a2 ->].
    set (X := fun i => match i with 0 => sc 2 | _ => sc 1 end).
    set (Y := fun i => match i with 0 => Tensor [] [a1] | _ => Tensor [] [a2] end).
    set (A := fun i => match i with 0 => [] | _ => [sc 0; sc hi] end).
    destruct (step_runs to_zero nu_other nu_cval re_B aeppl_default 1 h nu_ts _ h' s Hsg (nu_good b nu_b) rho nu_new X Y A) as (rest & out & Hout & _ & _ & Hfin).
    { intros [|[|i]] rv vv Hi; [| |done]; cbn in Hi; injection Hi as <- <-.
      - rewrite (rv_of_targs h 9 RV_exponential [3] nu_rvS eq_refl), (rv_of_transform _ _ _ _ _ nu_rvS).
        split; [by destruct nu_b as [-> | ->]|]. split; [by destruct nu_b as [-> | ->]|].
        split; [apply ev_given; by destruct nu_b as [-> | ->]|]. split; [constructor|]. exact Hy1.
      - rewrite (rv_of_targs h 11 RV_uniform [5; b] nu_rvU eq_refl), (rv_of_transform _ _ _ _ _ nu_rvU).
        split; [by destruct nu_b as [-> | ->]|]. split; [by destruct nu_b as [-> | ->]|].
        split; [apply ev_given; by destruct nu_b as [-> | ->]|]. split; [|exact Hy2].
        change (bounds RV_uniform [5; b]) with [5; b]. constructor; [apply nu_zero; by destruct nu_b as [-> | ->]|]. constructor; [apply nu_hi|constructor]. }
    { intros a c. exists a, a. done. }
    { intros u Hu Hsh. apply nu_leaves; [done|]. by apply nu_shared. }
    { apply nu_leaves; by destruct nu_b as [-> | ->]; vm_compute. }
    { apply nu_leaves; by destruct nu_b as [-> | ->]; vm_compute. }
    { intros v Hv. assert (v = 16) as ->. { revert Hv. cbn. by intros ?%elem_of_list_singleton. } exists (sc 0). apply ev_given. by destruct nu_b as [-> | ->]. }
    { intros rest. by eexists. }
    assert (Hw : exists w1 w2, ns_results s = [w1; w2]) by (destruct nu_b as [-> | ->]; eexists _, _; by vm_compute).
    destruct Hw as (w1 & w2 & Hw). exists w1, w2. split; [done|]. injection Hout as <-.
    split.
    - apply (Hfin 0 9 14 w1 (Tensor [2] [Some 0%R; Some 0%R]) (sc 0)); [reflexivity|reflexivity|by rewrite Hw|reflexivity|].
      rewrite (rv_of_transform _ _ _ _ _ nu_rvS). change (backward KLog [sc 0] = Some (sc 1)). unfold backward. rewrite elem1. cbn. by rewrite exp_0.
    - apply (Hfin 1 11 15 w2 (Tensor [2] [Some 0%R; Some 0%R]) (sc 0)); [reflexivity|reflexivity|by rewrite Hw|reflexivity|].
      rewrite (rv_of_transform _ _ _ _ _ nu_rvU). change (backward KInterval [sc 0; sc 0; sc hi] = Some (sc (hi / 2))). unfold backward. rewrite elem3. cbn.
      unfold sc. do 4 f_equal. rewrite ?Ropp_0, ?exp_0. lra.
  Qed.
End run.

(** The same model (with bound 4), the variables enumerated in either order *)
Definition nu_ord (o : bool) : dict nat nat := if o then [(9, 14); (11, 15)] else [(11, 15); (9, 14)].
Definition nu_ostep (o : bool) := step re_B aeppl_default nu_lp 1 (nu_h 4) (nu_ord o) nu_re.
(** the same values of the parameters of the step: the step size 0 and the inverse mass matrix 1, 2 *)
Definition nu_imm : tensor num := Tensor [2] [Some 1%R; Some 2%R].
Definition nu_orho (o : bool) (u : vid) : option (tensor num) :=
  match hv (nu_h 4) u with
  | Some (Var _ _ (KConst _) _) | Some (Var _ _ _ (Some _)) => None
  | Some _ => Some (sc (nu_leaf u))
  | None => match owner (nu_ostep o).1 u with Some _ => None | None =>
      if decide (u = (ns_params (nu_ostep o).2).2) then Some nu_imm else Some (sc 0) end
  end.
Lemma nu_onew o u : hv (nu_h 4) u = None -> is_Some (owner (nu_ostep o).1 u) -> nu_orho o u = None.
Proof. intros Hu [x Hx]. unfold nu_orho. by rewrite Hu, Hx. Qed.
Lemma nu_oleaves o u : hv (nu_h 4) u = None -> owner (nu_ostep o).1 u = None -> is_Some (nu_orho o u).
Proof. intros Hu Hx. unfold nu_orho. rewrite Hu, Hx. case_decide; by eexists. Qed.
Lemma nu_oshared o u : is_shared (nu_ostep o).1 u = true -> owner (nu_ostep o).1 u = None.
Proof. apply shared_check_ok. destruct o; vm_compute; reflexivity. Qed.
Lemma nu_oold o u : is_Some (hv (nu_h 4) u) -> nu_orho o u = nu_rho 4 u.
Proof. intros [x Hx]. unfold nu_orho, nu_rho. by rewrite Hx. Qed.
Lemma nu_oparams o : nu_orho o (ns_params (nu_ostep o).2).1 = Some (sc 0) /\ nu_orho o (ns_params (nu_ostep o).2).2 = Some nu_imm.
Proof.
  assert (H : forall v, hv (nu_h 4) v = None -> owner (nu_ostep o).1 v = None ->
    nu_orho o v = if decide (v = (ns_params (nu_ostep o).2).2) then Some nu_imm else Some (sc 0)).
  { intros v H1 H2. unfold nu_orho. by rewrite H1, H2. }
  split.
  - rewrite H; [|destruct o; vm_compute; reflexivity..].
    destruct (decide _) as [E|]; [|reflexivity]. exfalso. revert E. destruct o; vm_compute; discriminate.
  - rewrite H; [|destruct o; vm_compute; reflexivity..]. by rewrite decide_True.
Qed.
Lemma nu_oresults o : exists wS wU, ns_results (nu_ostep o).2 = if o then [wS; wU] else [wU; wS].
Proof. destruct o; eexists _, _; vm_compute; reflexivity. Qed.

Definition nu_args (v : vid) : list (tensor num) := if decide (v = 11) then [sc 0; sc 4] else [].
Definition nu_y (r1 r2 : R) (v : vid) : tensor num := if decide (v = 9) then sc r1 else sc r2.

Lemma nu_transformed : exists r1 r2, forall K o rv vv, (rv, vv) ∈ nu_ord o ->
  let ev := evals (nuts_base K nu_other) nu_cval (nu_h 4) in
  exists x, ev (nu_orho o) vv x /\ Forall2 (ev (nu_orho o)) (targ_vars aeppl_default (nu_h 4) rv) (nu_args rv) /\
    tforward (get_transform aeppl_default (nu_h 4) rv) x (nu_args rv) = Some (nu_y r1 r2 rv).
Proof.
  set (Hb := or_introl (conj eq_refl eq_refl) : 4 = 4 /\ 4%R = 4%R \/ 4 = 9 /\ 4%R = 10%R).
  destruct (change_of_variables RV_exponential [sc 1] (sc 2)) as (y1 & Hy1 & Hok1 & Hf1 & _); [done|done|by repeat constructor| |].
  { apply (sc_support RV_exponential [1%R] (fun x => 0 < x)%R); [done|done|lra]. }
  destruct (change_of_variables RV_uniform [sc 0; sc 4] (sc 1)) as (y2 & Hy2 & Hok2 & Hf2 & _); [done|done| | |].
  { constructor; [apply sc_fits|]. constructor; [apply sc_fits|constructor]. }
  { apply (sc_support RV_uniform [0; 4]%R (fun x => 0 < x < 4)%R); [done|done|lra]. }
  assert (Hs1 : exists a, y1 = sc a).
  { assert (exists a, y1 = Tensor [] [a]) as [a ->].
    { revert Hy1. cbn -[forward]. change (forward KLog [sc 2]) with (numpy_elemwise (fwd_elem KLog) [sc 2]). rewrite elem1.
      destruct (fwd_elem KLog [Some 2%R]); [|done]. intros [= <-]. by eexists. }
    inversion Hf1 as [|? ? [r ->] _]. by exists r. }
  assert (Hs2 : exists a, y2 = sc a).
  { assert (exists a, y2 = Tensor [] [a]) as [a ->].
    { revert Hy2. cbn -[forward]. change (forward KInterval [sc 1; sc 0; sc 4]) with (numpy_elemwise (fwd_elem KInterval) [sc 1; sc 0; sc 4]). rewrite elem3.
      destruct (fwd_elem KInterval [Some 1%R; Some 0%R; Some 4%R]); [|done]. intros [= <-]. by eexists. }
    inversion Hf2 as [|? ? [r ->] _]. by exists r. }
  destruct Hs1 as [r1 ->], Hs2 as [r2 ->]. exists r1, r2. intros K o rv vv Hin. cbn zeta.
  assert (Hc : rv = 9 /\ vv = 14 \/ rv = 11 /\ vv = 15).
  { destruct o; (apply elem_of_cons in Hin as [[= -> ->]|Hin]; [|apply elem_of_list_singleton in Hin; injection Hin as -> ->]); auto. }
  destruct Hc as [[-> ->]|[-> ->]].
  - rewrite (rv_of_targs (nu_h 4) 9 RV_exponential [3] (nu_rvS 4 4 Hb) eq_refl), (rv_of_transform _ _ _ _ _ (nu_rvS 4 4 Hb)).
    exists (sc 2). split; [by apply ev_given|]. split; [constructor|exact Hy1].
  - rewrite (rv_of_targs (nu_h 4) 11 RV_uniform [5; 4] (nu_rvU 4 4 Hb) eq_refl), (rv_of_transform _ _ _ _ _ (nu_rvU 4 4 Hb)).
    exists (sc 1). split; [by apply ev_given|]. split; [|exact Hy2].
    change (bounds RV_uniform [5; 4]) with [5; 4]. constructor; [by apply (nu_zero 4 4 Hb)|]. constructor; [by apply (nu_four 4 4 Hb)|constructor].
Qed.

Lemma nu_ovals o v : v ∈ dvalues (nu_ord o) ++ dvalues nu_re -> is_Some (hv (nu_h 4) v).
Proof. intros Hv. apply (nu_vals 4 v); [by left|]. destruct o; cbn in *; set_solver. Qed.
Lemma nu_oruns : exists r1 r2, forall K : list (tensor num) -> option (list (tensor num)), (forall q rest, is_Some (K (q :: rest))) -> forall o : bool,
  exists rest out, K (Tensor [2] (if o then [Some r1; Some r2] else [Some r2; Some r1]) :: rest) = Some out /\ rest !! 3 = Some nu_imm /\
    forall i rv vv w Q u V, out !! 0 = Some Q -> nu_ord o !! i = Some (rv, vv) -> ns_results (nu_ostep o).2 !! i = Some w ->
      unravel_param i Q [sc r1; sc r1] = Some u -> tbackward (get_transform aeppl_default (nu_h 4) rv) u (nu_args rv) = Some V ->
      evals (nuts_base K nu_other) nu_cval (nu_ostep o).1 (nu_orho o) w V.
Proof.
  destruct nu_transformed as (r1 & r2 & Ht). exists r1, r2. intros K HK o.
  pose proof (step_eq re_B aeppl_default nu_lp 1 (nu_h 4) (nu_ord o) nu_re (nu_ostep o).1 (nu_ostep o).2 ltac:(apply surjective_pairing) nu_lp_ok
    (nu_good 4 ltac:(by left)) (nu_ovals o)) as Hsg.
  set (kf := fun i : nat => default 0 (dkeys (nu_ord o) !! i)).
  assert (Hkf : forall i rv vv, nu_ord o !! i = Some (rv, vv) -> kf i = rv).
  { intros i rv vv Hi. unfold kf. by rewrite (dkeys_lookup _ _ _ _ Hi). }
  destruct (finite_choice (Z := tensor num) (nu_ord o) (fun i p x => evals (nuts_base K nu_other) nu_cval (nu_h 4) (nu_orho o) p.2 x /\
     Forall2 (evals (nuts_base K nu_other) nu_cval (nu_h 4) (nu_orho o)) (targ_vars aeppl_default (nu_h 4) p.1) (nu_args p.1) /\
     tforward (get_transform aeppl_default (nu_h 4) p.1) x (nu_args p.1) = Some (nu_y r1 r2 p.1))) as [XX HX].
  { intros i [rv vv] Hi. apply (Ht K o rv vv). by eapply elem_of_list_lookup_2. }
  destruct (step_runs K nu_other nu_cval re_B aeppl_default 1 (nu_h 4) (nu_ord o) _ (nu_ostep o).1 (nu_ostep o).2 Hsg (nu_good 4 ltac:(by left))
    (nu_orho o) (nu_onew o) XX (fun i => nu_y r1 r2 (kf i)) (fun i => nu_args (kf i))) as (rest & out & Hout & _ & Hm & Hfin).
  { intros i rv vv Hi. destruct (HX i (rv, vv) Hi) as (H1 & H2 & H3). rewrite (Hkf i rv vv Hi). cbn [fst snd] in *.
    split; [|split; [|split; [exact H1|split; [exact H2|exact H3]]]]; destruct o, i as [|[|i]]; try discriminate; cbn in Hi; injection Hi as <- <-; vm_compute; eauto. }
  { intros a b. exists a, a. reflexivity. }
  { intros u Hu Hsh. apply (nu_oleaves o u Hu), (nu_oshared o u Hsh). }
  { destruct (nu_oparams o) as [-> _]. by eexists. }
  { destruct (nu_oparams o) as [_ ->]. by eexists. }
  { intros v Hv. cbn in Hv. apply elem_of_list_singleton in Hv as ->. exists (sc 0). apply ev_given. reflexivity. }
  { intros rest. apply HK. }
  exists rest, out. split; [|split].
  - destruct o; exact Hout.
  - rewrite (proj2 (nu_oparams o)) in Hm. exact Hm.
  - intros i rv vv w Q u V HQ Hi Hw Hu HV. apply (Hfin i rv vv w Q u V HQ Hi Hw); [|by rewrite (Hkf i rv vv Hi)].
    unfold kf. clear -Hu Hi. destruct o, i as [|[|i]]; [exact Hu|exact Hu|discriminate Hi|exact Hu|exact Hu|discriminate Hi].
Qed.

(** a kernel that moves every component of the position by its entry of the inverse mass
    matrix *)
Definition by_metric (nr : nat) (xs : list (tensor num)) : option (list (tensor num)) :=
  match xs with
  | q :: rest =>
      let m := default (Tensor [] []) (rest !! (2 + nr)) in
      Some (Tensor (t_shape q) (imap (fun i a => nadd a (Some (default 0%R (mjoin (t_data m !! i))))) (t_data q)) :: rest)
  | [] => None
  end.
Lemma by_metric_position nr : returns_position (by_metric nr).
Proof.
  intros q args ys Hok Hf [= <-]. eexists _, _. split; [done|]. split; [unfold tensor_ok; cbn; by rewrite imap_length|].
  split; [|done]. unfold finite. cbn. apply Forall_lookup. intros i x Hx. rewrite list_lookup_imap in Hx.
  destruct (t_data q !! i) as [a|] eqn:Ha; [|done]. injection Hx as <-. destruct (proj1 (Forall_lookup _ _) Hf i a Ha) as [r ->]. by eexists.
Qed.
