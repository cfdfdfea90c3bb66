(** Vectors and matrices as arrays. *)
From Coq Require Import Reals Lra ssrfun ssrbool.
From mathcomp Require Import eqtype choice fintype ssralg zmodp matrix.
From Verif Require M_gauss S_gauss L_linalg_mx.
From Verif Require Export S_linalg.
From Verif Require Import L_array L_code_value L_horseshoe_graph.
Global Open Scope nat_scope.
Delimit Scope ring_scope with Rg.

Lemma at_ord_val n (f : 'I_n -> R) (i : 'I_n) : at_ord f (nat_of_ord i) = f i.
Proof. unfold at_ord. by rewrite valK. Qed.
Lemma ord_of n i : i < n -> exists k : 'I_n, nat_of_ord k = i.
Proof. intros H. assert (H' : ssrnat.leq (S i) n) by (by apply (introT ssrnat.leP)). by exists (Ordinal H'). Qed.
Lemma ord_lt n (k : 'I_n) : nat_of_ord k < n.
Proof. apply (elimT ssrnat.leP). apply ltn_ord. Qed.
Lemma size1 n : size_of [n] = n.
Proof. unfold size_of. cbn. lia. Qed.
Lemma size2 n p : size_of [n; p] = n * p.
Proof. unfold size_of. cbn. lia. Qed.
Lemma varr_mkt n (c : nat -> R) (v : 'cV[R]_n) : (forall i : 'I_n, c i = v i 0%Rg) -> mkt [n] c = varr v.
Proof.
  intros H. apply mkt_ext. intros j Hj. rewrite size1 in Hj. destruct (ord_of n j Hj) as [k <-]. by rewrite at_ord_val, H.
Qed.
Lemma split_index n p k : k < n * p -> k / p < n /\ k mod p < p.
Proof. intros H. assert (p <> 0) by lia. split; [apply Nat.div_lt_upper_bound; lia|by apply Nat.mod_upper_bound]. Qed.
Lemma marr_mkt n p (c : nat -> R) (A : 'M[R]_(n, p)) : (forall (i : 'I_n) (j : 'I_p), c (i * p + j) = A i j) -> mkt [n; p] c = marr A.
Proof.
  intros H. apply mkt_ext. intros k Hk. rewrite size2 in Hk. destruct (split_index n p k Hk) as [H1 H2].
  destruct (ord_of n _ H1) as [i Hi]. destruct (ord_of p _ H2) as [j Hj]. rewrite <- Hi, <- Hj, !at_ord_val, <- H. f_equal. rewrite Hi, Hj.
  pose proof (Nat.div_mod k p). nia.
Qed.

Lemma build_mkt (s : list nat) (f : list nat -> option R) c :
  (forall idx, in_range s idx -> f idx = Some (c (ravel s idx))) -> build s f = Some (mkt s c).
Proof.
  intros Hf. unfold build.
  assert (Hm : forall l, (forall idx, idx ∈ l -> in_range s idx) -> mapM f l = Some ((fun idx => c (ravel s idx)) <$> l)).
  { induction l as [|idx l IH]; intros Hl; [done|].
    change (mapM f (idx :: l)) with (z ← f idx; k ← mapM f l; Some (z :: k)).
    rewrite (Hf idx (Hl idx (elem_of_list_here _ _))). cbn [mbind option_bind]. rewrite IH; [done|].
    intros i Hi. apply Hl. by right. }
  rewrite Hm; [|intros idx Hi; by apply elem_of_indices]. cbn [mbind option_bind]. unfold mkt. do 2 f_equal.
  by rewrite <- (ravel_seq s), <- list_fmap_compose.
Qed.
Lemma in_range2 n p idx : in_range [n; p] idx -> exists i j, idx = [i; j] /\ i < n /\ j < p.
Proof.
  intros H. apply Forall2_cons_inv_l in H as (i & l & Hi & H & ->). apply Forall2_cons_inv_l in H as (j & l' & Hj & H & ->).
  apply Forall2_nil_inv_l in H as ->. eauto.
Qed.
Lemma in_range1 n idx : in_range [n] idx -> exists i, idx = [i] /\ i < n.
Proof.
  intros H. apply Forall2_cons_inv_l in H as (i & l & Hi & H & ->). apply Forall2_nil_inv_l in H as ->. eauto.
Qed.
Lemma ravel2 n p i j : ravel [n; p] [i; j] = i * p + j.
Proof. cbn. lia. Qed.
Lemma ravel1 n i : ravel [n] [i] = i.
Proof. cbn. lia. Qed.
Lemma row_of p i j : j < p -> (i * p + j) / p = i.
Proof. intros H. rewrite Nat.add_comm, Nat.div_add, Nat.div_small; lia. Qed.
Lemma col_of p i j : j < p -> (i * p + j) mod p = j.
Proof. intros H. rewrite Nat.add_comm, Nat.mod_add, Nat.mod_small; lia. Qed.
Definition mf n p (A : 'M[R]_(n, p)) (k : nat) : R := at_ord (fun i => at_ord (fun j => A i j) (k mod p)) (k / p).
Definition vf n (v : 'cV[R]_n) (k : nat) : R := at_ord (fun i => v i 0%Rg) k.
Arguments mf {n p} A k. Arguments vf {n} v k.
Lemma mf_at n p (A : 'M[R]_(n, p)) (i : 'I_n) (j : 'I_p) : mf A (i * p + j) = A i j.
Proof. unfold mf. rewrite row_of; [|apply ord_lt]. rewrite col_of; [|apply ord_lt]. by rewrite !at_ord_val. Qed.
Lemma vf_at n (v : 'cV[R]_n) (i : 'I_n) : vf v i = v i 0%Rg.
Proof. apply at_ord_val. Qed.

Lemma transpose_marr n p (A : 'M[R]_(n, p)) : dimshuffle [Some 1; Some 0] (marr A) = Some (marr (trmx A)).
Proof.
  unfold dimshuffle, marr. cbn [t_shape mkt].
  assert (dimshuffle_ok [Some 1; Some 0] [n; p] = true) as -> by reflexivity.
  rewrite (build_mkt _ _ (fun k => mf A ((k mod n) * p + k / n))).
  - f_equal. change (shuffled_shape [Some 1; Some 0] [n; p]) with [p; n]. apply marr_mkt. intros i j.
    rewrite col_of; [|apply ord_lt]. rewrite row_of; [|apply ord_lt]. rewrite mf_at. unfold trmx; by rewrite mxE.
  - change (shuffled_shape [Some 1; Some 0] [n; p]) with [p; n]. intros idx (i & j & -> & Hi & Hj)%in_range2.
    change (source_index [Some 1; Some 0] (length [n; p]) [i; j]) with [j; i].
    change (Tensor [n; p] _) with (mkt [n; p] (mf A)). rewrite mkt_at; [|by repeat constructor]. rewrite !ravel2. rewrite (row_of n i j Hj), (col_of n i j Hj). reflexivity.
Qed.
Lemma column_mkt n f : dimshuffle [Some 0; None] (mkt [n] f) = Some (mkt [n; 1] f).
Proof.
  unfold dimshuffle. cbn [t_shape mkt].
  assert (dimshuffle_ok [Some 0; None] [n] = true) as -> by reflexivity.
  apply build_mkt. change (shuffled_shape [Some 0; None] [n]) with [n; 1]. intros idx (i & j & -> & Hi & Hj)%in_range2.
  change (source_index [Some 0; None] (length [n]) [i; j]) with [i].
  change (Tensor [n] _) with (mkt [n] f). rewrite mkt_at; [|by repeat constructor]. rewrite ravel1, ravel2. f_equal. f_equal. lia.
Qed.
Lemma components_column n p f : components [n; p] (mkt [n; 1] f) (fun k => f (k / p)).
Proof.
  split.
  - split; [apply mkt_ok|]. unfold rank. cbn [t_shape mkt length]. split; [done|]. cbn. apply Forall2_cons_2; [by right|]. apply Forall2_cons_2; [by left|apply Forall2_nil_2].
  - intros idx (i & j & -> & Hi & Hj)%in_range2. unfold bget, rank. cbn [t_shape mkt length Nat.sub drop].
    assert (clip [n; 1] [i; j] = [i; 0]) as -> by (cbn; case_decide; [f_equal; lia|done]).
    change (Tensor [n; 1] _) with (mkt [n; 1] f). rewrite mkt_at; [|by repeat constructor]. rewrite !ravel2, row_of; [|done]. do 2 f_equal. lia.
Qed.

Section den.
  Context (B : builder) (HB : builder_ok B).
  Context (scalar : nat -> list R -> option R) (other : op -> list (tensor R) -> option (list (tensor R))) (cval : nat -> tensor R).
  Context (cholesky : forall n, 'M[R]_n -> 'M[R]_n).
  Context (HC : constants_ok B cval) (HA : arithmetic_ok scalar) (HF : sums_ok other) (HL : linalg_ok cholesky other).
  Notation dn := (den B scalar other cval).

  Lemma den_v1 vals n e (a c : 'cV[R]_n) g : dn vals e = Some (varr a) -> (forall i, scalar g [a i 0%Rg] = Some (c i 0%Rg)) ->
    dn vals (M_code.E1 g e) = Some (varr c).
  Proof using Type.
    intros He Hc. apply (den_1 _ _ _ _ _ [n] _ (vf a) _ (vf c)); [exact He|]. intros j Hj. rewrite size1 in Hj. destruct (ord_of n j Hj) as [k <-].
    by rewrite !vf_at.
  Qed.
  Lemma den_vv vals n e1 e2 (a b c : 'cV[R]_n) g : dn vals e1 = Some (varr a) -> dn vals e2 = Some (varr b) ->
    (forall i, scalar g [a i 0%Rg; b i 0%Rg] = Some (c i 0%Rg)) -> dn vals (E2 g e1 e2) = Some (varr c).
  Proof using Type.
    intros H1 H2 Hc. apply (den_ff _ _ _ _ _ [n] _ _ (vf a) (vf b) _ (vf c)); [exact H1|exact H2|]. intros j Hj. rewrite size1 in Hj.
    destruct (ord_of n j Hj) as [k <-]. by rewrite !vf_at.
  Qed.
  Lemma den_vo vals n k e1 e2 (a c : 'cV[R]_n) b g : k <= 1 -> dn vals e1 = Some (varr a) -> dn vals e2 = Some (mkt (ones k) (fun _ => b)) ->
    (forall i, scalar g [a i 0%Rg; b] = Some (c i 0%Rg)) -> dn vals (E2 g e1 e2) = Some (varr c).
  Proof using Type.
    intros Hk H1 H2 Hc. apply (den_fo _ _ _ _ _ [n] k _ _ (vf a) b _ (vf c)); [exact Hk|exact H1|exact H2|]. intros j Hj. rewrite size1 in Hj.
    destruct (ord_of n j Hj) as [i <-]. by rewrite !vf_at.
  Qed.
  Lemma den_ov vals n k e1 e2 (b c : 'cV[R]_n) a g : k <= 1 -> dn vals e1 = Some (mkt (ones k) (fun _ => a)) -> dn vals e2 = Some (varr b) ->
    (forall i, scalar g [a; b i 0%Rg] = Some (c i 0%Rg)) -> dn vals (E2 g e1 e2) = Some (varr c).
  Proof using Type.
    intros Hk H1 H2 Hc. apply (den_of _ _ _ _ _ [n] k _ _ a (vf b) _ (vf c)); [exact Hk|exact H1|exact H2|]. intros j Hj. rewrite size1 in Hj.
    destruct (ord_of n j Hj) as [i <-]. by rewrite !vf_at.
  Qed.
  Lemma den_oo vals e1 e2 a b c g : dn vals e1 = Some (number a) -> dn vals e2 = Some (number b) -> scalar g [a; b] = Some c ->
    dn vals (E2 g e1 e2) = Some (number c).
  Proof using Type.
    intros H1 H2 Hc. apply (den_ff _ _ _ _ _ [] _ _ (fun _ => a) (fun _ => b) _ (fun _ => c)); [exact H1|exact H2|]. by intros j Hj.
  Qed.
  (** [a[:, None] * X] *)
  Lemma den_scale vals n p e1 e2 (a : 'cV[R]_n) (X : 'M[R]_(n, p)) : dn vals e1 = Some (varr a) -> dn vals e2 = Some (marr X) ->
    dn vals (E2 E_mul (as_column e1) e2) = Some (marr (M_gauss.scale_rows a X)).
  Proof using HA.
    intros H1 H2. cbn [den as_column]. rewrite H1, H2. cbn [mbind option_bind]. change (dimshuffle _ (varr a)) with (dimshuffle [Some 0; None] (mkt [n] (vf a))).
    rewrite column_mkt. cbn [mbind option_bind].
    rewrite (elem_components _ [n; p] _ [(fun k => vf a (k / p)); mf X] (fun k => vf a (k / p) * mf X k)%R).
    - f_equal. apply marr_mkt. intros i j. rewrite row_of by apply ord_lt. rewrite vf_at, mf_at. unfold M_gauss.scale_rows. by rewrite mxE.
    - apply Forall2_cons_2; [apply components_column|]. apply Forall2_cons_2; [apply components_mkt|apply Forall2_nil_2].
    - exists (marr X). split; [right; by left|done].
    - intros j Hj. cbn. apply (ar_mul scalar HA).
  Qed.
  Lemma den_tr vals n p e (X : 'M[R]_(n, p)) : dn vals e = Some (marr X) -> dn vals (transpose e) = Some (marr (trmx X)).
  Proof using Type. intros H. cbn [den transpose]. rewrite H. cbn [mbind option_bind]. apply transpose_marr. Qed.
  Lemma den_dot_mm vals n m p e1 e2 (X : 'M[R]_(n, m)) (Y : 'M[R]_(m, p)) : dn vals e1 = Some (marr X) -> dn vals e2 = Some (marr Y) ->
    dn vals (EDot e1 e2) = Some (marr (mulmx X Y)).
  Proof using HL. intros H1 H2. cbn [den]. rewrite H1, H2. cbn [mbind option_bind]. by rewrite (la_dot_mm HL). Qed.
  Lemma den_dot_mv vals n m e1 e2 (X : 'M[R]_(n, m)) (y : 'cV[R]_m) : dn vals e1 = Some (marr X) -> dn vals e2 = Some (varr y) ->
    dn vals (EDot e1 e2) = Some (varr (mulmx X y)).
  Proof using HL. intros H1 H2. cbn [den]. rewrite H1, H2. cbn [mbind option_bind]. by rewrite (la_dot_mv HL). Qed.
  Lemma den_f2 vals k e1 e2 x y z : dn vals e1 = Some x -> dn vals e2 = Some y -> other (fun_op k) [x; y] = Some [z] -> dn vals (F2 k e1 e2) = Some z.
  Proof using Type. intros H1 H2 Hz. cbn [den]. rewrite H1, H2. cbn [mbind option_bind]. by rewrite Hz. Qed.
  Lemma den_f3 vals k e1 e2 e3 x y w z : dn vals e1 = Some x -> dn vals e2 = Some y -> dn vals e3 = Some w ->
    other (fun_op k) [x; y; w] = Some [z] -> dn vals (F3 k e1 e2 e3) = Some z.
  Proof using Type. intros H1 H2 H3 Hz. cbn [den]. rewrite H1, H2, H3. cbn [mbind option_bind]. by rewrite Hz. Qed.
  Lemma den_rows_v vals n e (a : 'cV[R]_n) : dn vals e = Some (varr a) -> dn vals (F1 F_rows e) = Some (number (INR n)).
  Proof using HF. intros H. eapply den_f1; [exact H|]. by apply (fn_rows other HF _ n []). Qed.
  Lemma den_rows_m vals n p e (A : 'M[R]_(n, p)) : dn vals e = Some (marr A) -> dn vals (F1 F_rows e) = Some (number (INR n)).
  Proof using HF. intros H. eapply den_f1; [exact H|]. by apply (fn_rows other HF _ n [p]). Qed.
  (** [set_subtensor(Q[arange, arange], diag(Q) + d)] *)
  Lemma den_add_diag vals n eQ ei ed (Q : 'M[R]_n) (d : 'cV[R]_n) : dn vals eQ = Some (marr Q) -> dn vals ei = Some (mkt [n] INR) ->
    dn vals ed = Some (varr d) ->
    dn vals (F3 F_set_diag eQ ei (E2 E_add (F1 F_diag eQ) ed)) = Some (marr (M_gauss.add_to_diag Q d)).
  Proof using HA HL.
    intros H1 H2 H3. pose (c := (\col_i (Q i i + d i 0%Rg)%R)%Rg : 'cV[R]_n).
    rewrite <- (L_linalg_mx.set_diagE (c := c)); [|intros i; unfold c; by rewrite mxE].
    eapply den_f3; [exact H1|exact H2| |apply (la_set_diag HL)].
    eapply (den_vv _ n); [eapply den_f1; [exact H1|apply (la_diag HL)]|exact H3|].
    intros i. unfold c. rewrite !mxE. apply (ar_add scalar HA).
  Qed.
End den.
