(** The inner graphs of the regression kernels. *)
From Coq Require Import Reals Lra ssrfun ssrbool.
From mathcomp Require Import eqtype choice fintype ssralg zmodp matrix.
From Verif Require M_gauss S_gauss L_linalg_mx M_regression.
From Verif Require Export L_linalg.
From Verif Require Import L_array L_code_value L_horseshoe_graph.
Import L_linalg_mx.
Global Open Scope nat_scope.

Lemma lk_old {A} (vals l : list A) i x : vals !! i = Some x -> (vals ++ l) !! i = Some x.
Proof. apply lookup_app_l_Some. Qed.
Lemma lk_new {A} (vals l : list A) N k x : N = length vals -> l !! k = Some x -> (vals ++ l) !! (N + k) = Some x.
Proof. intros -> H. rewrite lookup_app_r by lia. by replace (length vals + k - length vals) with k by lia. Qed.
Lemma lk_new0 {A} (vals l : list A) N x : N = length vals -> l !! 0 = Some x -> (vals ++ l) !! N = Some x.
Proof. intros HN H. rewrite <- (Nat.add_0_r N). by apply lk_new. Qed.
Lemma drawn_varr d m z : drawn d [m] z -> z = varr (unvec m z).
Proof.
  intros H. etransitivity; [by eapply drawn_mkt|]. apply varr_mkt. intros i. unfold unvec. by rewrite col_at.
Qed.

Section kernels.
  Context (B : builder) (HB : builder_ok B).
  Context (scalar : nat -> list R -> option R) (other : op -> list (tensor R) -> option (list (tensor R))) (cval : nat -> tensor R).
  Context (cholesky : forall n, 'M[R]_n -> 'M[R]_n).
  Context (HC : constants_ok B cval) (HA : arithmetic_ok scalar) (HF : sums_ok other) (HL : linalg_ok cholesky other).
  Notation dn := (den B scalar other cval).
  Notation rn := (runs B scalar other cval).

  Lemma runs_let vals l e t cs outs p : dn (vals ++ l) e = Some t -> rn (vals ++ (l ++ [t])) cs outs p -> rn (vals ++ l) (CLet e :: cs) outs p.
  Proof using Type. intros He Hr. cbn [runs]. exists t. split; [exact He|]. by rewrite <- app_assoc. Qed.
  Lemma runs_normal vals l e m cs outs k : dn (vals ++ l) e = Some (number (INR m)) ->
    (forall z, drawn RV_standard_normal [m] z -> rn (vals ++ (l ++ [z])) cs outs (k z)) ->
    rn (vals ++ l) (draw_standard_normal e :: cs) outs (TDraw RV_standard_normal [number 0; number 1] [m] k).
  Proof using HC HF.
    intros He Hr. unfold draw_standard_normal. cbn [runs]. exists [number 0; number 1], [m], [m], k. split; [done|]. split; [|split; [|split]].
    - cbn [mapM]. by rewrite !(den_float B scalar other cval HC).
    - cbn [den_size]. split; [done|]. exists m. split; [done|]. eapply den_f1; [exact He|]. apply (fn_vector1 other HF).
    - unfold draw_shape. rewrite decide_False by done. split; [done|]. repeat (apply Forall_cons; split; [apply fits_shape_nil|]). apply Forall_nil. done.
    - intros v Hv. rewrite <- app_assoc. by apply Hr.
  Qed.

  Lemma cong_runs vals N n p iA iO iphi it (A : 'cV[R]_p) (om : 'cV[R]_n) (phi : 'M[R]_(n, p)) (t : 'cV[R]_n) rest outs k :
    N = length vals -> vals !! iA = Some (varr A) -> vals !! iO = Some (varr om) -> vals !! iphi = Some (marr phi) -> vals !! it = Some (varr t) ->
    (forall i, Rlt 0 (A i 0%Rg)) -> (forall i, Rlt 0 (om i 0%Rg)) ->
    (forall z l, drawn RV_standard_normal [p + n] z -> length l = 11 ->
       l !! 10 = Some (varr (M_gauss.multivariate_normal_cong2017 R_sqrt.sqrt A om phi t (unvec (p + n) z))) -> rn (vals ++ l) rest outs (k z)) ->
    rn vals (cong2017_code N (EV iA) (EV iO) (EV iphi) (EV it) ++ rest) outs (TDraw RV_standard_normal [number 0; number 1] [p + n] k).
  Proof using HC HA HF HL.
    intros HN EA EO Ephi Et PA PO Hk. unfold cong2017_code. cbn [app].
    assert (SB := cong_spd phi (pos_vec PA) (pos_vec PO)).
    set (Ai := M_gauss.vmap (F:=R_realFieldType) (fun a : ssrnum.Num.RealField.sort R_realFieldType => (1 / a)%Rg) A). set (Oi := M_gauss.vmap (F:=R_realFieldType) (fun a : ssrnum.Num.RealField.sort R_realFieldType => (1 / a)%Rg) om).
    set (Aphi := M_gauss.scale_rows Ai (trmx phi)). set (B0 := mulmx phi Aphi). set (B1 := M_gauss.add_to_diag B0 Oi).
    fold Ai Aphi B0 Oi B1 in SB.
    rewrite <- (app_nil_r vals).
    apply (runs_let _ _ _ (varr Ai)).
    { eapply (den_ov B scalar other cval _ p 0); [lia|apply (den_int B scalar other cval HC)|apply lk_old, EA|].
      intros i. unfold Ai. rewrite vmap_at. specialize (PA i). rewrite div1_at by lra. rewrite (ar_div scalar HA) by lra. done. }
    apply (runs_let _ _ _ (number (INR p))).
    { eapply (den_rows_v B scalar other cval HF _ p). apply lk_old, EA. }
    cbn [app].
    apply (runs_normal _ _ _ (p + n)).
    { rewrite plus_INR. eapply (den_oo B scalar other cval); [apply lk_new; [done|reflexivity]|eapply (den_rows_v B scalar other cval HF _ n); apply lk_old, EO|].
      apply (ar_add scalar HA). }
    intros z Hz. specialize (Hk z). generalize dependent (k z). intros kz Hk. specialize (fun l => Hk l Hz). rewrite (drawn_varr _ _ _ Hz). set (zv := unvec (p + n) z) in *. cbn [app].
    set (y1 := M_gauss.vmul (M_gauss.vmap R_sqrt.sqrt Ai) (usubmx zv)).
    set (y2 := M_gauss.vmul (M_gauss.vmap (fun w : ssrnum.Num.RealField.sort R_realFieldType => (1 / R_sqrt.sqrt w)%Rg) om) (dsubmx zv)).
    apply (runs_let _ _ _ (varr y1)).
    { eapply (den_vv B scalar other cval _ p).
      - eapply (den_v1 B scalar other cval _ p _ _ (M_gauss.vmap R_sqrt.sqrt Ai)); [apply lk_new0; [done|reflexivity]|]. intros i. rewrite vmap_at.
        apply (ar_sqrt scalar HA). unfold Ai. rewrite vmap_at. specialize (PA i). rewrite div1_at by lra. left. unfold Rdiv. rewrite Rmult_1_l. by apply Rinv_0_lt_compat.
      - eapply (den_f2 B scalar other cval); [apply lk_new; [done|reflexivity]|apply lk_new; [done|reflexivity]|]. apply (la_take HL).
      - intros i. unfold y1. rewrite vmul_at. apply (ar_mul scalar HA). }
    apply (runs_let _ _ _ (varr y2)).
    { eapply (den_vv B scalar other cval _ n).
      - eapply (den_ov B scalar other cval _ n 0 _ _ _ (M_gauss.vmap (fun w : ssrnum.Num.RealField.sort R_realFieldType => (1 / R_sqrt.sqrt w)%Rg) om)); [lia|apply (den_int B scalar other cval HC)| |].
        + eapply (den_v1 B scalar other cval _ n _ _ (M_gauss.vmap R_sqrt.sqrt om)); [apply lk_old, EO|]. intros i. rewrite vmap_at.
          apply (ar_sqrt scalar HA). specialize (PO i). lra.
        + intros i. rewrite !vmap_at. specialize (PO i). apply sqrt_lt_R0 in PO. rewrite div1_at by lra. rewrite (ar_div scalar HA) by lra. done.
      - eapply (den_f2 B scalar other cval); [apply lk_new; [done|reflexivity]|apply lk_new; [done|reflexivity]|]. apply (la_drop HL).
      - intros i. unfold y2. rewrite vmul_at. apply (ar_mul scalar HA). }
    apply (runs_let _ _ _ (marr Aphi)).
    { apply (den_scale B scalar other cval HA); [apply lk_new0; [done|reflexivity]|]. apply den_tr. apply lk_old, Ephi. }
    apply (runs_let _ _ _ (marr B0)).
    { apply (den_dot_mm B scalar other cval cholesky HL); [apply lk_old, Ephi|apply lk_new; [done|reflexivity]]. }
    apply (runs_let _ _ _ (mkt [n] INR)).
    { eapply den_f1; [eapply (den_rows_m B scalar other cval HF _ n n); apply lk_new; [done|reflexivity]|]. apply (la_arange HL). }
    apply (runs_let _ _ _ (marr B1)).
    { apply (den_add_diag B scalar other cval cholesky HA HL); [apply lk_new; [done|reflexivity]|apply lk_new; [done|reflexivity]|].
      eapply (den_ov B scalar other cval _ n 0); [lia|apply (den_float B scalar other cval HC)|apply lk_old, EO|].
      intros i. unfold Oi. rewrite vmap_at. specialize (PO i). rewrite div1_at by lra. rewrite (ar_div scalar HA) by lra. done. }
    set (b := (t - phi *m y1 - y2)%Rg). set (alpha := M_gauss.solve B1 b).
    apply (runs_let _ _ _ (varr alpha)).
    { eapply (den_f2 B scalar other cval); [apply lk_new; [done|reflexivity]| |].
      - eapply (den_vv B scalar other cval _ n _ _ _ _ (b)).
        + eapply (den_vv B scalar other cval _ n _ _ _ _ (t - phi *m y1)%Rg); [apply lk_old, Et|apply (den_dot_mv B scalar other cval cholesky HL); [apply lk_old, Ephi|apply lk_new; [done|reflexivity]]|].
          intros i. rewrite sub_at. apply (ar_sub scalar HA).
        + apply lk_new; [done|reflexivity].
        + intros i. etransitivity; [apply (ar_sub scalar HA)|]. f_equal. symmetry. exact (sub_at (t - phi *m y1)%Rg y2 i).
      - rewrite <- (solve_eq b SB). fold alpha. apply (la_solve HL). exact SB. }
    apply (runs_let _ _ _ (varr (y1 + Aphi *m alpha)%Rg)).
    { eapply (den_vv B scalar other cval _ p); [apply lk_new; [done|reflexivity]|apply (den_dot_mv B scalar other cval cholesky HL); [apply lk_new; [done|reflexivity]|apply lk_new; [done|reflexivity]]|].
      intros i. rewrite add_at. apply (ar_add scalar HA). }
    cbn [app]. apply Hk; reflexivity.
  Qed.

  Lemma rue_runs vals l N n ib iQ (b : 'cV[R]_n) (Q : 'M[R]_n) rest outs k :
    N = length (vals ++ l) -> (vals ++ l) !! ib = Some (varr b) -> (vals ++ l) !! iQ = Some (marr Q) -> S_gauss.spd Q ->
    (forall z l', drawn RV_standard_normal [n] z -> length l' = 6 ->
       l' !! 5 = Some (varr (M_gauss.multivariate_normal_rue2005 cholesky b Q (unvec n z))) -> rn (vals ++ (l ++ l')) rest outs (k z)) ->
    rn (vals ++ l) (rue2005_code N (EV ib) (EV iQ) ++ rest) outs (TDraw RV_standard_normal [number 0; number 1] [n] k).
  Proof using HC HA HF HL.
    intros HN Eb EQ SQ Hk. assert (Hk' : forall z l', drawn RV_standard_normal [n] z -> length l' = 6 ->
       l' !! 5 = Some (varr (M_gauss.multivariate_normal_rue2005 cholesky b Q (unvec n z))) -> rn ((vals ++ l) ++ l') rest outs (k z)).
    { intros z l' H1 H2 H3. rewrite <- app_assoc. by apply Hk. }
    clear Hk. revert HN Eb EQ Hk'. generalize (vals ++ l). clear vals l. intros vals HN Eb EQ Hk.
    unfold rue2005_code. cbn [app].
    destruct (la_cholesky HL SQ) as [HLf HLv]. set (L := cholesky n Q) in *.
    set (w := M_gauss.solve_triangular L b true). set (u := M_gauss.solve_triangular (trmx L) w false).
    destruct (lower_solve b SQ HLf) as [U1 E1]. fold w in E1. destruct (upper_solve w SQ HLf) as [U2 E2]. fold u in E2.
    rewrite <- (app_nil_r vals).
    apply (runs_let _ _ _ (marr L)).
    { eapply den_f1; [apply lk_old, EQ|exact HLv]. }
    apply (runs_let _ _ _ (varr w)).
    { eapply (den_f2 B scalar other cval); [apply lk_new0; [done|reflexivity]|apply lk_old, Eb|]. rewrite <- E1. apply (la_solve_lower HL). exact U1. }
    apply (runs_let _ _ _ (varr u)).
    { eapply (den_f2 B scalar other cval); [apply den_tr; apply lk_new0; [done|reflexivity]|apply lk_new; [done|reflexivity]|]. rewrite <- E2. apply (la_solve_upper HL). exact U2. }
    cbn [app].
    apply (runs_normal _ _ _ n).
    { eapply (den_rows_m B scalar other cval HF _ n n). apply lk_new0; [done|reflexivity]. }
    intros z Hz. specialize (Hk z). generalize dependent (k z). intros kz Hk. specialize (fun l => Hk l Hz). rewrite (drawn_varr _ _ _ Hz). set (zv := unvec n z) in *. cbn [app].
    set (v := M_gauss.solve_triangular (trmx L) zv false).
    destruct (upper_solve zv SQ HLf) as [U3 E3]. fold v in E3.
    apply (runs_let _ _ _ (varr v)).
    { eapply (den_f2 B scalar other cval); [apply den_tr; apply lk_new0; [done|reflexivity]|apply lk_new; [done|reflexivity]|]. rewrite <- E3. apply (la_solve_upper HL). exact U3. }
    apply (runs_let _ _ _ (varr (u + v)%Rg)).
    { eapply (den_vv B scalar other cval _ n); [apply lk_new; [done|reflexivity]|apply lk_new; [done|reflexivity]|].
      intros i. rewrite add_at. apply (ar_add scalar HA). }
    cbn [app]. apply Hk; reflexivity.
  Qed.

  Lemma over_runs vals N n p iO iA iX iz (om : 'cV[R]_n) (A : 'cV[R]_p) (X : 'M[R]_(n, p)) (t : 'cV[R]_n) rest outs k :
    N = length vals -> vals !! iO = Some (varr om) -> vals !! iA = Some (varr A) -> vals !! iX = Some (marr X) -> vals !! iz = Some (varr t) ->
    (forall i, Rlt 0 (A i 0%Rg)) -> (forall i, Rlt 0 (om i 0%Rg)) ->
    (forall z l, drawn RV_standard_normal [p] z -> length l = 10 ->
       l !! 9 = Some (varr (M_gauss.normal_regression_overdetermined_posterior cholesky om A X t (unvec p z))) -> rn (vals ++ l) rest outs (k z)) ->
    rn vals (overdetermined_code N (EV iO) (EV iA) (EV iX) (EV iz) ++ rest) outs (TDraw RV_standard_normal [number 0; number 1] [p] k).
  Proof using HC HA HF HL.
    intros HN EO EA EX Et PA PO Hk. unfold overdetermined_code. rewrite <- app_assoc. cbn [app].
    assert (SQ := over_spd X (pos_vec PA) (pos_vec PO)).
    set (Q0 := mulmx (trmx X) (M_gauss.scale_rows om X)). set (Q := M_gauss.add_to_diag Q0 A). fold Q0 Q in SQ.
    set (b := mulmx (trmx X) (M_gauss.vmul om t)).
    rewrite <- (app_nil_r vals).
    apply (runs_let _ _ _ (marr Q0)).
    { apply (den_dot_mm B scalar other cval cholesky HL); [apply den_tr; apply lk_old, EX|].
      apply (den_scale B scalar other cval HA); apply lk_old; [exact EO|exact EX]. }
    apply (runs_let _ _ _ (mkt [p] INR)).
    { eapply den_f1; [eapply den_f1; [apply lk_new0; [done|reflexivity]|apply (la_cols HL)]|]. apply (la_arange HL). }
    apply (runs_let _ _ _ (marr Q)).
    { apply (den_add_diag B scalar other cval cholesky HA HL); [apply lk_new0; [done|reflexivity]|apply lk_new; [done|reflexivity]|].
      apply lk_old, EA. }
    apply (runs_let _ _ _ (varr b)).
    { apply (den_dot_mv B scalar other cval cholesky HL); [apply den_tr; apply lk_old, EX|].
      eapply (den_vv B scalar other cval _ n); [apply lk_old, EO|apply lk_old, Et|]. intros i. rewrite vmul_at. apply (ar_mul scalar HA). }
    cbn [app].
    apply (rue_runs vals _ _ p _ _ b Q).
    - rewrite app_length. cbn [length]. lia.
    - apply lk_new; [done|reflexivity].
    - apply lk_new; [done|reflexivity].
    - exact SQ.
    - intros z l' Hz Hl E. apply Hk; [exact Hz|rewrite app_length, Hl; reflexivity|].
      rewrite lookup_app_r by (cbn [length]; lia). exact E.
  Qed.

  Lemma regression_runs vals N n p iO iA iX iz (om : 'cV[R]_n) (A : 'cV[R]_p) (X : 'M[R]_(n, p)) (t : 'cV[R]_n) outs k :
    N = length vals -> vals !! iO = Some (varr om) -> vals !! iA = Some (varr A) -> vals !! iX = Some (marr X) -> vals !! iz = Some (varr t) ->
    (forall i, Rlt 0 (A i 0%Rg)) -> (forall i, Rlt 0 (om i 0%Rg)) ->
    (forall z1 z2 l, drawn RV_standard_normal [p + n] z1 -> drawn RV_standard_normal [p] z2 -> length l = 23 ->
       l !! 22 = Some (varr (M_gauss.normal_regression_posterior R_sqrt.sqrt cholesky om A X t (unvec (p + n) z1) (unvec p z2))) -> rn (vals ++ l) [] outs (k z1 z2)) ->
    rn vals (regression_code N (EV iO) (EV iA) (EV iX) (EV iz)) outs
      (TDraw RV_standard_normal [number 0; number 1] [p + n] (fun z1 => TDraw RV_standard_normal [number 0; number 1] [p] (k z1))).
  Proof using HC HA HF HL.
    intros HN EO EA EX Et PA PO Hk. unfold regression_code. rewrite <- (app_nil_r vals).
    set (c := ssrnat.leq (S n) p).
    apply (runs_let _ _ _ (number (if c then 1 else 0)%R)).
    { eapply (den_oo B scalar other cval _ _ _ (INR p) (INR n)).
      - eapply den_f1; [apply lk_old, EX|apply (la_cols HL)].
      - eapply (den_rows_m B scalar other cval HF _ n p). apply lk_old, EX.
      - rewrite (ar_gt scalar HA). unfold c. rewrite (ltn_lt n p). by destruct (Rlt_dec (INR n) (INR p)). }
    cbn [app].
    apply (cong_runs _ _ n p _ _ _ _ A om X t); [rewrite app_length; cbn [length]; lia|apply lk_old, EA|apply lk_old, EO|apply lk_old, EX|apply lk_old, Et|exact PA|exact PO|].
    intros z1 l1 Hz1 Hl1 E1. rewrite <- app_assoc.
    apply (over_runs _ _ n p _ _ _ _ om A X t); [rewrite !app_length, Hl1; cbn [length]; lia|apply lk_old, EO|apply lk_old, EA|apply lk_old, EX|apply lk_old, Et|exact PA|exact PO|].
    intros z2 l2 Hz2 Hl2 E2. rewrite <- app_assoc.
    apply (runs_let _ _ _ (varr (M_gauss.normal_regression_posterior R_sqrt.sqrt cholesky om A X t (unvec (p + n) z1) (unvec p z2)))).
    { eapply (den_f3 B scalar other cval).
      - apply lk_new0; [done|reflexivity].
      - apply lk_new; [done|]. rewrite <- app_assoc. cbn [app]. change 11 with (S 10). cbn [lookup list_lookup]. by apply lookup_app_l_Some.
      - apply lk_new; [done|]. rewrite lookup_app_r by (rewrite app_length, Hl1; cbn [length]; lia). rewrite app_length, Hl1. exact E2.
      - rewrite (la_ifelse HL) by reflexivity. unfold M_gauss.normal_regression_posterior. fold c. unfold M_gauss.normal_regression_underdetermined_posterior. by destruct c. }
    apply Hk; [exact Hz1|exact Hz2|rewrite !app_length, Hl1, Hl2; reflexivity|].
    rewrite lookup_app_r by (rewrite !app_length, Hl1, Hl2; cbn [length]; lia). by rewrite !app_length, Hl1, Hl2.
  Qed.

  Lemma drawn_vpos d n w : positive_dist d -> drawn d [n] w -> forall i, Rlt 0 (unvec n w i 0%Rg).
  Proof using Type. intros Hp Hw i. unfold unvec. rewrite col_at. eapply drawn_pos; [exact Hp|exact Hw|]. rewrite size1. apply ord_lt. Qed.

  Lemma nbinom_runs n p k (beta sd : 'cV[R]_p) (X : 'M[R]_(n, p)) (hh : R) (y : 'I_n -> nat) : k <= 1 ->
    (forall j, Rlt 0 (sd j 0%Rg)) ->
    rn [varr beta; varr sd; marr X; mkt (ones k) (fun _ => hh); varr (\col_i INR (y i))%Rg] nbinom_code nbinom_outs
      (TDraw RV_polyagamma [varr (\col_i (INR (y i) + hh)%R)%Rg; varr (X *m beta)%Rg] [n] (fun w =>
       TDraw RV_standard_normal [number 0; number 1] [p + n] (fun z1 =>
       TDraw RV_standard_normal [number 0; number 1] [p] (fun z2 =>
       TRet [varr (M_regression.nbinom_normal_posterior cholesky sd X hh y (unvec n w) (unvec (p + n) z1) (unvec p z2))])))).
  Proof using HC HA HF HL.
    intros Hk Psd. unfold nbinom_code. cbn [app runs].
    set (yv := (\col_i INR (y i))%Rg : 'cV[R]_n).
    exists [varr (\col_i (INR (y i) + hh)%R)%Rg; varr (X *m beta)%Rg], [], [n]. eexists. split; [reflexivity|]. split; [|split; [|split]].
    - cbn [mapM]. rewrite (den_vo B scalar other cval _ n k _ _ yv (\col_i (INR (y i) + hh)%R)%Rg hh); [|exact Hk|reflexivity|reflexivity|].
      2: { intros i. unfold yv. rewrite !col_at. apply (ar_add scalar HA). }
      rewrite (den_dot_mv B scalar other cval cholesky HL _ n p _ _ X beta); reflexivity.
    - reflexivity.
    - apply draw_shape_in; [apply elem_of_list_here|]. repeat (apply Forall_cons; split; [apply fits_shape_refl|]). apply Forall_nil. done.
    - intros w Hw. assert (Pw : forall i, Rlt 0 (unvec n w i 0%Rg)) by (eapply drawn_vpos; [|exact Hw]; unfold positive_dist; tauto).
      pose proof (drawn_varr _ _ _ Hw) as Ew. cbv beta. set (wv := unvec n w) in *. clear Hw. clearbody wv. subst w. cbn [app].
      exists (varr (\col_i (2%:R^-1 * (INR (y i) - hh) / wv i 0))%Rg). split.
      { eapply (den_vv B scalar other cval _ n _ _ (\col_i (/ 2 * (INR (y i) - hh))%R)%Rg wv); [|reflexivity|].
        - eapply (den_ov B scalar other cval _ n 0); [lia|apply (den_half B scalar other cval HC)| |].
          + eapply (den_vo B scalar other cval _ n k _ _ yv (\col_i (INR (y i) - hh)%R)%Rg hh); [exact Hk|reflexivity|reflexivity|].
            intros i. unfold yv. rewrite !col_at. apply (ar_sub scalar HA).
          + intros i. rewrite !col_at. apply (ar_mul scalar HA).
        - intros i. rewrite nb_z_at by (specialize (Pw i); lra). rewrite col_at. apply (ar_div scalar HA). specialize (Pw i). lra. }
      exists (varr (\col_j (sd j 0)^-1)%Rg). split.
      { eapply (den_v1 B scalar other cval _ p _ sd); [reflexivity|]. intros j. specialize (Psd j). rewrite rec_at by lra. apply (ar_reciprocal scalar HA). lra. }
      cbn [app].
      apply (regression_runs _ 8 n p _ _ _ _ wv (\col_j (sd j 0)^-1)%Rg X (\col_i (2%:R^-1 * (INR (y i) - hh) / wv i 0))%Rg); [reflexivity..| |exact Pw|].
      + intros j. specialize (Psd j). rewrite rec_at by lra. by apply Rinv_0_lt_compat.
      + intros z1 z2 l Hz1 Hz2 Hl E. cbn [runs mapM nbinom_outs]. 
        match goal with |- context [(?v ++ l) !! _] => pose proof (lk_new v l 8 22 _ ltac:(reflexivity) E) as E' end.
        eexists. split; [reflexivity|]. apply Forall2_cons_2; [exact E'|apply Forall2_nil_2].
  Qed.

  Lemma bern_runs n p (beta sd : 'cV[R]_p) (X : 'M[R]_(n, p)) (y : 'I_n -> bool) :
    (forall j, Rlt 0 (sd j 0%Rg)) ->
    rn [varr beta; varr sd; marr X; varr (\col_i (if y i then 1 else 0)%R)%Rg] bern_code bern_outs
      (TDraw RV_polyagamma [number 1; varr (X *m beta)%Rg] [n] (fun w =>
       TDraw RV_standard_normal [number 0; number 1] [p + n] (fun z1 =>
       TDraw RV_standard_normal [number 0; number 1] [p] (fun z2 =>
       TRet [varr (M_regression.bern_normal_posterior cholesky sd X y (unvec n w) (unvec (p + n) z1) (unvec p z2))])))).
  Proof using HC HA HF HL.
    intros Psd. unfold bern_code. cbn [app runs].
    set (yv := (\col_i (if y i then 1 else 0)%R)%Rg : 'cV[R]_n).
    exists [number 1; varr (X *m beta)%Rg], [], [n]. eexists. split; [reflexivity|]. split; [|split; [|split]].
    - cbn [mapM]. rewrite (den_int B scalar other cval HC).
      rewrite (den_dot_mv B scalar other cval cholesky HL _ n p _ _ X beta); reflexivity.
    - reflexivity.
    - apply draw_shape_in; [right; apply elem_of_list_here|]. apply Forall_cons. split; [apply fits_shape_nil|].
      apply Forall_cons. split; [apply fits_shape_refl|]. apply Forall_nil. done.
    - intros w Hw. assert (Pw : forall i, Rlt 0 (unvec n w i 0%Rg)) by (eapply drawn_vpos; [|exact Hw]; unfold positive_dist; tauto).
      pose proof (drawn_varr _ _ _ Hw) as Ew. cbv beta. set (wv := unvec n w) in *. clear Hw. clearbody wv. subst w. cbn [app].
      exists (varr (\col_i (((ssrnat.nat_of_bool (y i))%:R - 2%:R^-1) / wv i 0))%Rg). split.
      { eapply (den_vv B scalar other cval _ n _ _ (\col_i ((if y i then 1 else 0) - / 2)%R)%Rg wv); [|reflexivity|].
        - eapply (den_vo B scalar other cval _ n 0 _ _ yv _ (/ 2)%R); [lia|reflexivity|apply (den_half B scalar other cval HC)|].
          intros i. unfold yv. rewrite !col_at. apply (ar_sub scalar HA).
        - intros i. rewrite bern_z_at by (specialize (Pw i); lra). rewrite col_at. apply (ar_div scalar HA). specialize (Pw i). lra. }
      exists (varr (\col_j (sd j 0)^-1)%Rg). split.
      { eapply (den_v1 B scalar other cval _ p _ sd); [reflexivity|]. intros j. specialize (Psd j). rewrite rec_at by lra. apply (ar_reciprocal scalar HA). lra. }
      cbn [app].
      apply (regression_runs _ 7 n p _ _ _ _ wv (\col_j (sd j 0)^-1)%Rg X (\col_i (((ssrnat.nat_of_bool (y i))%:R - 2%:R^-1) / wv i 0))%Rg); [reflexivity..| |exact Pw|].
      + intros j. specialize (Psd j). rewrite rec_at by lra. by apply Rinv_0_lt_compat.
      + intros z1 z2 l Hz1 Hz2 Hl E. cbn [runs mapM bern_outs]. 
        match goal with |- context [(?v ++ l) !! _] => pose proof (lk_new v l 7 22 _ ltac:(reflexivity) E) as E' end.
        eexists. split; [reflexivity|]. apply Forall2_cons_2; [exact E'|apply Forall2_nil_2].
  Qed.
End kernels.
