(** Facts about density kernels: parameters are determined by the kernel. *)
From Verif Require Export S_density.

Lemma Rpower_ln x a : 0 < x -> ln (Rpower x a) = a * ln x.
Proof. intros _. unfold Rpower. apply ln_exp. Qed.

Lemma Rpower_pos x a : 0 < Rpower x a.
Proof. unfold Rpower. apply exp_pos. Qed.

Lemma gamma_density_pos s r x : 0 < gamma_density s r x.
Proof. unfold gamma_density. apply Rmult_lt_0_compat; [apply Rpower_pos|apply exp_pos]. Qed.

Lemma beta_density_pos a b x : 0 < beta_density a b x.
Proof. unfold beta_density. apply Rmult_lt_0_compat; apply Rpower_pos. Qed.

Lemma ln_gamma_density s r x : ln (gamma_density s r x) = (s - 1) * ln x - r * x.
Proof.
  unfold gamma_density. rewrite ln_mult by (apply Rpower_pos || apply exp_pos).
  unfold Rpower. rewrite !ln_exp. ring.
Qed.

Lemma ln_beta_density a b x : ln (beta_density a b x) = (a - 1) * ln x + (b - 1) * ln (1 - x).
Proof.
  unfold beta_density. rewrite ln_mult by apply Rpower_pos. unfold Rpower. rewrite !ln_exp. ring.
Qed.

Lemma proportional_refl S f : proportional S f f.
Proof. exists 1. split; [lra|]. intros; ring. Qed.

Lemma proportional_sym S f g : proportional S f g -> proportional S g f.
Proof.
  intros (c & Hc & H). exists (/ c). split; [apply Rinv_0_lt_compat, Hc|].
  intros x Hx. rewrite (H x Hx). field. lra.
Qed.

Lemma proportional_trans S f g h : proportional S f g -> proportional S g h -> proportional S f h.
Proof.
  intros (c & Hc & H) (d & Hd & K). exists (c * d). split; [apply Rmult_lt_0_compat; assumption|].
  intros x Hx. rewrite (H x Hx), (K x Hx). ring.
Qed.

Lemma ln2_pos : 0 < ln 2.
Proof. rewrite <- ln_1. apply ln_increasing; lra. Qed.

(** two gamma densities are proportional only if they are the same *)
Lemma gamma_density_inj s r s' r' :
  proportional pos_reals (gamma_density s r) (gamma_density s' r') <-> s = s' /\ r = r'.
Proof.
  split.
  2:{ intros [-> ->]. apply proportional_refl. }
  intros (c & Hc & H).
  assert (Hl : forall x, 0 < x -> (s - s') * ln x - (r - r') * x = ln c).
  { intros x Hx. pose proof (f_equal ln (H x Hx)) as E.
    rewrite ln_mult in E by (assumption || apply gamma_density_pos).
    rewrite !ln_gamma_density in E. lra. }
  pose proof (Hl 1 ltac:(lra)) as H1. pose proof (Hl 2 ltac:(lra)) as H2.
  pose proof (Hl (2 * 2) ltac:(lra)) as H4. rewrite ln_1 in H1. rewrite ln_mult in H4 by lra.
  pose proof ln2_pos as Hp.
  set (A := s - s') in *. set (D := r - r') in *.
  assert (E : A * ln 2 = D) by lra.
  assert (D0 : D = 0) by nra.
  assert (A0 : A = 0).
  { rewrite D0 in E. apply Rmult_integral in E as [E|E]; [exact E|lra]. }
  unfold A, D in *. split; lra.
Qed.

(** two beta densities are proportional only if they are the same *)
Lemma beta_density_inj a b a' b' :
  proportional unit_interval (beta_density a b) (beta_density a' b') <-> a = a' /\ b = b'.
Proof.
  split.
  2:{ intros [-> ->]. apply proportional_refl. }
  intros (c & Hc & H).
  assert (Hl : forall x, 0 < x < 1 -> (a - a') * ln x + (b - b') * ln (1 - x) = ln c).
  { intros x Hx. pose proof (f_equal ln (H x Hx)) as E.
    rewrite ln_mult in E by (assumption || apply beta_density_pos).
    rewrite !ln_beta_density in E. lra. }
  pose proof (Hl (/2) ltac:(lra)) as H1. pose proof (Hl (/2 * /2) ltac:(lra)) as H2.
  pose proof (Hl (3 * (/2 * /2)) ltac:(lra)) as H3.
  replace (1 - /2) with (/2) in H1 by lra.
  replace (1 - /2 * /2) with (3 * (/2 * /2)) in H2 by lra.
  replace (1 - 3 * (/2 * /2)) with (/2 * /2) in H3 by lra.
  rewrite !ln_mult in * by lra. rewrite !ln_Rinv in * by lra.
  set (A := a - a') in *. set (B := b - b') in *.
  assert (Hl3 : 0 < ln 3) by (rewrite <- ln_1; apply ln_increasing; lra).
  assert (Hl34 : ln 3 < 2 * ln 2).
  { replace (2 * ln 2) with (ln 2 + ln 2) by ring. rewrite <- ln_mult by lra. apply ln_increasing; lra. }
  set (t := ln 3) in *. set (u := ln 2) in *.
  assert (E : (A - B) * t = 0) by nra.
  assert (EAB : A = B) by (apply Rmult_integral in E as [E|E]; lra).
  rewrite EAB in *.
  assert (E2 : B * (2 * u - t) = 0) by nra.
  apply Rmult_integral in E2 as [E2|E2]; [|lra].
  unfold A, B in *. split; lra.
Qed.
