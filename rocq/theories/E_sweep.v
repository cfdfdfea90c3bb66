(** Concrete samplers for property C57: finite values, three-valued generators. *)
From Coq Require Import Reals Lra FunctionalExtensionality.
From Verif Require Export L_sweep E_scan.

Lemma ev_node {D} (base : op -> list D -> option (list D)) cval h (env : vid -> option D) v n i nd xs ys x :
  env v = None -> owner h v = Some (n, i) -> hn h n = Some nd ->
  Forall2 (evals base cval h env) (n_ins nd) xs -> sem base cval (n_op nd) xs = Some ys -> ys !! i = Some x ->
  evals base cval h env v x.
Proof.
  intros Hv Ho Hn Hl Hs Hi. eapply (ev_app _ _ _ _ _ n i nd); try done.
  clear Hs Hi. induction Hl; constructor; done.
Qed.

Lemma env_none {D} h (env : vid -> option D) v p : data_env h env -> owner h v = Some p -> env v = None.
Proof.
  intros He Ho. destruct (env v) as [x|] eqn:Hx; [|done].
  destruct (He v ltac:(by eauto)) as (_ & Hn & _). congruence.
Qed.

(** the state (mu, tau, nu) = (a, b, c) *)
Definition st3 (a b c : nat) (u : vid) : nat :=
  if decide (u = 14) then a else if decide (u = 16) then b else if decide (u = 18) then c else 0.
Definition sum2 (f : nat -> R) : R := (f 0%nat + f 1%nat)%R.
Definition mu3 : law (vid -> nat) := fun f => sum2 (fun a => sum2 (fun b => sum2 (fun c => f (st3 a b c)))).
Definition own1 : law (vid -> nat) := fun f => sum2 (fun a => f (fun _ => a)).
Definition rest14 : law (vid -> nat) := fun f => sum2 (fun b => sum2 (fun c => f (st3 0 b c))).
Definition rest16 : law (vid -> nat) := fun f => sum2 (fun a => sum2 (fun c => f (st3 a 0 c))).
Definition rest18 : law (vid -> nat) := fun f => sum2 (fun a => sum2 (fun b => f (st3 a b 0))).

Lemma put14 a b c x : put [14] (fun _ => a) (st3 x b c) = st3 a b c.
Proof. apply functional_extensionality. intros u. unfold put, st3. repeat case_decide; try set_solver; done. Qed.
Lemma put16 a b c x : put [16] (fun _ => b) (st3 a x c) = st3 a b c.
Proof. apply functional_extensionality. intros u. unfold put, st3. repeat case_decide; try set_solver; subst; done. Qed.
Lemma put18 a b c x : put [18] (fun _ => c) (st3 a b x) = st3 a b c.
Proof. apply functional_extensionality. intros u. unfold put, st3. repeat case_decide; try set_solver; subst; done. Qed.

(** ** Draws from the full conditionals of a density that depends on the parity *)

(** a generator has three states of the same probability *)
Definition seed3 : law (vid -> nat) := fun f => ((f (fun _ => 0%nat) + f (fun _ => 1%nat) + f (fun _ => 2%nat)) / 3)%R.
Definition par (l : list nat) : bool := foldr (fun n p => xorb (Nat.odd n) p) false l.
(** the draw: the value that makes the total odd with probability 2/3 *)
Definition flip (g : nat) (l : list nat) : nat := if Nat.eqb g 0 then Nat.b2n (par l) else Nat.b2n (negb (par l)).
(** the density: 2 if the total of the variables and of the data 1 is odd, 1 otherwise *)
Definition w3 (x : vid -> nat) : R := if par [x 14; x 16; x 18; 1] then 2%R else 1%R.

Definition gibbs_base (o : op) (xs : list nat) : option (list nat) :=
  match o, xs with
  | OOther 10, [g; tau; nu; y] => Some [g; flip g [tau; nu; y]]
  | OOther 12, [g; mu; tau; y] => Some [g; flip g [mu; tau; y]]
  | OOther 99, [mass; tau; eps; y; nu; g; g2; g1] =>
      (* NUTS: the kernel recomputes the steps of mu and nu, then draws tau *)
      let mu' := flip g1 [tau; nu; y] in
      let nu' := flip g2 [mu'; tau; y] in
      Some [flip g [mu'; nu'; y]; g]
  | _, _ => None
  end.

Definition B14 : step_block nat := StepBlock [14] [22] seed3 (fun x e _ => flip (e 22) [x 16; x 18; 1]) own1 rest14.
Definition B18 : step_block nat := StepBlock [18] [25] seed3 (fun x e _ => flip (e 25) [x 14; x 16; 1]) own1 rest18.
Definition B16 : step_block nat := StepBlock [16] [31] seed3 (fun x e _ => flip (e 31) [x 14; x 18; 1]) own1 rest16.

Definition no_const (c : nat) : nat := c.

Definition all_tests (g : (vid -> nat) -> R) : Prop := True.

Ltac sums := unfold mu3, rest14, rest16, rest18, own1, sum2.
Lemma own1_scale a c : own1 (fun y => a y * c)%R = (own1 a * c)%R.
Proof. sums. ring. Qed.

Lemma w3_pos x : (0 < w3 x)%R.
Proof. unfold w3. destruct (par _); lra. Qed.
Lemma own1_w3 b x : own1 (fun y => w3 (put b y x)) <> 0%R.
Proof. sums. pose proof (w3_pos (put b (fun _ => 0) x)). pose proof (w3_pos (put b (fun _ => 1) x)). lra. Qed.

Ltac draw := intros x g _; unfold kernel, seed3, w3; cbn [b_seed b_own b_vars b_step B14 B16 B18]; sums;
  rewrite ?(put_in _ (fun _ : vid => 0) x _ (elem_of_list_here _ _)), ?(put_in _ (fun _ : vid => 1) x _ (elem_of_list_here _ _));
  rewrite !put_out by (intros ?%elem_of_list_singleton; discriminate);
  unfold flip, par; cbn [foldr Nat.eqb];
  repeat match goal with |- context [Nat.odd (x ?v)] => destruct (Nat.odd (x v)) end; unfold seed3; cbn; field.

Lemma B14_draws : draws_conditional all_tests w3 B14.
Proof. draw. Qed.
Lemma B16_draws : draws_conditional all_tests w3 B16.
Proof. draw. Qed.
Lemma B18_draws : draws_conditional all_tests w3 B18.
Proof. draw. Qed.

Lemma it14 w g : mu3 (fun x => w x * g x)%R = rest14 (fun x => own1 (fun y => w (put [14%nat] y x) * g (put [14%nat] y x)))%R.
Proof. sums. rewrite !put14. ring. Qed.
Lemma it16 w g : mu3 (fun x => w x * g x)%R = rest16 (fun x => own1 (fun y => w (put [16%nat] y x) * g (put [16%nat] y x)))%R.
Proof. sums. rewrite !put16. ring. Qed.
Lemma it18 w g : mu3 (fun x => w x * g x)%R = rest18 (fun x => own1 (fun y => w (put [18%nat] y x) * g (put [18%nat] y x)))%R.
Proof. sums. rewrite !put18. ring. Qed.

Lemma targets3 B : B ∈ [B14; B18] ++ [B16] -> targets all_tests mu3 w3 B.
Proof.
  intros HB. repeat (apply elem_of_cons in HB as [->|HB]); [| | |by apply elem_of_nil in HB]; constructor; try done.
  - intros g _. apply it14.
  - apply draws_keeps; [exact own1_scale|apply own1_w3|apply B14_draws].
  - intros g _. apply it18.
  - apply draws_keeps; [exact own1_scale|apply own1_w3|apply B18_draws].
  - intros g _. apply it16.
  - apply draws_keeps; [exact own1_scale|apply own1_w3|apply B16_draws].
Qed.

(** ** Two samplers that share the computation of a statistic *)
Definition bit (n : nat) : nat := Nat.b2n (Nat.odd n).
Definition stat (a b : nat) : nat := 2 * bit a + bit b.
(** mu and tau are uniform on (0, 0), (1, 0), (1, 1) *)
Definition w2 (x : vid -> nat) : R := if Nat.odd (x 14) then 1%R else if Nat.odd (x 16) then 0%R else 1%R.
(** each step permutes the possible values of its variable, given the other one *)
Definition step_a (q : nat) : nat := match q with 0 => 1 | 1 => 0 | 2 => 0 | _ => 1 end.
Definition step_b (q : nat) : nat := match q with 0 => 0 | 1 => 1 | 2 => 1 | _ => 0 end.
Definition shared_base (o : op) (xs : list nat) : option (list nat) :=
  match o, xs with
  | OElem 5, [a; b] => Some [stat a b]
  | OOther 1, [q] => Some [step_a q]
  | OOther 2, [q] => Some [step_b q]
  | OOther 99, [nu; mu; eps; y; tau; mass; g] => Some [nu; g]
  | _, _ => None
  end.
Definition point : law (vid -> nat) := fun f => f (fun _ => 0).
Definition A14 : step_block nat := StepBlock [14] [] point (fun x _ _ => step_a (stat (x 14) (x 16))) own1 rest14.
Definition A16 : step_block nat := StepBlock [16] [] point (fun x _ _ => step_b (stat (x 14) (x 16))) own1 rest16.
Definition A18 : step_block nat := StepBlock [18] [28] point (fun x _ _ => x 18) own1 rest18.

Ltac permutes := intros x g _; unfold kernel; cbn [b_seed b_own b_vars b_step A14 A16 A18]; unfold point; sums;
  rewrite !put_put; unfold w2, stat, bit;
  rewrite ?(put_in _ (fun _ : vid => 0) x _ (elem_of_list_here _ _)), ?(put_in _ (fun _ : vid => 1) x _ (elem_of_list_here _ _));
  rewrite ?put_out by (intros ?%elem_of_list_singleton; discriminate);
  repeat match goal with |- context [Nat.odd (x ?v)] => destruct (Nat.odd (x v)) end; cbn; ring.

Lemma A14_keeps : keeps_conditional all_tests w2 A14.
Proof. permutes. Qed.
Lemma A16_keeps : keeps_conditional all_tests w2 A16.
Proof. permutes. Qed.
Lemma A18_keeps : keeps_conditional all_tests w2 A18.
Proof. permutes. Qed.

Lemma shared_targets B : B ∈ [A14; A16] ++ [A18] -> targets all_tests mu3 w2 B.
Proof.
  intros HB. repeat (apply elem_of_cons in HB as [->|HB]); [| | |by apply elem_of_nil in HB]; constructor; try done.
  - intros g _. apply it14.
  - apply A14_keeps.
  - intros g _. apply it16.
  - apply A16_keeps.
  - intros g _. apply it18.
  - apply A18_keeps.
Qed.
