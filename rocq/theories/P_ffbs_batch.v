(** Property C58: ffbs_step on a batch of sequences (the docstring gives "base shapes"). *)
From Verif Require Import S_ffbs_batch.

Lemma in_dbind {A B} (d : fdist A) (f : A -> fdist B) y w :
  In (Some y, w) (dbind d f) -> exists x w1 w2, In (Some x, w1) d /\ In (Some y, w2) (f x).
Proof.
  unfold dbind. rewrite in_flat_map. intros ([o w1] & Hd & Hi). unfold dscale in Hi. rewrite in_map_iff in Hi.
  destruct Hi as ([o2 w2] & E & Hi). cbn in E, Hi. injection E as -> _. destruct o as [x|].
  - exists x, w1, w2. auto.
  - destruct Hi as [E|[]]. discriminate.
Qed.
Lemma in_dret {A} (x y : A) w : In (Some y, w) (dret x) -> y = x.
Proof. intros [E|[]]. congruence. Qed.
Lemma in_dfail {A} (y : A) w : ~ In (Some y, w) dfail.
Proof. intros [E|[]]. discriminate. Qed.

Lemma categorical_rows_length rows y w : In (Some y, w) (categorical_rows rows) -> length y = length rows.
Proof.
  revert y w. induction rows as [|row rows IH]; intros y w H; cbn in H.
  - apply in_dret in H as ->. reflexivity.
  - apply in_dbind in H as (s & w1 & w2 & _ & H). apply in_dbind in H as (ss & w3 & w4 & Hs & H). apply in_dret in H as ->.
    cbn. f_equal. exact (IH _ _ Hs).
Qed.
Lemma on_last_length c f m v q : on_last c f m v = Some q -> length q = length m.
Proof. unfold on_last. repeat destruct (Nat.eqb _ _); intros [= <-]; apply map_length. Qed.
Lemma normed_length c m y w : In (Some y, w) (normed_categorical_b c m) -> length y = length m.
Proof.
  unfold normed_categorical_b. destruct (in_dec _ _ _); [intros H; destruct (in_dfail _ _ H)|].
  destruct (on_last c Rdiv m (map lsum m)) as [q|] eqn:E; [|intros H; destruct (in_dfail _ _ H)].
  intros H. rewrite (categorical_rows_length _ _ _ H). exact (on_last_length _ _ _ _ _ E).
Qed.
Lemma mtrans_length c m : length (mtrans c m) = c.
Proof. unfold mtrans. rewrite map_length. apply seq_length. Qed.
Lemma times_length c a G st c' q : times_gamma c a G st = Some (c', q) -> length q = length a.
Proof.
  unfold times_gamma. repeat destruct (Nat.eqb _ _); intros [= _ <-]; rewrite map_length, combine_length, seq_length; lia.
Qed.
Lemma backward_length B M pairs st y w : In (Some y, w) (backward_b B M pairs st) -> forall s, In s y -> length s = M.
Proof.
  revert st y w. induction pairs as [|[a G] pairs IH]; intros st y w H s Hs; cbn in H.
  - apply in_dret in H as ->. destruct Hs.
  - apply in_dbind in H as (s1 & w1 & w2 & H1 & H). apply in_dbind in H as (rest & w3 & w4 & H2 & H). apply in_dret in H as ->.
    destruct Hs as [<-|Hs]; [|exact (IH _ _ _ H2 s Hs)].
    unfold backward_step_b in H1. destruct (times_gamma B (mtrans M a) G st) as [[c q]|] eqn:E; [|destruct (in_dfail _ _ H1)].
    rewrite (normed_length _ _ _ _ H1), (times_length _ _ _ _ _ _ E). apply mtrans_length.
Qed.

(** At every time, what is drawn is as many states as there are states, M, whatever the number of
    elements of the batch; and unless the batch has M elements, or one, there is an error. *)
Theorem C58_number_of_draws_partial :
  forall M gamma_0 Gammas log_lik N bound y w,
    (2 <= M)%nat -> In (Some y, w) (ffbs_step_b M gamma_0 Gammas log_lik N bound) ->
    (length gamma_0 = M \/ length gamma_0 = 1%nat) /\ forall states, In states y -> length states = M.
Proof.
  intros M gamma_0 Gammas log_lik N bound y w HM H. unfold ffbs_step_b in H.
  destruct (Req_EM_T _ _); [destruct (in_dfail _ _ H)|].
  destruct (broadcast Gammas N) as [Gs|]; [|destruct (in_dfail _ _ H)].
  destruct (forward_b _ _ _ _ _) as [[|alpha_N earlier]|]; [destruct (in_dfail _ _ H)| |destruct (in_dfail _ _ H)].
  apply in_dbind in H as (st & w1 & w2 & H1 & H). apply in_dbind in H as (rest & w3 & w4 & H2 & H). apply in_dret in H as ->.
  split.
  - unfold normed_categorical_b in H1. destruct (in_dec _ _ _); [destruct (in_dfail _ _ H1)|].
    destruct (on_last _ Rdiv _ _) as [q|] eqn:E; [|destruct (in_dfail _ _ H1)].
    unfold on_last in E. rewrite map_length, mtrans_length in E.
    destruct (Nat.eqb_spec M (length gamma_0)); [left; congruence|].
    destruct (Nat.eqb_spec M 1); [lia|]. destruct (Nat.eqb_spec (length gamma_0) 1); [right; assumption|discriminate].
  - intros states Hs. apply in_rev in Hs. destruct Hs as [<-|Hs]; [|exact (backward_length _ _ _ _ _ _ H2 _ Hs)].
    rewrite (normed_length _ _ _ _ H1). apply mtrans_length.
Qed.
Print Assumptions C58_number_of_draws_partial.

(** So the number of sequences is wrong for every batch whose size is not the number of states. *)
Theorem C58_wrong_number_refuted :
  forall M gamma_0 Gammas log_lik N bound y w,
    (2 <= M)%nat -> length gamma_0 <> M -> In (Some y, w) (ffbs_step_b M gamma_0 Gammas log_lik N bound) ->
    forall states, In states y -> length states <> length gamma_0.
Proof.
  intros M gamma_0 Gammas log_lik N bound y w HM Hne H states Hs.
  destruct (C58_number_of_draws_partial _ _ _ _ _ _ _ _ HM H) as [_ Hl]. rewrite (Hl _ Hs). congruence.
Qed.
Print Assumptions C58_wrong_number_refuted.

(** What the numbers drawn mean when the batch has as many elements as there are states: number
    [i] at time [n] is the index of an element of the batch, not a state; the element's number at
    time [n + 1] is drawn as the successor of state [i]. *)
Lemma in_dbind_w {A B} (d : fdist A) (f : A -> fdist B) y w :
  In (Some y, w) (dbind d f) -> exists x w1 w2, In (Some x, w1) d /\ In (Some y, w2) (f x) /\ w = w1 * w2.
Proof.
  unfold dbind. rewrite in_flat_map. intros ([o w1] & Hd & Hi). unfold dscale in Hi. rewrite in_map_iff in Hi.
  destruct Hi as ([o2 w2] & E & Hi). cbn in E, Hi. injection E as -> <-. destruct o as [x|].
  - exists x, w1, w2. auto.
  - destruct Hi as [E|[]]. discriminate.
Qed.
Lemma in_dcat p s w : In (Some s, w) (dcat p) -> (s < length p)%nat /\ w = nth s p 0.
Proof.
  unfold dcat. rewrite in_map_iff. intros ([k x] & E & H). cbn in E. injection E as -> ->.
  destruct (In_nth _ _ (0%nat, 0) H) as (n & Hn & En). rewrite combine_length, seq_length, Nat.min_id in Hn.
  rewrite combine_nth, seq_nth in En by (rewrite ?seq_length; lia). injection En as E1 E2. cbn in E1. subst. auto.
Qed.
Lemma categorical_rows_support rows y w : In (Some y, w) (categorical_rows rows) -> w <> 0 ->
  forall i, (i < length rows)%nat ->
    (nth i y 0 < length (nth i rows []))%nat /\ nth (nth i y 0%nat) (nth i rows []) 0 <> 0.
Proof.
  revert y w. induction rows as [|row rows IH]; intros y w H Hw i Hi; cbn in H, Hi; [lia|].
  apply in_dbind_w in H as (s & w1 & w2 & Hs & H & ->). apply in_dbind_w in H as (ss & w3 & w4 & Hss & H & ->). apply in_dret in H as ->.
  destruct i as [|i]; cbn.
  - apply in_dcat in Hs as [Hl ->]. split; [assumption|]. intros E. apply Hw. rewrite E. ring.
  - apply (IH ss w3 Hss); [|lia]. intros ->. apply Hw. ring.
Qed.
Lemma normed_support c m y w : In (Some y, w) (normed_categorical_b c m) -> w <> 0 -> length m = c ->
  forall i, (i < c)%nat -> (nth i y 0 < c)%nat /\ vget (nth i m []) (nth i y 0%nat) <> 0.
Proof.
  unfold normed_categorical_b. destruct (in_dec _ _ _); [intros H; destruct (in_dfail _ _ H)|].
  unfold on_last. rewrite map_length. intros H Hw Hm i Hi. rewrite Hm, Nat.eqb_refl in H. cbv iota beta in H.
  destruct (categorical_rows_support _ _ _ H Hw i) as [Hk HS]; [rewrite map_length; unfold vec; rewrite Hm; exact Hi|].
  rewrite (nth_indep _ [] (map (fun j => vget [] j / vget (map lsum m) j) (seq 0 c))) in Hk, HS by (rewrite map_length; unfold vec; rewrite Hm; exact Hi).
  rewrite (map_nth (fun row => map (fun j => vget row j / vget (map lsum m) j) (seq 0 c))) in Hk, HS.
  rewrite map_length, seq_length in Hk. split; [assumption|].
  rewrite (nth_indep _ 0 (vget (nth i m []) 0%nat / vget (map lsum m) 0%nat)) in HS by (rewrite map_length, seq_length; lia).
  rewrite (map_nth (fun j => vget (nth i m []) j / vget (map lsum m) j)), seq_nth in HS by lia. cbn in HS.
  intros E. apply HS. rewrite E. unfold Rdiv. ring.
Qed.
Lemma backward_step_support M a G states y w : In (Some y, w) (backward_step_b M M a G states) -> w <> 0 -> length states = M ->
  length y = M /\ forall i, (i < M)%nat -> (nth i y 0 < M)%nat /\ mget G i (nth (nth i y 0%nat) states 0%nat) <> 0.
Proof.
  unfold backward_step_b, times_gamma. intros H Hw Hs. rewrite Hs, Nat.eqb_refl in H.
  match type of H with In _ (normed_categorical_b M ?q) => set (m := q) in H end.
  assert (Hm : length m = M). { unfold m. rewrite map_length, combine_length, seq_length, !mtrans_length. lia. }
  split; [rewrite (normed_length _ _ _ _ H); assumption|]. intros i Hi.
  destruct (normed_support _ _ _ _ H Hw Hm i Hi) as [Hk Hv]. split; [assumption|].
  intros E. apply Hv. unfold m, vget at 1.
  set (f := fun p : nat * list R => map (fun k => vget (snd p) k * mget G (fst p) (nth k states 0%nat)) (seq 0 M)).
  change (nth (nth i y 0%nat) (nth i (map f (combine (seq 0 (length (mtrans M a))) (mtrans M a))) []) 0 = 0).
  rewrite (nth_indep _ [] (f (0%nat, []))) by (rewrite map_length, combine_length, seq_length, !mtrans_length; lia).
  rewrite map_nth, combine_nth by apply seq_length. rewrite seq_nth by (rewrite mtrans_length; lia). unfold f. cbn [fst snd Nat.add].
  rewrite (nth_indep _ 0 (vget (nth i (mtrans M a) []) 0%nat * mget G i (nth 0%nat states 0%nat))) by (rewrite map_length, seq_length; lia).
  rewrite (map_nth (fun k => vget (nth i (mtrans M a) []) k * mget G i (nth k states 0%nat))), seq_nth by lia.
  cbn [Nat.add]. rewrite E. ring.
Qed.
Lemma backward_support M pairs : forall states y w, In (Some y, w) (backward_b M M pairs states) -> w <> 0 -> length states = M ->
  length y = length pairs /\
  forall n, (n < length pairs)%nat -> forall i, (i < M)%nat ->
    let k := nth i (nth (S n) (states :: y) []) 0%nat in
    (k < M)%nat /\ mget (snd (nth n pairs ([], []))) i (nth k (nth n (states :: y) []) 0%nat) <> 0.
Proof.
  induction pairs as [|[a G] pairs IH]; intros states y w H Hw Hs; cbn in H.
  - apply in_dret in H as ->. split; [reflexivity|]. intros n Hn. cbn in Hn. lia.
  - apply in_dbind_w in H as (s & w1 & w2 & H1 & H & ->). apply in_dbind_w in H as (rest & w3 & w4 & H2 & H & ->). apply in_dret in H as ->.
    assert (Hw1 : w1 <> 0) by (intros ->; apply Hw; ring). assert (Hw3 : w3 <> 0) by (intros ->; apply Hw; ring).
    destruct (backward_step_support _ _ _ _ _ _ H1 Hw1 Hs) as [Hl HS]. destruct (IH s rest w3 H2 Hw3 Hl) as [Hr HR].
    split; [cbn; congruence|]. intros [|n] Hn i Hi; [exact (HS i Hi)|]. apply (HR n); [cbn in Hn; lia|assumption].
Qed.
Lemma forward_b_length bound M steps : forall alpha acc l, forward_b bound M steps alpha acc = Some l -> length l = (length steps + length acc)%nat.
Proof.
  induction steps as [|[ll G] steps IH]; intros alpha acc l H; cbn in H; [injection H as <-; reflexivity|].
  destruct (forward_step_b _ _ _ _ _) as [a|]; [|discriminate]. rewrite (IH _ _ _ H). cbn. lia.
Qed.

Theorem C58_meaning_of_draws_partial :
  forall M gamma_0 Gammas Gs log_lik N bound y w,
    (2 <= M)%nat -> length gamma_0 = M -> broadcast Gammas N = Some Gs -> length Gs = N ->
    In (Some y, w) (ffbs_step_b M gamma_0 Gammas log_lik N bound) -> w <> 0 ->
    length y = N /\
    forall n i, (S n < N)%nat -> (i < M)%nat ->
      let b := nth i (nth n y []) 0%nat in
      (b < length gamma_0)%nat /\ mget (nth (S n) Gs []) i (nth b (nth (S n) y []) 0%nat) <> 0.
Proof.
  intros M gamma_0 Gammas Gs log_lik N bound y w HM HB HG HN H Hw. unfold ffbs_step_b in H.
  destruct (Req_EM_T _ _) as [_|_]; [destruct (in_dfail _ _ H)|]. rewrite HG in H.
  destruct (forward_b _ _ _ _ _) as [[|alpha_N earlier]|] eqn:E; [destruct (in_dfail _ _ H)| |destruct (in_dfail _ _ H)].
  apply forward_b_length in E. rewrite combine_length, map_length, seq_length, HN, Nat.min_id in E. cbn in E.
  apply in_dbind_w in H as (st & w1 & w2 & H1 & H & ->). apply in_dbind_w in H as (rest & w3 & w4 & H2 & H & ->). apply in_dret in H as ->.
  assert (Hw3 : w3 <> 0) by (intros ->; apply Hw; ring). rewrite HB in *.
  assert (Hst : length st = M). { rewrite (normed_length _ _ _ _ H1). apply mtrans_length. }
  destruct (backward_support _ _ _ _ _ H2 Hw3 Hst) as [Hl HS].
  assert (Htl : length (tl Gs) = (N - 1)%nat) by (clear -HN; destruct Gs; cbn in *; lia).
  assert (Hp : length (combine earlier (rev (tl Gs))) = (N - 1)%nat).
  { rewrite combine_length, rev_length, Htl. lia. }
  rewrite Hp in Hl, HS. split; [rewrite rev_length; cbn; lia|]. intros n i Hn Hi.
  specialize (HS (N - 2 - n)%nat ltac:(lia) i Hi). set (L := st :: rest) in *.
  assert (HL : length L = N) by (unfold L; cbn; lia).
  cbv zeta. rewrite !rev_nth by lia. rewrite HL.
  replace (N - S n)%nat with (S (N - 2 - n)) by lia. replace (N - S (S n))%nat with (N - 2 - n)%nat by lia.
  cbv zeta in HS. rewrite combine_nth in HS by (rewrite rev_length, Htl; unfold mat in *; lia). cbn [snd] in HS.
  rewrite rev_nth in HS by (rewrite Htl; lia).
  replace (nth (length (tl Gs) - S (N - 2 - n)) (tl Gs) []) with (nth (S n) Gs []) in HS; [assumption|].
  destruct Gs as [|G Gs]; [cbn in HN; lia|]. cbn in HN |- *. f_equal. lia.
Qed.
Print Assumptions C58_meaning_of_draws_partial.

(** two sequences with the same model, two states, two times *)
Definition flat (x : R) : mat := [[x; x]; [x; x]].
Lemma flat_forward : forward_step_b (1/100) 2 [[Some 0; Some 0]; [Some 0; Some 0]] (flat (1/2)) (flat (1/4)) = Some (flat (1/4)).
Proof.
  unfold forward_step_b, liks. assert (Hm : lmax (concat [[Some 0; Some 0]; [Some 0; Some 0]]) = Some 0).
  { cbn. rewrite !(Rmax_left 0 0) by lra. reflexivity. }
  rewrite Hm. cbn [map]. replace (0 - 0) with 0 by ring. rewrite exp_0.
  cbn -[Rlt_dec Rdiv]. unfold on_last, lsum, vget, vmul, nsum, mget. cbn -[Rlt_dec Rdiv].
  repeat match goal with |- context [Rlt_dec ?a ?b] => destruct (Rlt_dec a b) as [E|_]; [exfalso; revert E; unfold vget, lsum; cbn -[Rdiv]; lra|] end.
  replace ((1 / 4 * (1 / 2) + (1 / 4 * (1 / 2) + 0)) * 1) with (1/4) by lra. reflexivity.
Qed.
Lemma flat_normed x : 0 < x -> normed_categorical_b 2 (flat x) = categorical_rows (flat (1/2)).
Proof.
  intros Hx. unfold normed_categorical_b. destruct (in_dec _ _ _) as [[E|[E|[]]]|_].
  1, 2: exfalso; revert E; unfold lsum; cbn; lra.
  unfold lsum, flat. cbn -[Rdiv categorical_rows]. unfold vget. cbn -[Rdiv categorical_rows].
  replace (x / (x + (x + 0))) with (1/2) by (field; lra). reflexivity.
Qed.
Lemma drawn_bind {A B} (d : fdist A) (f : A -> fdist B) x y :
  (exists w, w <> 0 /\ In (Some x, w) d) -> (exists w, w <> 0 /\ In (Some y, w) (f x)) -> exists w, w <> 0 /\ In (Some y, w) (dbind d f).
Proof.
  intros (w1 & N1 & H1) (w2 & N2 & H2). exists (w1 * w2). split; [apply Rmult_integral_contrapositive; auto|].
  unfold dbind. apply in_flat_map. exists (Some x, w1). split; [assumption|]. cbn. unfold dscale. apply in_map_iff. exists (Some y, w2). auto.
Qed.
Example C58_two_sequences :
  exists w, w <> 0 /\ In (Some [[1; 0]; [0; 0]]%nat, w)
    (ffbs_step_b 2 (flat 1) [flat (1/2)] [[[Some 0; Some 0]; [Some 0; Some 0]]; [[Some 0; Some 0]; [Some 0; Some 0]]] 2 (1/100)).
Proof.
  unfold ffbs_step_b. destruct (Req_EM_T _ _) as [E|_]; [exfalso; unfold lsum in E; cbn in E; lra|].
  replace (map (map (fun x => x / lsum (map lsum (flat 1)))) (flat 1)) with (flat (1/4)).
  2: { unfold flat, lsum. cbn -[Rdiv]. replace (1 / (1 + (1 + 0) + (1 + (1 + 0) + 0))) with (1/4) by field. reflexivity. }
  change (broadcast [flat (1/2)] 2) with (Some [flat (1/2); flat (1/2)]).
  cbn [combine map seq forward_b columns column nth]. unfold columns, column. cbn [map nth].
  rewrite !flat_forward. change (length (flat 1)) with 2%nat. change (mtrans 2 (flat (1/4))) with (flat (1/4)).
  cbn [rev tl combine app backward_b]. rewrite flat_normed by lra.
  apply (drawn_bind _ _ [0; 0]%nat).
  - eexists. split; [|cbn -[Rdiv]; left; reflexivity]. lra.
  - apply (drawn_bind _ _ [[1; 0]%nat]); [|exists 1; split; [lra|left; reflexivity]].
    apply (drawn_bind _ _ [1; 0]%nat).
    2: { apply (drawn_bind _ _ []); exists 1; (split; [lra|left; reflexivity]). }
    unfold backward_step_b. change (mtrans 2 (flat (1/4))) with (flat (1/4)).
    assert (E : times_gamma 2 (flat (1/4)) (flat (1/2)) [0; 0]%nat = Some (2%nat, flat (1/8))).
    { unfold times_gamma. cbn -[Rdiv]. unfold mget, vget. cbn -[Rdiv]. replace (1/4 * (1/2)) with (1/8) by lra. reflexivity. }
    rewrite E, flat_normed by lra. eexists. split; [|cbn -[Rdiv]; do 2 right; left; reflexivity]. lra.
Qed.

(** one sequence, two states: a pair of states is drawn for it *)
Example C58_one_sequence :
  exists w, In (Some [[0; 1]%nat], w) (ffbs_step_b 2 [[1/2; 1/2]] [[[1; 0]; [0; 1]]] [[[Some 0]; [Some 0]]] 1 (1/100)).
Proof.
  unfold ffbs_step_b. destruct (Req_EM_T _ _) as [E|_]; [exfalso; unfold lsum in E; cbn in E; lra|].
  cbn -[normed_categorical_b dbind]. unfold forward_step_b. cbn -[normed_categorical_b dbind Rdiv].
  match goal with |- context [Rlt_dec ?a ?b] => destruct (Rlt_dec a b) as [E|_] end.
  - exfalso. revert E. unfold lsum, vget. cbn. rewrite Rmax_left by lra. rewrite Rminus_0_r, exp_0. lra.
  - unfold normed_categorical_b. destruct (in_dec _ _ _) as [[E|[E|[]]]|_].
    1, 2: exfalso; revert E; unfold mtrans, lsum, vget; cbn; rewrite Rmax_left by lra; rewrite Rminus_0_r, exp_0; lra.
    cbn. eexists. do 1 right. left. reflexivity.
Qed.

(** Even if it is, the draws are not the states of the elements of the batch: the first element
    is certainly in state 0, and the result has it in state 1 with probability 1/2. *)
Ltac entries := lazymatch goal with |- cons _ _ = cons _ _ => apply f_equal2; entries | |- @eq R _ _ => lra | |- _ => first [reflexivity | apply f_equal; entries] end.

Definition bt_gamma_0 : mat := [[1/2; 1/2]; [1/2; 1/2]].
Definition bt_Gammas : list mat := [[[1; 0]; [0; 1]]].
Definition bt_ll : list (list (list (option R))) := [[[Some (ln (1/2))]; [None]]; [[Some (ln (1/2))]; [Some 0]]].

Lemma bt_half : exp (ln (1/2) - 0) = 1/2.
Proof. rewrite Rminus_0_r. apply exp_ln. lra. Qed.
Lemma bt_ln : ln (1/2) < 0.
Proof. rewrite <- ln_1. apply ln_increasing; lra. Qed.

Lemma bt_args : batch_args 2 bt_gamma_0 bt_Gammas bt_ll 1.
Proof.
  split; [reflexivity|]. intros b Hb.
  assert (Hcommon : forall ll, (exists x0 x1, ll = [[x0]; [x1]]) -> ffbs_args [1/2; 1/2] bt_Gammas ll 1).
  { intros ll (x0 & x1 & ->). constructor.
    - lia.
    - intros x [<-|[<-|[]]]; lra.
    - left. reflexivity.
    - intros G row x [<-|[]] [<-|[<-|[]]] [<-|[<-|[]]]; lra.
    - intros G [<-|[]]. split; [reflexivity|]. intros row [<-|[<-|[]]]; reflexivity.
    - reflexivity.
    - intros row [<-|[<-|[]]]; reflexivity. }
  assert (He : exp (ln (1/2)) = 1/2) by (apply exp_ln; lra).
  destruct b as [|[|b]]; [| |cbn in Hb; lia]; (split; [reflexivity|]; split; [apply Hcommon; do 2 eexists; reflexivity|]);
    unfold evidence, joint, nsum, lsum, hmm_of, mget, vget; cbn -[ln exp]; rewrite ?He, ?exp_0; lra.
Qed.

Theorem C58_batch_refuted :
  exists M gamma_0 Gammas log_lik N bound b ss,
    length gamma_0 = M /\ batch_args M gamma_0 Gammas log_lik N /\ 0 < bound /\ (b < length gamma_0)%nat /\
    posterior M (vget (nth b gamma_0 [])) (hmm_of Gammas (nth b log_lik []) N) ss = 0 /\
    dprob (ffbs_step_b M gamma_0 Gammas log_lik N bound) (element_is b ss) = 1/2.
Proof.
  exists 2%nat, bt_gamma_0, bt_Gammas, bt_ll, 1%nat, (1/100), 0%nat, [1%nat].
  split; [reflexivity|]. split; [apply bt_args|]. split; [lra|]. split; [cbn; lia|]. split.
  - unfold posterior, joint, nsum, lsum, hmm_of, mget, vget. cbn -[ln exp evidence]. unfold Rdiv. ring_simplify. reflexivity.
  - unfold ffbs_step_b.
    destruct (Req_EM_T _ _) as [E|_]; [exfalso; unfold bt_gamma_0, lsum in E; cbn in E; lra|].
    change (broadcast bt_Gammas 1) with (Some bt_Gammas).
    assert (Hl : liks (columns bt_ll 0) = Some [[1/2; 0]; [1/2; 1]]).
    { unfold liks. assert (Hm : lmax (concat (columns bt_ll 0)) = Some 0).
      { cbn -[ln]. unfold omax. f_equal. pose proof bt_ln. rewrite (Rmax_right (ln (1/2)) 0) by lra. apply Rmax_right. lra. }
      rewrite Hm. cbn -[ln exp]. rewrite bt_half, Rminus_0_r, exp_0. reflexivity. }
    assert (Hf : forward_b (1/100) 2 (combine (map (columns bt_ll) (seq 0 1)) bt_Gammas)
        (map (map (fun x => x / lsum (map lsum bt_gamma_0))) bt_gamma_0) [] = Some [[[1/8; 0]; [1/8; 1/4]]]).
    { cbn [forward_b combine map seq bt_Gammas]. unfold forward_step_b. rewrite Hl.
      assert (Ht : lsum (map lsum bt_gamma_0) = 2) by (unfold bt_gamma_0, lsum; cbn; lra). rewrite Ht.
      match goal with |- context [on_last 2 ?f ?m ?v] => assert (E : m = [[1/8; 0]; [1/8; 1/4]]) end.
      { unfold bt_gamma_0, vmul, vdot, nsum, lsum, mget, vget. cbn. entries. }
      rewrite E. unfold on_last. cbn [length map Nat.eqb seq].
      assert (S1 : lsum [1/8; 0] = 1/8) by (unfold lsum; cbn; lra). assert (S2 : lsum [1/8; 1/4] = 3/8) by (unfold lsum; cbn; lra).
      rewrite S1, S2. unfold vget. cbn [nth]. destruct (Rlt_dec (1/8) (1/100)); [lra|]. destruct (Rlt_dec (3/8) (1/100)); [lra|]. reflexivity. }
    cbv beta iota zeta.
    match goal with |- context [forward_b ?a ?b ?c ?d ?e] => assert (Hf' : forward_b a b c d e = Some [[[1/8; 0]; [1/8; 1/4]]]) by exact Hf end.
    rewrite Hf'. cbn [tl bt_Gammas rev combine backward_b].
    assert (Hn : normed_categorical_b (length bt_gamma_0) (mtrans 2 [[1/8; 0]; [1/8; 1/4]]) = categorical_rows [[1/2; 1/2]; [0; 1]]).
    { unfold normed_categorical_b, mtrans. cbn [map seq]. destruct (in_dec _ _ _) as [[E|[E|[]]]|_];
        [exfalso; unfold lsum, vget in E; cbn in E; lra|exfalso; unfold lsum, vget in E; cbn in E; lra|].
      unfold on_last. cbn [length bt_gamma_0 map seq Nat.eqb]. apply f_equal. unfold vget, lsum. cbn. entries. }
    rewrite Hn. cbn. lra.
Qed.
Print Assumptions C58_batch_refuted.
