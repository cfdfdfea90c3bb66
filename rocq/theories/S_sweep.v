(** Specification vocabulary for property C57: one call of the constructed sampler leaves the
    posterior of the model invariant. *)
From Coq Require Import Reals.
From Verif Require Export S_copy.

(** A measure, given by the integral of every test function: a probability law of samples, a
    sum over values, an integral over the reals. *)
Definition law (A : Type) : Type := (A -> R) -> R.

Section sweep.
  Context {D : Type}.

  (** the values [x] of the variables, except those of [b], which are taken from [y] *)
  Definition put (b : list vid) (y x : vid -> D) : vid -> D :=
    fun u => if decide (u ∈ b) then y u else x u.

  (** Variables that are sampled together, and how. *)
  Record step_block := StepBlock {
    b_vars : list vid;
    b_gens : list vid;                                 (* the generators read by the step *)
    b_seed : law (vid -> D);                           (* the law of their states *)
    b_step : (vid -> D) -> (vid -> D) -> vid -> D;     (* the new values: a function of the values
                                                          of the variables and of the generators *)
    b_own : law (vid -> D);                            (* reference measure of the variables *)
    b_rest : law (vid -> D);                           (* reference measure of all the others *)
  }.

  (** the step as a transition kernel: the law of the values after the step at [x] *)
  Definition kernel (B : step_block) (x : vid -> D) : law (vid -> D) :=
    fun g => b_seed B (fun e => g (put (b_vars B) (b_step B x e) x)).

  Section target.
    (** the test functions, the reference measure of all the variables, and the posterior
        density, up to a constant *)
    Context (test : ((vid -> D) -> R) -> Prop) (mu : law (vid -> D)) (w : (vid -> D) -> R).

    (** Integrating over all the variables is integrating over those of the block, then over
        the others (Fubini). *)
    Definition iterated (B : step_block) : Prop :=
      forall g, test g -> mu (fun x => w x * g x)%R =
        b_rest B (fun x => b_own B (fun y => w (put (b_vars B) y x) * g (put (b_vars B) y x)))%R.

    (** The step leaves the conditional law of its variables given all the others invariant. *)
    Definition keeps_conditional (B : step_block) : Prop :=
      forall x g, test g ->
        b_own B (fun y => w (put (b_vars B) y x) * kernel B (put (b_vars B) y x) g)%R =
        b_own B (fun y => w (put (b_vars B) y x) * g (put (b_vars B) y x))%R.

    (** The step is a draw from the conditional law of its variables given all the others. *)
    Definition draws_conditional (B : step_block) : Prop :=
      forall x g, test g ->
        kernel B x g =
        (b_own B (fun y => w (put (b_vars B) y x) * g (put (b_vars B) y x)) /
         b_own B (fun y => w (put (b_vars B) y x)))%R.

    Record targets (B : step_block) : Prop := Targets {
      tg_iterated : iterated B;
      tg_test : forall g, test g -> test (fun x => kernel B x g);
      tg_keeps : keeps_conditional B;
    }.
  End target.

  (** The states of the generators: those of different blocks are independent. *)
  Fixpoint draw_gens (bs : list step_block) (e : vid -> D) : law (vid -> D) :=
    fun f =>
      match bs with
      | [] => f e
      | B :: bs' => b_seed B (fun eB => draw_gens bs' (put (b_gens B) eB e) f)
      end.

  (** [x] on the variables [l] *)
  Definition on (l : list vid) (x : vid -> D) : vid -> option D :=
    fun u => if decide (u ∈ l) then Some (x u) else None.

  (** the inputs of the compiled sampler in graph [h]: the current values [x] of the variables,
      the states [e] of the generators, and everything else as in [rho] *)
  Record inputs (h : heap) (inits : dict nat nat) (bs : list step_block) (rho : vid -> option D)
      (x e : vid -> D) (env : vid -> option D) : Prop := Inputs {
    in_leaves : data_env h env;
    in_init : forall k p, (k, p) ∈ inits -> env p = Some (x k);
    in_gens : forall B g, B ∈ bs -> g ∈ b_gens B -> is_Some (hv h g) -> env g = Some (e g);
    in_rest : forall u, is_Some (hv h u) -> u ∉ dvalues inits -> (forall B, B ∈ bs -> u ∉ b_gens B) ->
      env u = rho u;
  }.

  (** The discovered samplers, as steps.  [h] is the graph after discovery, [outs] its random
      variables, [obs] the observed ones and their values [data], [fnd] the samplers found;
      [ok] are the values of the variables and the states of the generators on which the
      samplers have to be defined; [bs] are the blocks in the order in which they are visited and [N] is what is left to
      NUTS. *)
  Record discovered (base : op -> list D -> option (list D)) (cval : nat -> D) (h : heap)
      (obs : dict nat nat) (fnd : dict nat (list found)) (outs : list vid) (inits : dict nat nat)
      (rho : vid -> option D) (data : vid -> D) (ok : (vid -> D) -> (vid -> D) -> Prop)
      (bs : list step_block) (N : step_block) : Prop := Discovered {
    (* the blocks divide up the variables with a sampler, in the order of [outs] *)
    dc_vars : concat (b_vars <$> bs) = filter (fun r => r ∉ dkeys obs /\ is_Some (chosen fnd r)) outs;
    dc_left : b_vars N = filter (fun r => r ∉ dkeys obs /\ chosen fnd r = None) outs;
    dc_nonempty : forall B, B ∈ bs -> b_vars B <> [];
    (* one application of a kernel per block *)
    dc_joint : forall B r1 r2 f1 f2 n i, B ∈ bs -> r1 ∈ b_vars B -> r2 ∈ b_vars B ->
      chosen fnd r1 = Some f1 -> chosen fnd r2 = Some f2 ->
      owner h (f_step f1) = Some (n, i) -> exists j, owner h (f_step f2) = Some (n, j);
    dc_apart : forall B1 B2 r1 r2 f1 f2 n i j, B1 ∈ bs -> B2 ∈ bs -> r1 ∈ b_vars B1 -> r2 ∈ b_vars B2 ->
      chosen fnd r1 = Some f1 -> chosen fnd r2 = Some f2 ->
      owner h (f_step f1) = Some (n, i) -> owner h (f_step f2) = Some (n, j) -> b_vars B1 = b_vars B2;
    dc_owned : forall B r f, B ∈ bs -> r ∈ b_vars B -> chosen fnd r = Some f ->
      is_Some (owner h (f_step f));
    (* every block has its own generators *)
    dc_gens : NoDup (concat (b_gens <$> (bs ++ [N])));
    dc_own : forall B x e e', B ∈ bs ++ [N] -> (forall g, g ∈ b_gens B -> e g = e' g) ->
      forall r, r ∈ b_vars B -> b_step B x e r = b_step B x e' r;
    (* [b_step] is what the sampler computes from the values of the variables *)
    dc_step : forall B r f x x0 e env, B ∈ bs -> r ∈ b_vars B -> chosen fnd r = Some f -> ok x e ->
      inputs h inits (bs ++ [N]) rho x0 e env ->
      evals base cval h (over (on outs (put (dkeys obs) data x)) env) (f_step f) (b_step B x e r) /\
      forall u, u ∈ dvalues (f_updates f) ->
        exists y, evals base cval h (over (on outs (put (dkeys obs) data x)) env) u y;
    dc_ok : forall B x e, B ∈ bs -> ok x e -> ok (put (b_vars B) (b_step B x e) x) e;
    dc_data : forall k v x e env, (k, v) ∈ obs -> inputs h inits (bs ++ [N]) rho x e env ->
      evals base cval h env v (data k);
  }.
End sweep.
Global Arguments step_block : clear implicits.
