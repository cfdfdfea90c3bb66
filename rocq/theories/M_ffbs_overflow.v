(** Model of /repo/aemcmc/ffbs.py (ffbs_step, lines 9-131) in double precision with overflow.

    M_ffbs_float.v again, for any rounding function: [rd] is only known to be the rounding to
    the nearest double where that does not overflow ([rounds] in S_ffbs_overflow.v).  What a
    computation gives after an overflow (infinities, NaN) is left open.  Otherwise the
    simplifications of M_ffbs_float.v. *)
From Verif Require Export M_ffbs_float.

Section round.
  Context (rd : R -> R) (summ : list R -> R).

  (** [at.exp(log_lik_n - log_lik_n.max())] (ffbs.py:85) *)
  Definition flik_r (ll : list (option R)) : option vec :=
    match lmax ll with
    | None => None
    | Some m => Some (map (fun x => match x with Some a => rd (exp (rd (a - m))) | None => 0 end) ll)
    end.

  (** [at.dot(alpha_nm1, Gamma_n)] for [M] states (ffbs.py:86) *)
  Definition fdot_r (M : nat) (a : vec) (G : mat) : vec :=
    map (fun j => summ (map (fun i => rd (vget a i * mget G i j)) (seq 0 M))) (seq 0 M).

  (** elementwise product (ffbs.py:86, 107) *)
  Definition fmul_r (M : nat) (a b : vec) : vec := map (fun i => rd (vget a i * vget b i)) (seq 0 M).

  (** forward_step (ffbs.py:83-91) *)
  Definition forward_step_r (bound : R) (M : nat) (ll : list (option R)) (Gamma_n : mat)
      (alpha_nm1 : vec) : option vec :=
    match flik_r ll with
    | None => None
    | Some lik_n =>
        let alpha_n := fmul_r M (fdot_r M alpha_nm1 Gamma_n) lik_n in
        let alpha_n_sum := summ alpha_n in
        Some (if Rlt_dec alpha_n_sum bound then map (fun x => rd (x / bound)) alpha_n else alpha_n)
    end.

  (** the forward [scan] (ffbs.py:93-101) *)
  Fixpoint forward_r (bound : R) (M : nat) (steps : list (list (option R) * mat)) (alpha : vec)
      (acc : list vec) : option (list vec) :=
    match steps with
    | [] => Some acc
    | (ll, G) :: steps' =>
        match forward_step_r bound M ll G alpha with
        | None => None
        | Some a => forward_r bound M steps' a (a :: acc)
        end
    end.

  (** [w / w.sum()] then [srng.categorical]: division by zero gives NaN weights
      (ffbs.py:108-109, 113-115) *)
  Definition normed_categorical_r (w : vec) : fdist nat :=
    let s := summ w in
    if Req_EM_T s 0 then dfail else dcat (map (fun x => rd (x / s)) w).

  (** backward_step (ffbs.py:105-110) *)
  Definition backward_step_r (M : nat) (alpha_n : vec) (Gamma_np1 : mat) (state : nat) : fdist nat :=
    normed_categorical_r (fmul_r M alpha_n (map (fun i => mget Gamma_np1 i state) (seq 0 M))).

  (** the backward [scan] (ffbs.py:117-125) *)
  Fixpoint backward_r (M : nat) (pairs : list (vec * mat)) (state : nat) : fdist (list nat) :=
    match pairs with
    | [] => dret []
    | (a, G) :: pairs' =>
        dbind (backward_step_r M a G state) (fun s =>
        dbind (backward_r M pairs' s) (fun rest => dret (s :: rest)))
    end.

  (** ffbs_step (ffbs.py:66-131) *)
  Definition ffbs_step_r (gamma_0 : vec) (Gammas : list mat) (log_lik : list (list (option R)))
      (N : nat) (bound : R) : fdist (list nat) :=
    let M := length gamma_0 in
    let total := summ gamma_0 in
    if Req_EM_T total 0 then dfail                               (* :76-77, NaN *)
    else
      let gamma_0_normed := map (fun x => rd (x / total)) gamma_0 in
      match broadcast Gammas N with
      | None => dfail
      | Some Gs =>
          match forward_r bound M (combine (transpose log_lik N) Gs) gamma_0_normed [] with
          | None => dfail
          | Some alphas_rev =>
              match alphas_rev with
              | [] => dfail                                      (* alphas[..., N - 1] with N = 0 *)
              | alpha_N :: earlier =>
                  dbind (normed_categorical_r alpha_N) (fun state_N =>      (* :112-115 *)
                  dbind (backward_r M (combine earlier (rev (tl Gs))) state_N) (fun rest =>
                  dret (rev (state_N :: rest))))                 (* :127-131 *)
              end
          end
      end.
End round.
