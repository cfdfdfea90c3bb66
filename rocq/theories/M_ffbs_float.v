(** Model of /repo/aemcmc/ffbs.py (ffbs_step, lines 9-131) in double precision.

    The functions of M_ffbs.v with every operation rounded to the nearest double.
    Simplifications: no overflow (the exponent is bounded below only); [exp] and the quotient
    are correctly rounded; sums are taken in any order, [summ] says which ([sum_ok] in
    S_ffbs_float.v), but without fused operations; otherwise as in M_ffbs.v. *)
From Flocq Require Import Core.
From Verif Require Export M_ffbs.

(** rounding to the nearest double, ties to even: 53 bits, smallest positive number 2^-1074 *)
(* the dtype float64 of the arrays: ffbs.py:66-67 *)
Definition rnd (x : R) : R := round radix2 (FLT_exp (-1074) 53) ZnearestE x.

Section float.
  Context (summ : list R -> R).

  (** [at.exp(log_lik_n - log_lik_n.max())] (ffbs.py:85) *)
  Definition flik (ll : list (option R)) : option vec :=
    match lmax ll with
    | None => None
    | Some m => Some (map (fun x => match x with Some a => rnd (exp (rnd (a - m))) | None => 0 end) ll)
    end.

  (** [at.dot(alpha_nm1, Gamma_n)] for [M] states (ffbs.py:86) *)
  Definition fdot (M : nat) (a : vec) (G : mat) : vec :=
    map (fun j => summ (map (fun i => rnd (vget a i * mget G i j)) (seq 0 M))) (seq 0 M).

  (** elementwise product (ffbs.py:86, 107) *)
  Definition fmul (M : nat) (a b : vec) : vec := map (fun i => rnd (vget a i * vget b i)) (seq 0 M).

  (** forward_step (ffbs.py:83-91) *)
  Definition forward_step_f (bound : R) (M : nat) (ll : list (option R)) (Gamma_n : mat)
      (alpha_nm1 : vec) : option vec :=
    match flik ll with
    | None => None
    | Some lik_n =>
        let alpha_n := fmul M (fdot M alpha_nm1 Gamma_n) lik_n in
        let alpha_n_sum := summ alpha_n in
        Some (if Rlt_dec alpha_n_sum bound then map (fun x => rnd (x / bound)) alpha_n else alpha_n)
    end.

  (** the forward [scan] (ffbs.py:93-101) *)
  Fixpoint forward_f (bound : R) (M : nat) (steps : list (list (option R) * mat)) (alpha : vec)
      (acc : list vec) : option (list vec) :=
    match steps with
    | [] => Some acc
    | (ll, G) :: steps' =>
        match forward_step_f bound M ll G alpha with
        | None => None
        | Some a => forward_f bound M steps' a (a :: acc)
        end
    end.

  (** [w / w.sum()] then [srng.categorical]: division by zero gives NaN weights
      (ffbs.py:108-109, 113-115) *)
  Definition normed_categorical_f (w : vec) : fdist nat :=
    let s := summ w in
    if Req_EM_T s 0 then dfail else dcat (map (fun x => rnd (x / s)) w).

  (** backward_step (ffbs.py:105-110) *)
  Definition backward_step_f (M : nat) (alpha_n : vec) (Gamma_np1 : mat) (state : nat) : fdist nat :=
    normed_categorical_f (fmul M alpha_n (map (fun i => mget Gamma_np1 i state) (seq 0 M))).

  (** the backward [scan] (ffbs.py:117-125) *)
  Fixpoint backward_f (M : nat) (pairs : list (vec * mat)) (state : nat) : fdist (list nat) :=
    match pairs with
    | [] => dret []
    | (a, G) :: pairs' =>
        dbind (backward_step_f M a G state) (fun s =>
        dbind (backward_f M pairs' s) (fun rest => dret (s :: rest)))
    end.

  (** ffbs_step (ffbs.py:66-131) *)
  Definition ffbs_step_f (gamma_0 : vec) (Gammas : list mat) (log_lik : list (list (option R)))
      (N : nat) (bound : R) : fdist (list nat) :=
    let M := length gamma_0 in
    let total := summ gamma_0 in
    if Req_EM_T total 0 then dfail                               (* :76-77, NaN *)
    else
      let gamma_0_normed := map (fun x => rnd (x / total)) gamma_0 in
      match broadcast Gammas N with
      | None => dfail
      | Some Gs =>
          match forward_f bound M (combine (transpose log_lik N) Gs) gamma_0_normed [] with
          | None => dfail
          | Some alphas_rev =>
              match alphas_rev with
              | [] => dfail                                      (* alphas[..., N - 1] with N = 0 *)
              | alpha_N :: earlier =>
                  dbind (normed_categorical_f alpha_N) (fun state_N =>      (* :112-115 *)
                  dbind (backward_f M (combine earlier (rev (tl Gs))) state_N) (fun rest =>
                  dret (rev (state_N :: rest))))                 (* :127-131 *)
              end
          end
      end.
End float.
