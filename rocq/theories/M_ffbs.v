(** Model of /repo/aemcmc/ffbs.py (ffbs_step, lines 9-131).

    Simplifications: real numbers instead of floats; no leading batch dimensions;
    a categorical draw is an abstract weighted choice, independent of the other draws
    ([srng] gives every call its own generator); the [updates] returned by [scan] are
    left out.  A log-likelihood is [None] when it is minus infinity. *)
From Verif Require Export LibDist.

(* the arrays gamma_0, alpha_n, beta_n: ffbs.py:9-14, 83-113 *)
Definition vec := list R.
(* one matrix of Gammas: ffbs.py:11, 81 *)
Definition mat := list (list R).

(* reading an entry: ffbs.py:84-107 *)
Definition vget (v : vec) (i : nat) : R := nth i v 0.
(* reading an entry, as in Gamma_np1[:, state_n]: ffbs.py:107 *)
Definition mget (G : mat) (i j : nat) : R := vget (nth i G []) j.

(** [log_lik.T]: one column of [log_lik] per time (ffbs.py:95); [N] is [log_lik.shape[-1]] (ffbs.py:70) *)
Definition column (log_lik : list (list (option R))) (n : nat) : list (option R) :=
  map (fun row => nth n row None) log_lik.

(* ffbs.py:95 *)
Definition transpose (log_lik : list (list (option R))) (N : nat) : list (list (option R)) :=
  map (column log_lik) (seq 0 N).

(** [at.broadcast_to(Gammas, (N,) + Gammas.shape[-2:])] (ffbs.py:81): a single
    matrix is repeated, [N] matrices are kept, anything else is an error *)
Definition broadcast (Gammas : list mat) (N : nat) : option (list mat) :=
  if Nat.eqb (length Gammas) N then Some Gammas
  else match Gammas with [G] => Some (repeat G N) | _ => None end.

(** [log_lik_n.max()]; minus infinity is below everything *)
(* ffbs.py:85 *)
Definition omax (a b : option R) : option R :=
  match a, b with
  | Some x, Some y => Some (Rmax x y)
  | Some x, None => Some x
  | None, y => y
  end.

(* ffbs.py:85 *)
Definition lmax (l : list (option R)) : option R := fold_right omax None l.

(** [at.exp(log_lik_n - log_lik_n.max())] (ffbs.py:85): minus infinity minus minus
    infinity is NaN *)
Definition lik (ll : list (option R)) : option vec :=
  match lmax ll with
  | None => None
  | Some m => Some (map (fun x => match x with Some a => exp (a - m) | None => 0 end) ll)
  end.

(** [at.dot(alpha_nm1, Gamma_n)] for [M] states *)
(* ffbs.py:86 *)
Definition vdot (M : nat) (a : vec) (G : mat) : vec :=
  map (fun j => nsum M (fun i => vget a i * mget G i j)) (seq 0 M).

(** elementwise product *)
(* ffbs.py:86, 107 *)
Definition vmul (M : nat) (a b : vec) : vec := map (fun i => vget a i * vget b i) (seq 0 M).

(** forward_step (ffbs.py:83-91) *)
Definition forward_step (bound : R) (M : nat) (ll : list (option R)) (Gamma_n : mat)
    (alpha_nm1 : vec) : option vec :=
  match lik ll with
  | None => None
  | Some lik_n =>
      let alpha_n := vmul M (vdot M alpha_nm1 Gamma_n) lik_n in
      let alpha_n_sum := lsum alpha_n in
      Some (if Rlt_dec alpha_n_sum bound then map (fun x => x / bound) alpha_n else alpha_n)
  end.

(** the forward [scan] (ffbs.py:93-101); the alphas are returned last first *)
Fixpoint forward (bound : R) (M : nat) (steps : list (list (option R) * mat)) (alpha : vec)
    (acc : list vec) : option (list vec) :=
  match steps with
  | [] => Some acc
  | (ll, G) :: steps' =>
      match forward_step bound M ll G alpha with
      | None => None
      | Some a => forward bound M steps' a (a :: acc)
      end
  end.

(** [w / w.sum()] then [srng.categorical]: division by zero gives NaN weights *)
(* ffbs.py:108-109, 113-115 *)
Definition normed_categorical (w : vec) : fdist nat :=
  let s := lsum w in
  if Req_EM_T s 0 then dfail else dcat (map (fun x => x / s) w).

(** backward_step (ffbs.py:105-110) *)
Definition backward_step (M : nat) (alpha_n : vec) (Gamma_np1 : mat) (state : nat) : fdist nat :=
  normed_categorical (vmul M alpha_n (map (fun i => mget Gamma_np1 i state) (seq 0 M))).

(** the backward [scan] over [alphas.T[:N-1]] and [Gammas[1:]], both read from the
    end ([go_backwards]) (ffbs.py:117-125) *)
Fixpoint backward (M : nat) (pairs : list (vec * mat)) (state : nat) : fdist (list nat) :=
  match pairs with
  | [] => dret []
  | (a, G) :: pairs' =>
      dbind (backward_step M a G state) (fun s =>
      dbind (backward M pairs' s) (fun rest => dret (s :: rest)))
  end.

(** ffbs_step (ffbs.py:66-131) *)
Definition ffbs_step (gamma_0 : vec) (Gammas : list mat) (log_lik : list (list (option R)))
    (N : nat) (bound : R) : fdist (list nat) :=
  let M := length gamma_0 in
  let total := lsum gamma_0 in
  if Req_EM_T total 0 then dfail                               (* :76-77, NaN *)
  else
    let gamma_0_normed := map (fun x => x / total) gamma_0 in
    match broadcast Gammas N with
    | None => dfail
    | Some Gs =>
        match forward bound M (combine (transpose log_lik N) Gs) gamma_0_normed [] with
        | None => dfail
        | Some alphas_rev =>
            match alphas_rev with
            | [] => dfail                                      (* alphas[..., N - 1] with N = 0 *)
            | alpha_N :: earlier =>
                dbind (normed_categorical alpha_N) (fun state_N =>      (* :112-115 *)
                dbind (backward M (combine earlier (rev (tl Gs))) state_N) (fun rest =>
                dret (rev (state_N :: rest))))                 (* :127-131 *)
            end
        end
    end.
