(** Model of /repo/aemcmc/ffbs.py (ffbs_step, lines 66-131) when [gamma_0] and [log_lik] have one
    leading batch dimension: [gamma_0] of shape (B, M), [log_lik] of shape (B, M, N); [Gammas] as
    in M_ffbs (one more dimension cannot pass broadcast_to, line 81).

    Simplifications: those of M_ffbs.  An elementwise operation on shapes that do not broadcast
    is an error.  A vector of draws is drawn component by component, with the weights given; if
    the weights of a row do not sum to one, only which draws have a weight is meant. *)
From Verif Require Export M_ffbs.

(** an elementwise operation on a matrix with [c] columns and a vector: numpy's rule pairs the
    last axis of the matrix with the vector *)
Definition on_last (c : nat) (f : R -> R -> R) (m : mat) (v : vec) : option mat :=
  if Nat.eqb (length v) c then Some (map (fun row => map (fun j => f (vget row j) (vget v j)) (seq 0 c)) m)
  else if Nat.eqb (length v) 1 then Some (map (fun row => map (fun j => f (vget row j) (vget v 0)) (seq 0 c)) m)
  else if Nat.eqb c 1 then Some (map (fun row => map (fun j => f (vget row 0) (vget v j)) (seq 0 (length v))) m)
  else None.

(** the transpose of a matrix with [c] columns *)
(* the transposes in ffbs.py:95, 103, 106, 119 *)
Definition mtrans (c : nat) (m : mat) : mat := map (fun j => map (fun row => vget row j) m) (seq 0 c).

(** [log_lik.T[n].T]: the log-likelihoods at time [n], of shape (B, M) (ffbs.py:84, 95) *)
Definition columns (log_lik : list (list (list (option R)))) (n : nat) : list (list (option R)) :=
  map (fun ll => column ll n) log_lik.

(** [at.exp(log_lik_n - log_lik_n.max())] (ffbs.py:85): the maximum is over all entries *)
Definition liks (ll : list (list (option R))) : option mat :=
  match lmax (concat ll) with
  | None => None
  | Some m => Some (map (map (fun x => match x with Some a => exp (a - m) | None => 0 end)) ll)
  end.

(** forward_step (ffbs.py:83-91): the condition of [switch] has shape (B,), its branches (B, M) *)
Definition forward_step_b (bound : R) (M : nat) (ll : list (list (option R))) (Gamma_n : mat) (alpha_nm1 : mat) : option mat :=
  match liks ll with
  | None => None
  | Some lik_n =>
      let alpha_n := map (fun p => vmul M (vdot M (fst p) Gamma_n) (snd p)) (combine alpha_nm1 lik_n) in
      let alpha_n_sum := map lsum alpha_n in
      on_last M (fun a s => if Rlt_dec s bound then a / bound else a) alpha_n alpha_n_sum
  end.

(** the forward [scan] (ffbs.py:93-101); the alphas are returned last first *)
Fixpoint forward_b (bound : R) (M : nat) (steps : list (list (list (option R)) * mat)) (alpha : mat) (acc : list mat)
    : option (list mat) :=
  match steps with
  | [] => Some acc
  | (ll, G) :: steps' =>
      match forward_step_b bound M ll G alpha with
      | None => None
      | Some a => forward_b bound M steps' a (a :: acc)
      end
  end.

(** [srng.categorical] of a matrix: one draw per row *)
(* ffbs.py:109, 115 *)
Fixpoint categorical_rows (rows : mat) : fdist (list nat) :=
  match rows with
  | [] => dret []
  | row :: rows' => dbind (dcat row) (fun s => dbind (categorical_rows rows') (fun ss => dret (s :: ss)))
  end.

(** [w / w.sum(axis=-1)], then [srng.categorical], for a matrix [w] with [c] columns *)
(* ffbs.py:108-109, 113-115 *)
Definition normed_categorical_b (c : nat) (w : mat) : fdist (list nat) :=
  if in_dec Req_EM_T 0 (map lsum w) then dfail
  else match on_last c Rdiv w (map lsum w) with None => dfail | Some q => categorical_rows q end.

(** elementwise product of two matrices with [c] and [length states] columns (ffbs.py:107) *)
Definition times_gamma (c : nat) (a : mat) (Gamma_np1 : mat) (states : list nat) : option (nat * mat) :=
  let col i k := mget Gamma_np1 i (nth k states 0%nat) in
  let rows n f := map (fun p => map (f (fst p) (snd p)) (seq 0 n)) (combine (seq 0 (length a)) a) in
  if Nat.eqb (length states) c then Some (c, rows c (fun i row k => vget row k * col i k))
  else if Nat.eqb (length states) 1 then Some (c, rows c (fun i row k => vget row k * col i 0%nat))
  else if Nat.eqb c 1 then Some (length states, rows (length states) (fun i row k => vget row 0 * col i k))
  else None.

(** backward_step (ffbs.py:105-110): [alphas_T_n.T] has shape (M, B) *)
Definition backward_step_b (B M : nat) (alpha_n : mat) (Gamma_np1 : mat) (states : list nat) : fdist (list nat) :=
  match times_gamma B (mtrans M alpha_n) Gamma_np1 states with
  | None => dfail
  | Some (c, beta_n) => normed_categorical_b c beta_n
  end.

Fixpoint backward_b (B M : nat) (pairs : list (mat * mat)) (states : list nat) : fdist (list (list nat)) :=
  match pairs with
  | [] => dret []
  | (a, G) :: pairs' =>
      dbind (backward_step_b B M a G states) (fun s =>
      dbind (backward_b B M pairs' s) (fun rest => dret (s :: rest)))
  end.

(** ffbs_step (ffbs.py:66-131); [alphas[..., N - 1]] is taken from [alphas.T] and has shape (M, B)
    (lines 103, 112) *)
Definition ffbs_step_b (M : nat) (gamma_0 : mat) (Gammas : list mat) (log_lik : list (list (list (option R))))
    (N : nat) (bound : R) : fdist (list (list nat)) :=
  let B := length gamma_0 in
  let total := lsum (map lsum gamma_0) in
  if Req_EM_T total 0 then dfail
  else
    let gamma_0_normed := map (map (fun x => x / total)) gamma_0 in
    match broadcast Gammas N with
    | None => dfail
    | Some Gs =>
        match forward_b bound M (combine (map (columns log_lik) (seq 0 N)) Gs) gamma_0_normed [] with
        | None => dfail
        | Some [] => dfail
        | Some (alpha_N :: earlier) =>
            dbind (normed_categorical_b B (mtrans M alpha_N)) (fun states_N =>
            dbind (backward_b B M (combine earlier (rev (tl Gs))) states_N) (fun rest =>
            dret (rev (states_N :: rest))))
        end
    end.
