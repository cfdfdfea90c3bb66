(** Model of /repo/aemcmc/conjugates.py. *)
From Verif Require Export M_build.

(** A finder, called on a node of the function graph.  It returns the changed heap (only
    new objects) and what the decorated function does. *)
(* the functions decorated in conjugates.py:70, 144, 221 and gibbs.py:264, 569, 743 *)
Definition finder : Type := heap -> nid -> heap * outcome.

(* the logic variables of conjugates.py:44-47, 115-122, 193-200 *)
Definition rng_lv := 0.
Definition size_lv := 1.
Definition dtype_lv := 2.
Definition alpha_lv := 3.
Definition prior_beta_lv := 4.
Definition n_lv := 5.

(** conjugates.py:44-51 *)
Definition gamma_poisson_pattern : pat :=
  PEt (ORV RV_poisson) [PAny; PAny; PAny;
    PEt (ORV RV_gamma) [PLv rng_lv; PLv size_lv; PLv dtype_lv; PLv alpha_lv; PLv prior_beta_lv]].
(** conjugates.py:114-123 *)
Definition beta_binomial_pattern : pat :=
  PEt (ORV RV_binomial) [PAny; PAny; PAny; PLv n_lv;
    PEt (ORV RV_beta) [PLv rng_lv; PLv size_lv; PLv dtype_lv; PLv alpha_lv; PLv prior_beta_lv]].
(** conjugates.py:192-203 *)
Definition beta_nb_pattern : pat :=
  PEt (ORV RV_nbinom) [PAny; PAny; PAny; PLv n_lv;
    PEt (ORV RV_beta) [PLv rng_lv; PLv size_lv; PLv dtype_lv; PLv alpha_lv; PLv prior_beta_lv]].

(** gamma_poisson_conjugateo (conjugates.py:54-62) *)
Definition gamma_poisson_posterior (B : builder) (h : heap) (y size dtype alpha beta : vid) : heap * vid :=
  let '(h1, new_alpha) := mk_elem B h E_add [alpha; y] in
  let '(h2, one) := mk_const h1 (b_int B 1) in
  let '(h3, new_beta) := mk_elem B h2 E_add [beta; one] in
  gen_gamma B h3 size dtype new_alpha new_beta.

(** beta_binomial_conjugateo (conjugates.py:126-136) *)
Definition beta_binomial_posterior (B : builder) (h : heap) (y size dtype alpha beta n : vid) : heap * vid :=
  let '(h1, new_alpha) := mk_elem B h E_add [alpha; y] in
  let '(h2, sum) := mk_elem B h1 E_add [beta; n] in
  let '(h3, new_beta) := mk_elem B h2 E_sub [sum; y] in
  gen_beta B h3 size dtype new_alpha new_beta.

(** beta_negative_binomial_conjugateo (conjugates.py:205-213) *)
Definition beta_nb_posterior (B : builder) (h : heap) (y size dtype alpha beta n : vid) : heap * vid :=
  let '(h1, new_alpha) := mk_elem B h E_add [alpha; y] in
  let '(h2, new_beta) := mk_elem B h1 E_add [beta; n] in
  gen_beta B h2 size dtype new_alpha new_beta.

(** [rv_var = node.outputs[1]] *)
(* conjugates.py:72, 146, 223 *)
Definition with_rv (h : heap) (n : nid) (f : node -> vid -> heap * outcome) : heap * outcome :=
  match hn h n with
  | None => (h, Raise AttributeError)
  | Some nd => match n_outs nd !! 1 with Some v => f nd v | None => (h, Raise IndexError) end
  end.

(** local_gamma_poisson_posterior (conjugates.py:70-87); [None] is the empty list.
    [rv_et[-1]] is the last input of the node. *)
Definition local_gamma_poisson_posterior (B : builder) : finder := fun h n =>
  with_rv h n (fun nd y =>
  match umatch h gamma_poisson_pattern y [] with
  | None => (h, Ok [])
  | Some s =>
      match dget s size_lv, dget s dtype_lv, dget s alpha_lv, dget s prior_beta_lv, last (n_ins nd) with
      | Some size, Some dtype, Some alpha, Some beta, Some gamma_rv =>
          let '(h1, post) := gamma_poisson_posterior B h y size dtype alpha beta in
          (h1, Ok [(gamma_rv, post, [])])
      | _, _, _, _, _ => (h, Raise KeyError)
      end
  end).

(** local_beta_binomial_posterior (conjugates.py:144-161) *)
Definition local_beta_binomial_posterior (B : builder) : finder := fun h n =>
  with_rv h n (fun nd y =>
  match umatch h beta_binomial_pattern y [] with
  | None => (h, Ok [])
  | Some s =>
      match dget s size_lv, dget s dtype_lv, dget s alpha_lv, dget s prior_beta_lv, dget s n_lv, last (n_ins nd) with
      | Some size, Some dtype, Some alpha, Some beta, Some nn, Some beta_rv =>
          let '(h1, post) := beta_binomial_posterior B h y size dtype alpha beta nn in
          (h1, Ok [(beta_rv, post, [])])
      | _, _, _, _, _, _ => (h, Raise KeyError)
      end
  end).

(** local_beta_negative_binomial_posterior (conjugates.py:221-238) *)
Definition local_beta_negative_binomial_posterior (B : builder) : finder := fun h n =>
  with_rv h n (fun nd y =>
  match umatch h beta_nb_pattern y [] with
  | None => (h, Ok [])
  | Some s =>
      match dget s size_lv, dget s dtype_lv, dget s alpha_lv, dget s prior_beta_lv, dget s n_lv, last (n_ins nd) with
      | Some size, Some dtype, Some alpha, Some beta, Some nn, Some beta_rv =>
          let '(h1, post) := beta_nb_posterior B h y size dtype alpha beta nn in
          (h1, Ok [(beta_rv, post, [])])
      | _, _, _, _, _, _ => (h, Raise KeyError)
      end
  end).
