(** Model of /repo/aemcmc/utils.py. *)
From Verif Require Export M_graph.

(** ** ModelInfo (utils.py:14-70) *)

Record model_info := ModelInfo {
  mi_observed_rvs : list vid;
  mi_rvs_to_values : dict nat nat;
  mi_deterministic_vars : list vid;
  mi_values_to_rvs : dict nat nat;
  mi_names_to_vars : dict string nat;
  mi_observed_values : list vid;
  mi_unobserved_rvs : list vid;
  mi_unobserved_values : list vid;
}.

(** [tuple(d[k] for k in ks)]: a missing key is a [KeyError] *)
(* utils.py:50, 54 *)
Fixpoint getitems (d : dict nat nat) (ks : list nat) : result (list nat) :=
  match ks with
  | [] => Ok []
  | k :: ks' =>
      match dget d k with
      | None => Raise KeyError
      | Some v => rbind (getitems d ks') (fun vs => Ok (v :: vs))
      end
  end.

(** [v.name] is truthy: neither [None] nor the empty string *)
(* utils.py:64 *)
Definition truthy_name (h : heap) (v : vid) : option string :=
  match name_of h v with
  | Some s => if decide (s = EmptyString) then None else Some s
  | None => None
  end.

(** __post_init__ (utils.py:36-70).  [iter] is the iteration order of a Python
    set: an arbitrary rearrangement of the distinct members.  The [updates]
    field is only stored and is left out. *)
Definition model_info_post_init (h : heap) (iter : list vid -> list vid)
    (observed : list vid) (rvs_to_values : dict nat nat) (determ : list vid)
    : result model_info :=
  (* utils.py:37-39 *)
  let values_to_rvs := dof (map (fun '(k, v) => (v, k)) rvs_to_values) in
  (* utils.py:41-42 *)
  let all_rvs := observed ++ dkeys rvs_to_values in
  (* utils.py:44-47 *)
  let unobserved := filter (fun k => k ∉ observed) (dkeys rvs_to_values) in
  (* utils.py:48-51 *)
  rbind (getitems rvs_to_values unobserved) (fun unobserved_values =>
  (* utils.py:52-55 *)
  rbind (getitems rvs_to_values observed) (fun observed_values =>
  (* utils.py:57-62 *)
  let all_vars :=
    iter (remove_dups (all_rvs ++ determ ++ observed_values ++ unobserved_values)) in
  (* utils.py:64-65 *)
  match mapM (truthy_name h) all_vars with
  | None => Raise ValueError
  | Some names =>
      (* utils.py:67 *)
      let names_to_vars := dof (zip names all_vars) in
      (* utils.py:69-70 *)
      if decide (length names_to_vars = length all_vars) then
        Ok (ModelInfo observed rvs_to_values determ values_to_rvs names_to_vars
              observed_values unobserved unobserved_values)
      else Raise ValueError
  end)).

(** ** remove_constants (utils.py:73-80).  An input is a variable of the heap or a
    plain Python number, which [as_tensor_variable] turns into a [Constant]. *)
Inductive pyinput := PVar (v : vid) | PNum (z : Z).

Definition is_constant (h : heap) (v : vid) : bool :=
  match hv h v with Some (Var _ _ (KConst _) _) => true | _ => false end.

Fixpoint remove_constants (h : heap) (inputs : list pyinput) : list vid :=
  match inputs with
  | [] => []
  | PNum _ :: inputs' => remove_constants h inputs'
  | PVar v :: inputs' =>
      if is_constant h v then remove_constants h inputs' else v :: remove_constants h inputs'
  end.

(** ** get_rv_updates (utils.py:83-129).  [anc] is what [ancestors(rvs)] yields,
    in whatever order; [srng_updates] is [dict(srng.state_updates)]. *)
Fixpoint rv_updates_loop (h : heap) (srng_updates : dict nat nat) (anc : list vid)
    (rv_updates : dict nat nat) : result (dict nat nat) :=
  match anc with
  | [] => Ok rv_updates
  | v :: anc' =>
      match hv h v with
      | None => rv_updates_loop h srng_updates anc' rv_updates
      | Some x =>
          match v_kind x with
          | KShared du =>
              let srng_update := dget srng_updates v in
              match du with
              | Some u =>                                     (* utils.py:120 *)
                  match srng_update with
                  | Some u' =>                                (* utils.py:121-122 *)
                      if decide (u' = u) then
                        rv_updates_loop h srng_updates anc' (dset rv_updates v u)
                      else Raise AssertionError
                  | None => rv_updates_loop h srng_updates anc' (dset rv_updates v u)
                  end
              | None =>
                  match srng_update with
                  | Some u' =>                                (* utils.py:126-127 *)
                      rv_updates_loop h srng_updates anc' (dset rv_updates v u')
                  | None => rv_updates_loop h srng_updates anc' rv_updates
                  end
              end
          | _ =>
              (* utils.py:110: skipped unless its type is a [RandomType]; in that
                 case utils.py:120 reads [default_update], which only shared
                 variables have *)
              if ty_random (v_ty x) then Raise AttributeError
              else rv_updates_loop h srng_updates anc' rv_updates
          end
      end
  end.

Definition get_rv_updates (h : heap) (state_updates : list (vid * vid)) (anc : list vid)
    : result (dict nat nat) :=
  rv_updates_loop h (dof state_updates) anc [].
