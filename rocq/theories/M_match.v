(** Model of the pattern matching in /repo/aemcmc/gibbs.py (horseshoe_match,
    gamma_match, nbinom_sigmoid_dot_match, bern_sigmoid_dot_match) and of the unification
    rules added in /repo/aemcmc/rewriting.py:243-265. *)
From Verif Require Export M_utils.
From Coq Require Export ZArith.

(** Names of the operators that appear in patterns *)
(* codes for the RandomVariable ops: conjugates.py:44-51, 114-123, 192-203; gibbs.py:136-143, 244-252, 325-343, 656-658; dists.py:11-29, 55 *)
Definition RV_normal := 0.
Definition RV_halfcauchy := 1.
Definition RV_gamma := 2.
Definition RV_beta := 3.
Definition RV_poisson := 4.
Definition RV_binomial := 5.
Definition RV_nbinom := 6.
Definition RV_bernoulli := 7.
Definition RV_exponential := 12.
Definition RV_polyagamma := 17.
Definition RV_standard_normal := 18.
(* codes for the Elemwise ops: gibbs.py:136-143, 241-257, 314-321, 541-548; conjugates.py:54-55, 126-128, 205-206 *)
Definition E_add := 0.
Definition E_mul := 1.
Definition E_sub := 2.
Definition E_sigmoid := 3.
Definition E_truediv := 4.
Definition E_pow := 5.
Definition E_neg := 6.
Definition E_log := 7.
Definition E_reciprocal := 8.
Definition E_sqrt := 9.
Definition E_gt := 10.
(* code for the Dot op: gibbs.py:314-321 *)
Definition K_dot := 0.

(** A numpy array: nested lists of numbers (only equality with -1 matters) *)
(* the [data] of a constant: gibbs.py:354, 670 *)
Inductive ndarray := NScalar (z : Z) | NList (l : list ndarray).

(** What Aesara knows about types and constants *)
(* .type.ndim, .type.shape and .data: gibbs.py:172-177, 354, 670 *)
Record typing := Typing {
  a_ndim : vtype -> nat;
  a_shape : vtype -> list (option nat);           (* static shape *)
  a_data : nat -> ndarray;                        (* the value of a constant *)
}.

(** Patterns: a logic variable, an anonymous [var()], or an [etuple] of an operator and
    argument patterns.  Every logic variable occurs once in every pattern of the code. *)
(* the etuples of gibbs.py:136-143, 318-325, 341-343, 656-658 and conjugates.py:44-51, 114-123, 192-203 *)
Inductive pat :=
  | PLv (i : nat)
  | PAny
  | PEt (o : op) (args : list pat).

(** Unification of operators: equality, except that a SubsumingElemwise unifies through
    its [elemwise_op] (rewriting.py:243-258) *)
Definition op_unify (po o : op) : bool :=
  match o with
  | OSubsume s _ => bool_decide (po = OElem s)
  | _ => bool_decide (po = o)
  end.

(** [unify(etuplize(v), pattern)]: a variable with an owner is the etuple of the owner's
    operator and inputs (the output index is not part of it); anything else is a leaf.
    The substitution maps logic variables to variables of the graph
    ([eval_if_etuple] gives back the variable an etuple was made from). *)
(* gibbs.py:149, 330, 350, 666; conjugates.py:78, 152, 229 *)
Fixpoint umatch (h : heap) (p : pat) (v : vid) (s : dict nat nat) {struct p} : option (dict nat nat) :=
  match p with
  | PLv i => Some (dset s i v)
  | PAny => Some s
  | PEt o ps =>
      match owner h v with
      | None => None
      | Some (n, _) =>
          match hn h n with
          | None => None
          | Some nd =>
              if op_unify o (n_op nd) then
                (fix go (ps : list pat) (vs : list vid) (s : dict nat nat) : option (dict nat nat) :=
                   match ps, vs with
                   | [], [] => Some s
                   | p :: ps', v :: vs' => match umatch h p v s with Some s' => go ps' vs' s' | None => None end
                   | _, _ => None
                   end) ps (n_ins nd) s
              else None
          end
      end
  end.

(** ** horseshoe_match (gibbs.py:134-184) *)
(* gibbs.py:134-135 *)
Definition halfcauchy_1_lv := 1.
Definition halfcauchy_2_lv := 2.
Definition zero_lv := 0.
Definition horseshoe_pattern : pat :=                                    (* :136-143 *)
  PEt (ORV RV_normal) [PAny; PAny; PAny; PLv zero_lv;
    PEt (OElem E_mul) [PLv halfcauchy_1_lv; PLv halfcauchy_2_lv]].

(** [v.owner is not None and isinstance(v.owner.op, type(at.random.halfcauchy))] *)
(* gibbs.py:153-170 *)
Definition is_halfcauchy (h : heap) (v : vid) : bool :=
  match owner_op h v with Some (ORV d) => bool_decide (d = RV_halfcauchy) | _ => false end.

(** [v.type.ndim == 0 or all(s == 1 for s in v.type.shape)] *)
(* gibbs.py:172-177 *)
Definition scalar_like (A : typing) (h : heap) (v : vid) : bool :=
  match ty_of h v with
  | Some ty => bool_decide (a_ndim A ty = 0) || forallb (fun s => bool_decide (s = Some 1)) (a_shape A ty)
  | None => false
  end.

Definition horseshoe_match (A : typing) (h : heap) (graph : vid) : result (vid * vid) :=
  match umatch h horseshoe_pattern graph [] with
  | None => Raise ValueError                                             (* :150-151 *)
  | Some s =>
      match dget s halfcauchy_1_lv, dget s halfcauchy_2_lv with
      | Some halfcauchy_1, Some halfcauchy_2 =>
          if is_halfcauchy h halfcauchy_1 then                           (* :153-160 *)
            if is_halfcauchy h halfcauchy_2 then                         (* :162-170 *)
              if scalar_like A h halfcauchy_1 then Ok (halfcauchy_2, halfcauchy_1)      (* :172-174 *)
              else if scalar_like A h halfcauchy_2 then Ok (halfcauchy_1, halfcauchy_2) (* :175-177 *)
              else Raise ValueError                                      (* :178-182 *)
            else Raise ValueError
          else Raise ValueError
      | _, _ => Raise KeyError
      end
  end.

(** ** gamma_match (gibbs.py:323-337) *)
Definition a_lv := 6.
Definition b_lv := 7.
Definition gamma_pattern : pat := PEt (ORV RV_gamma) [PAny; PAny; PAny; PLv a_lv; PLv b_lv].

Definition gamma_match (h : heap) (graph : vid) : result (vid * vid) :=
  match umatch h gamma_pattern graph [] with
  | None => Raise ValueError
  | Some s => match dget s a_lv, dget s b_lv with
              | Some a, Some b => Ok (a, b)
              | _, _ => Raise KeyError
              end
  end.

(** ** The regressions (gibbs.py:314-321, 340-364, 656-679) *)
Definition X_lv := 3.
Definition beta_lv := 4.
Definition neg_one_lv := 5.
Definition h_lv := 8.
Definition sigmoid_dot_pattern : pat :=
  PEt (OElem E_sigmoid) [PEt (OElem E_mul) [PLv neg_one_lv; PEt (OOther K_dot) [PLv X_lv; PLv beta_lv]]].
Definition nbinom_sigmoid_dot_pattern : pat :=
  PEt (ORV RV_nbinom) [PAny; PAny; PAny; PLv h_lv; sigmoid_dot_pattern].
Definition bernoulli_sigmoid_dot_pattern : pat :=
  PEt (ORV RV_bernoulli) [PAny; PAny; PAny; sigmoid_dot_pattern].

(** [bool(x)] for an array of booleans, given by its elements *)
Definition np_bool (xs : list bool) : result bool :=
  match xs with [] => Ok false | [b] => Ok b | _ => Raise ValueError end.

(** the elements of [x != -1] *)
Fixpoint ne_minus1 (x : ndarray) : list bool :=
  match x with
  | NScalar z => [negb (Z.eqb z (-1))]
  | NList l => flat_map ne_minus1 l
  end.

(** Python's [all(x != -1)]: iterate over the first axis *)
Fixpoint py_all (rows : list ndarray) : result bool :=
  match rows with
  | [] => Ok true
  | r :: rows' => rbind (np_bool (ne_minus1 r)) (fun b => if b : bool then py_all rows' else Ok false)
  end.
Definition all_ne_minus1 (x : ndarray) : result bool :=
  match x with NScalar _ => Raise TypeError | NList rows => py_all rows end.

(** [s[neg_one_lv].data]: only constants have it *)
Definition data_of (A : typing) (h : heap) (v : vid) : result ndarray :=
  match hv h v with
  | Some (Var _ _ (KConst c) None) => Ok (a_data A c)
  | _ => Raise AttributeError
  end.

(** the test of gibbs.py:354-358 and :670-674 *)
Definition check_neg_one (A : typing) (h : heap) (s : dict nat nat) : result unit :=
  match dget s neg_one_lv with
  | None => Raise KeyError
  | Some c =>
      rbind (data_of A h c) (fun data =>
      rbind (all_ne_minus1 data) (fun b => if b : bool then Raise ValueError else Ok tt))
  end.

Definition nbinom_sigmoid_dot_match (A : typing) (h : heap) (graph : vid) : result (vid * vid * vid) :=
  match umatch h nbinom_sigmoid_dot_pattern graph [] with
  | None => Raise ValueError
  | Some s =>
      rbind (check_neg_one A h s) (fun _ =>
      match dget s X_lv, dget s h_lv, dget s beta_lv with
      | Some X, Some hh, Some beta_rv => Ok (X, hh, beta_rv)
      | _, _, _ => Raise KeyError
      end)
  end.

Definition bern_sigmoid_dot_match (A : typing) (h : heap) (graph : vid) : result (vid * vid) :=
  match umatch h bernoulli_sigmoid_dot_pattern graph [] with
  | None => Raise ValueError
  | Some s =>
      rbind (check_neg_one A h s) (fun _ =>
      match dget s X_lv, dget s beta_lv with
      | Some X, Some beta_rv => Ok (X, beta_rv)
      | _, _ => Raise KeyError
      end)
  end.
