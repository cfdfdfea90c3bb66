(** Specification: a program of draws of arrays does the same as a program of draws of
    vectors of independent variables (M_horseshoe). *)
From Verif Require Export S_code S_horseshoe.
Global Open Scope nat_scope.

(** the local scales have shape [s], the global one shape [o] *)
Inductive meets (s o : list nat) : tprog -> prog ((nat -> R) * R) -> Prop :=
  | meets_ret l t lam tau :
      t_shape l = s -> components s l lam -> t_shape t = o -> components o t (fun _ => tau) ->
      meets s o (TRet [l; t]) (Ret (lam, tau))
  | meets_exponential a sh arg k k' :
      components sh a arg ->
      (forall v, drawn RV_exponential sh v -> meets s o (k v) (k' (entries v))) ->
      meets s o (TDraw RV_exponential [a] sh k) (Draw (NExponential (size_of sh) arg) k')
  | meets_gamma a b sh shape rate k k' :
      components sh a shape -> components sh b (fun j => / rate j)%R ->   (* numpy: shape and scale *)
      (forall v, drawn RV_gamma sh v -> meets s o (k v) (k' (entries v))) ->
      meets s o (TDraw RV_gamma [a; b] sh k) (Draw (NGamma (size_of sh) shape rate) k').

(** an array of shape [s] with positive components *)
Definition positive_array (s : list nat) (x : tensor R) : Prop :=
  tensor_ok x /\ t_shape x = s /\ Forall (fun a => 0 < a)%R (t_data x).
