(** Specifications for /repo/aemcmc/utils.py, in terms of the arguments only. *)
From Verif Require Export M_utils S_graph.

(** [v] takes part in the model description: it is observed, has a value, is a
    value, or is a tracked deterministic variable *)
Definition tracked (obs : list vid) (r2v : dict nat nat) (det : list vid) (v : vid) : Prop :=
  v ∈ obs \/ v ∈ det \/ (exists w, (v, w) ∈ r2v) \/ (exists k, (k, v) ∈ r2v).

Definition named (h : heap) (v : vid) (s : string) : Prop :=
  name_of h v = Some s /\ s <> EmptyString.

(** The conditions under which a description is meaningful *)
Definition has_values (obs : list vid) (r2v : dict nat nat) : Prop :=
  forall o, o ∈ obs -> exists w, (o, w) ∈ r2v.
Definition all_named (h : heap) (P : vid -> Prop) : Prop :=
  forall v, P v -> exists s, named h v s.
Definition names_unique (h : heap) (P : vid -> Prop) : Prop :=
  forall v w s, P v -> P w -> named h v s -> named h w s -> v = w.

(** A Python set may be iterated in any order *)
Definition set_order (iter : list vid -> list vid) : Prop := forall l, iter l ≡ₚ l.

(** The update that sampling must apply to shared variable [v]: its own default
    update, or else the one recorded by the stream *)
Definition wanted_update (h : heap) (state_updates : list (vid * vid)) (v u : vid) : Prop :=
  exists x, hv h v = Some x /\
    (v_kind x = KShared (Some u) \/
     (v_kind x = KShared None /\ (v, u) ∈ state_updates)).

(** A variable on which get_rv_updates gives up *)
Definition rng_not_shared (h : heap) (v : vid) : Prop :=
  exists x, hv h v = Some x /\ ty_random (v_ty x) = true /\ forall u, v_kind x <> KShared u.
Definition conflicting_update (h : heap) (state_updates : list (vid * vid)) (v : vid) : Prop :=
  exists x u u', hv h v = Some x /\ v_kind x = KShared (Some u) /\
    (v, u') ∈ state_updates /\ u <> u'.
