(** Property theorems (generated by tools/genprop.py from Pf_Scale.v, which holds the proofs). *)
From Coq Require Import ZArith QArith Qreals Reals Lra Lia List Bool.
From Verif Require Import Num Py Tensor M_Constants M_SolversOde M_Utils M_Interp M_Odeint L_Rel L_Lin L_Base.
Import ListNotations.
Local Notation length := List.length.
From Verif Require Import Pf_Scale.
Import ListNotations.
Local Open Scope R_scope.

(** C167: a solve in another unit of the state: the field, the initial state and, multiplied by |c|, the absolute
    tolerance; every built-in solver and hypersolver, every option.  The calls, the times, the exceptions are the same,
    the states are those of the original solve in the new unit *)
Theorem C167_units : forall c fuel s s' f x ts atol rtol interp all save_at semi, c <> 0 -> solver_in_unit c s s' ->
  @odeint ROps fuel (field_in_unit c f) (in_unit c x) ts s' (Rabs c * atol) rtol interp all save_at semi =
  outcome_in_unit c (@odeint ROps fuel f x ts s atol rtol interp all save_at semi).
Proof. exact C167_units_pf. Qed.
Print Assumptions C167_units.

(** C167: the same for hybrid solves *)
Theorem C167_units_hybrid : forall c fuel s s' f x ts j_span events atol rtol etol first semi, c <> 0 -> solver_in_unit c s s' ->
  @odeint_hybrid ROps fuel (field_in_unit c f) (in_unit c x) ts j_span s' (map (event_in_unit c) events) (Rabs c * atol) rtol etol first semi =
  outcome_in_unit c (@odeint_hybrid ROps fuel f x ts j_span s events atol rtol etol first semi).
Proof. exact C167_units_hybrid_pf. Qed.
Print Assumptions C167_units_hybrid.

(** y' = y^2 in metres and in millimetres: the field for millimetres is y^2 / 1000 *)
Example C167_ex : forall t y, field_in_unit 1000 (fun _ x => map (fun a => a * a) x) t [y] = [y * y / 1000] /\ Rabs 1000 * (1 / 1000) = 1.
Proof. exact C167_ex_pf. Qed.

