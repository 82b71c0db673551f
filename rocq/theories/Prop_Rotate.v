(** Property theorems (generated by tools/genprop.py from Pf_Rotate.v, which holds the proofs). *)
From Coq Require Import ZArith QArith Qreals Reals Lra Lia List Bool.
From Verif Require Import Num Py Tensor M_Constants M_SolversOde M_Utils M_Interp M_Odeint L_Rel L_Lin L_Base Spec_Ode.
Import ListNotations.
Local Notation length := List.length.
From Verif Require Import Pf_Rotate.
Import ListNotations.
Local Open Scope R_scope.

(** C170: a solve in rotated coordinates with an absolute tolerance only; every built-in solver and hypersolver, every other
    option.  The calls, the times, the exceptions are the same, the states are the rotated ones *)
Theorem C170_rotations : forall n Q fuel s s' f g x ts atol interp all save_at, isometry n Q -> rotated_solver n Q s s' ->
  rotated_field n Q f g -> List.length x = n -> atol <> 0 ->
  @odeint ROps fuel g (Q x) ts s' atol 0 interp all save_at None =
  rotated_outcome Q (@odeint ROps fuel f x ts s atol 0 interp all save_at None).
Proof. exact C170_rotations_pf. Qed.
Print Assumptions C170_rotations.

(** C170: the same for hybrid solves *)
Theorem C170_rotations_hybrid : forall n Q fuel s s' f g x ts j_span events events' atol etol first, isometry n Q -> rotated_solver n Q s s' ->
  rotated_field n Q f g -> Forall2 (rotated_event n Q) events events' -> List.length x = n -> atol <> 0 ->
  @odeint_hybrid ROps fuel g (Q x) ts j_span s' events' atol 0 etol first None =
  rotated_outcome Q (@odeint_hybrid ROps fuel f x ts j_span s events atol 0 etol first None).
Proof. exact C170_rotations_hybrid_pf. Qed.
Print Assumptions C170_rotations_hybrid.

Example C170_ex : isometry 2 turn /\ rotated_field 2 turn spring (fun t z => turn (spring t (unturn z))) /\ turn [1; 0] = [3 / 5; 4 / 5].
Proof. exact C170_ex_pf. Qed.

