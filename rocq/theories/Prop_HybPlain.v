(** Property theorems (generated by tools/genprop.py from Pf_HybPlain.v, which holds the proofs). *)
From Coq Require Import ZArith QArith Qreals Reals Lra Lia String List Bool Sorted.
From Verif Require Import Num Py Tensor M_Constants M_SolversOde M_Utils M_Interp M_Odeint.
From Verif Require Import Spec_Ode Spec_Trees Spec_RK Spec_Norm Spec_Adaptive Spec_Hybrid.
From Verif Require Import L_Base L_Fixed L_Vec L_Steps L_Tables L_Steps2 L_Interp L_Utils L_Fixed2 L_Adaptive L_Run.
From Verif Require Import L_Adaptive2 L_Nan L_Hybrid L_Hybrid2 Pf_Adaptive Pf_Hybrid Pf_Inv.
From Verif Require Pf_AdGrad.
Import ListNotations.
Local Notation length := List.length.
From Verif Require Import Pf_HybPlain.
Import ListNotations.
Local Open Scope R_scope.

(** With two times (start and end), callbacks that never fire and any adaptive solver, odeint_hybrid makes the same calls of the field and
    has the same outcome as odeint with all evaluations returned, whatever the event tolerance, the priority and the interpolator are. *)
Theorem C188_plain_partial :
  forall fuel f x t0 T j_span s cbs atol rtol etol jump_first interp save_at semi,
  s_fixed s = false -> t0 <= T -> (1 <= j_span)%nat -> (forall t y, ~ fires cbs t y) ->
  @odeint_hybrid ROps fuel f x [t0; T] j_span s (mkcbs cbs) atol rtol etol jump_first semi =
  @odeint ROps fuel f x (@TTensor ROps [t0; T]) s atol rtol interp true save_at semi.
Proof. exact C188_plain_partial_pf. Qed.
Print Assumptions C188_plain_partial.

(** In reversed time odeint_hybrid does not integrate at all: it returns the initial state as the only output. *)
Theorem C188_reversed_refuted :
  forall fuel f x t0 T j_span s cbs atol rtol etol jump_first semi, T < t0 -> (forall t y, ~ fires cbs t y) ->
  snd (@odeint_hybrid ROps fuel f x [t0; T] j_span s (mkcbs cbs) atol rtol etol jump_first semi) = Ok ([t0], [x]).
Proof. exact C188_reversed_refuted_pf. Qed.
Print Assumptions C188_reversed_refuted.

(** With an inner time that a step meets by itself, odeint_hybrid without callbacks adds a step of length zero and returns that time twice;
    odeint never does so. *)
Theorem C188_grid_refuted :
  exists (f : R -> list R -> list R) (x : list R) (t1 T : R), increasing [0; t1; T] /\ field_on 1 f /\
  (forall fuel etol, (3 <= fuel)%nat ->
    snd (@odeint_hybrid ROps fuel f x [0; t1; T] 1 (DormandPrince45 ROps) (mkcbs []) (1 / 1000) (1 / 1000) etol true None) =
      Ok ([0; t1; t1; T], [x; x; x; x])) /\
  (forall fuel times sol, snd (@odeint ROps fuel f x (@TTensor ROps [0; t1; T]) (DormandPrince45 ROps) (1 / 1000) (1 / 1000) false true [] None) = Ok (times, sol) ->
     increasing times) /\
  exists fuel r, snd (@odeint ROps fuel f x (@TTensor ROps [0; t1; T]) (DormandPrince45 ROps) (1 / 1000) (1 / 1000) false true [] None) = Ok r.
Proof. exact C188_grid_refuted_pf. Qed.
Print Assumptions C188_grid_refuted.

(** The hypotheses of the equality are met by dopri5 and a callback that never fires. *)
Example C188_ex :
  s_fixed (DormandPrince45 ROps) = false /\ forall t (y : list R), ~ fires [((fun _ _ => false), (fun _ y => y))] t y.
Proof. exact C188_ex_pf. Qed.

