(** Property theorems (generated by tools/genprop.py from Pf_CallTimes.v, which holds the proofs). *)
From Coq Require Import ZArith QArith Qreals Reals Lra Lia List Bool Sorted.
From Verif Require Import Num Py Tensor M_Constants M_SolversOde M_Utils M_Interp M_Odeint Spec_Ode Spec_RK Spec_Trees Spec_Inv Spec_Norm Spec_Adaptive.
From Verif Require Import L_Base L_Fixed L_Fixed2 L_Steps L_Steps2 L_Reach L_Inv L_Leap L_Adaptive L_Adaptive2 Pf_Fixed Pf_Causal.
Import ListNotations.
Local Notation length := List.length.
From Verif Require Import Pf_CallTimes.
Import ListNotations.
Local Open Scope R_scope.

(** euler, midpoint, rk4 and leapfrog on increasing grids: every call of the field is at a time between the first and the last time of the grid. *)
Theorem C206_fixed_partial :
  forall fuel (s : solver ROps (vec ROps)) f x t0 t1 ts atol rtol interp all semi,
  s = Euler ROps \/ s = Midpoint ROps \/ s = RungeKutta4 ROps \/ s = AsynchronousLeapfrog ROps false -> increasing (t0 :: t1 :: ts) -> separated (t0 :: t1 :: ts) ->
  forall c y, In (c, y) (fst (@odeint ROps fuel f x (@TTensor ROps (t0 :: t1 :: ts)) s atol rtol interp all [] semi)) -> t0 <= c <= last (t1 :: ts) t0.
Proof. exact C206_fixed_partial_pf. Qed.
Print Assumptions C206_fixed_partial.

(** dopri5 and tsit5 call the field outside: for y' = 1 from 1000 over [0, 1] the initial step is chosen with a call at time 10. *)
Theorem C206_adaptive_refuted :
  forall fuel (s : solver ROps (vec ROps)) interp all semi, s = DormandPrince45 ROps \/ s = Tsitouras45 ROps ->
  In (10, [1010]) (fst (@odeint ROps fuel (fun _ _ => [1]) [1000] (@TTensor ROps [0; 1]) s 1 0 interp all [] semi)).
Proof. exact C206_adaptive_refuted_pf. Qed.
Print Assumptions C206_adaptive_refuted.

(** dopri5 and tsit5 on increasing grids, for every number of iterations: the first call is at the first time, the second is the one that chooses the initial step,
    and every other call is at a time between the first and the last time of the grid. *)
Theorem C206_adaptive_partial :
  forall fuel (s : solver ROps (vec ROps)) n f x t0 t1 ts atol rtol interp all save_at semi,
  s = DormandPrince45 ROps \/ s = Tsitouras45 ROps -> field_on n f -> length x = n -> increasing (t0 :: t1 :: ts) ->
  exists probe lg,
    fst (@odeint ROps fuel f x (@TTensor ROps (t0 :: t1 :: ts)) s atol rtol interp all save_at semi) = (t0, x) :: probe :: lg /\
    forall c y, In (c, y) lg -> t0 <= c <= last (t1 :: ts) t0.
Proof. exact C206_adaptive_partial_pf. Qed.
Print Assumptions C206_adaptive_partial.

(** The hypotheses are met by the grid 0, 1, 2 and the field y' = t y. *)
Example C206_ex : increasing [0; 1; 2] /\ separated [0; 1; 2] /\ field_on 1 (fun t x => map (Rmult t) x).
Proof. exact C206_ex_pf. Qed.

