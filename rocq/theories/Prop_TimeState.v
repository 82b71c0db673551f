(** Property theorems (generated by tools/genprop.py from Pf_TimeState.v, which holds the proofs). *)
From Coq Require Import ZArith QArith Qreals Reals Lra Lia List Bool Arith.
From Verif Require Import Num Py Tensor M_Constants M_SolversOde M_Utils M_Interp M_Odeint.
From Verif Require Import Spec_Ode Spec_Trees Spec_RK Spec_Norm L_Base L_Fixed L_Vec L_Steps L_Tables L_Steps2 L_Fixed2 Pf_Fixed L_Adaptive2 L_Inv Pf_Steps Pf_Lin.
Import ListNotations.
Local Notation length := List.length.
From Verif Require Import Pf_TimeState.
Import ListNotations.
Local Open Scope R_scope.

(** C169.  The time-dependent equation and the autonomous one with time as first component of the state have the same solutions:
    same outcome, the states of the first are those of the second without their first component ... *)
Theorem C169_time_state :
  forall s n f x t0 t1 ts fuel atol rtol interp all save_at semi, s = Euler ROps \/ s = Midpoint ROps ->
  field_on n f -> List.length x = n ->
  snd (@odeint ROps fuel f x (@TTensor ROps (t0 :: t1 :: ts)) s atol rtol interp all save_at semi) =
  rmap (fun r => (fst r, map (@tl R) (snd r)))
    (snd (@odeint ROps fuel (timed f) (t0 :: x) (@TTensor ROps (t0 :: t1 :: ts)) s atol rtol interp all save_at semi)).
Proof. exact C169_time_state_pf. Qed.
Print Assumptions C169_time_state.

(** ... which is the time. *)
Theorem C169_clock :
  forall s n f x t0 t1 ts fuel atol rtol interp all semi times sol, s = Euler ROps \/ s = Midpoint ROps ->
  field_on n f -> List.length x = n ->
  snd (@odeint ROps fuel (timed f) (t0 :: x) (@TTensor ROps (t0 :: t1 :: ts)) s atol rtol interp all [] semi) = Ok (times, sol) ->
  map (fun z => hd 0 z) sol = t0 :: t1 :: ts.
Proof. exact C169_clock_pf. Qed.
Print Assumptions C169_clock.

(** C169.  One step of dopri5 on the autonomous equation: time advances by the step, and the solution, the estimate of the error
    and the stages are those of the time-dependent equation (the step sizes of the two solves may differ: the error is averaged over
    one component more). *)
Theorem C169_dopri5_step :
  forall n f s t h x, field_on n f -> List.length x = n ->
  exists k x5 e ks,
    snd (@dopri5_step ROps f x t h None) = Ok (Ret4 k x5 e ks) /\
    snd (@dopri5_step ROps (timed f) (t :: x) s h None) = Ok (Ret4 (1 :: k) ((t + h) :: x5) (0 :: e) (map (cons 1) ks)).
Proof. exact C169_dopri5_step_pf. Qed.
Print Assumptions C169_dopri5_step.

(** C169.  RungeKutta4 on the autonomous equation gives the classical Runge-Kutta trajectory of the time-dependent one ... *)
Theorem C169_rk4_classical :
  forall n f x t0 t1 ts fuel atol rtol interp all semi, field_on n f -> List.length x = n ->
  let l := if Rlt_dec t1 t0 then map Ropp (t0 :: t1 :: ts) else t0 :: t1 :: ts in separated l ->
  snd (@odeint ROps fuel (timed f) (t0 :: x) (@TTensor ROps (t0 :: t1 :: ts)) (RungeKutta4 ROps) atol rtol interp all [] semi) =
  Ok (l, map2 cons (t0 :: t1 :: ts) (one_step_traj (erk_step (to_R_rows q_rk4) (to_R qb_rk4) f) x (t0 :: t1 :: ts))).
Proof. exact C169_rk4_classical_pf. Qed.
Print Assumptions C169_rk4_classical.

(** C169, refuted for RungeKutta4: x' = t from x(0) = 0 over one step to 1 gives 1/4, the autonomous equation 1/2. *)
Theorem C169_rk4_refuted :
  forall fuel atol rtol interp all semi, let f := fun (t : R) (_ : list R) => [t] in
  snd (@odeint ROps fuel f [0] (@TTensor ROps [0; 1]) (RungeKutta4 ROps) atol rtol interp all [] semi) = Ok ([0; 1], [[0]; [1 / 4]]) /\
  snd (@odeint ROps fuel (timed f) [0; 0] (@TTensor ROps [0; 1]) (RungeKutta4 ROps) atol rtol interp all [] semi) = Ok ([0; 1], [[0; 0]; [1; 1 / 2]]).
Proof. exact C169_rk4_refuted_pf. Qed.
Print Assumptions C169_rk4_refuted.

(** The hypotheses are satisfiable: x' = t x on a grid of three points. *)
Example C169_ex : let f := fun (t : R) (z : list R) => map (Rmult t) z in
  field_on 2 f /\ List.length [1; 2] = 2%nat /\ separated [0; 1; 2] /\
  exists times sol, snd (@odeint ROps 0 (timed f) [0; 1; 2] (@TTensor ROps [0; 1; 2]) (Midpoint ROps) 0 0 false true [] None) = Ok (times, sol).
Proof. exact C169_ex_pf. Qed.

