(** Property theorems (generated by tools/genprop.py from Pf_Dtype.v, which holds the proofs). *)
From Coq Require Import ZArith QArith Qreals Reals Lra Lia List Bool Sorted.
From Verif Require Import Num Py Tensor M_Constants M_SolversOde M_Utils M_Interp M_Odeint M_Dtype.
From Verif Require Import Spec_Ode Spec_Trees Spec_RK Spec_Norm Spec_Adaptive Spec_Inv Spec_Dtype.
From Verif Require Import L_Base L_Fixed L_Vec L_Steps L_Tables L_Steps2 L_Interp L_Utils L_Fixed2 L_Adaptive L_Run L_Growth.
From Verif Require Import L_Adaptive2 L_Adaptive3 L_Adaptive4 Pf_Fixed Pf_Adaptive L_Reach L_Inv Pf_Inv L_Dtype.
Import ListNotations.
From Verif Require Import Pf_Dtype.
Import ListNotations.
Local Open Scope R_scope.

(** C135, the coefficients: those of a solver built for a dtype are the numbers written in the source, rounded to
    nearest even to double precision (by Python) and then to the dtype (by torch). *)
Theorem C135_rounding :
  forall d q, Q2R (literal d q) = nearest (bits d) (nearest 53 (Q2R q)).
Proof. exact C135_rounding_pf. Qed.
Print Assumptions C135_rounding.

(** C135 for odeint called with the name of a solver and double precision data: a constant velocity is integrated
    with relative error below 2^-51, at every time of every grid and for all tolerances. *)
Theorem C135_named :
  forall n, exists delta, Rabs delta <= / 2 ^ 51 /\
  forall fuel x v t0 ts atol rtol all semi times sol,
  length v = length x -> increasing (t0 :: ts) -> (1 <= length ts)%nat ->
  snd (@odeint ROps fuel (fun _ _ => v) x (@TTensor ROps (t0 :: ts)) (named_solver ROps n Double) atol rtol false all [] semi) = Ok (times, sol) ->
  constant_speed delta x v t0 times sol.
Proof. exact C135_named_pf. Qed.
Print Assumptions C135_named.

(** C135, refuted for ODEProblem and NeuralODE: their solver is built before any data is seen, with float32
    coefficients, and only converted later.  In double precision a constant velocity is integrated with a relative
    error of 3e-8, 2e-8, 1e-8 (rk4, dopri5, tsit5), on every grid and for all tolerances. *)
Theorem C135_problem_refuted :
  forall n, let delta := match n with Rk4 => / 2 ^ 25 | Dopri5 => 3 / 2 ^ 27 | Tsit5 => - 7 / 2 ^ 29 end in
  (forall fuel x v t0 ts atol rtol all semi times sol,
   length v = length x -> increasing (t0 :: ts) -> (1 <= length ts)%nat ->
   snd (@odeint ROps fuel (fun _ _ => v) x (@TTensor ROps (t0 :: ts)) (problem_solver ROps n Double) atol rtol false all [] semi) = Ok (times, sol) ->
   constant_speed delta x v t0 times sol) /\
  (forall atol rtol, 0 < atol -> 0 <= rtol -> exists fuel,
   snd (@odeint ROps fuel (fun _ _ => [1]) [0] (@TTensor ROps [0; 1]) (problem_solver ROps n Double) atol rtol false false [] None)
     = Ok ([0; 1], [[0]; [1 + delta]])).
Proof. exact C135_problem_refuted_pf. Qed.
Print Assumptions C135_problem_refuted.

(** C135, what holds for problems: the relative error is below 1e-7; with single precision data the coefficients are
    those odeint uses for the name of the solver. *)
Theorem C135_problem_partial :
  (forall (K : NumOps) n, problem_solver K n Float = named_solver K n Float) /\
  forall n, exists delta, Rabs delta <= 1 / 10 ^ 7 /\
  forall fuel x v t0 ts atol rtol all semi times sol,
  length v = length x -> increasing (t0 :: ts) -> (1 <= length ts)%nat ->
  snd (@odeint ROps fuel (fun _ _ => v) x (@TTensor ROps (t0 :: ts)) (problem_solver ROps n Double) atol rtol false all [] semi) = Ok (times, sol) ->
  constant_speed delta x v t0 times sol.
Proof. exact C135_problem_partial_pf. Qed.
Print Assumptions C135_problem_partial.

(** C136.  Solves with single or double precision data leave no trace in the solver of a problem: later solves use
    the same coefficients as those of a new problem. *)
Theorem C136_precise_partial :
  forall (K : NumOps) n used xd, (forall d, In d used -> d = Float \/ d = Double) ->
  used_solver K n used xd = problem_solver K n xd.
Proof. exact C136_precise_partial_pf. Qed.
Print Assumptions C136_precise_partial.

(** C136, refuted: after one solve with half precision data the solver keeps 11 bit coefficients.  In later double
    precision solves a constant velocity has the relative error 2e-4, 6e-5, 1e-3 (rk4, dopri5, tsit5), on every grid
    and for all tolerances. *)
Theorem C136_half_refuted :
  forall n, let delta := match n with Rk4 => - / 2 ^ 12 | Dopri5 => - / 2 ^ 14 | Tsit5 => - 193 / 2 ^ 17 end in
  (forall fuel x v t0 ts atol rtol all semi times sol,
   length v = length x -> increasing (t0 :: ts) -> (1 <= length ts)%nat ->
   snd (@odeint ROps fuel (fun _ _ => v) x (@TTensor ROps (t0 :: ts)) (used_solver ROps n [Half] Double) atol rtol false all [] semi) = Ok (times, sol) ->
   constant_speed delta x v t0 times sol) /\
  (forall atol rtol, 0 < atol -> 0 <= rtol -> exists fuel,
   snd (@odeint ROps fuel (fun _ _ => [1]) [0] (@TTensor ROps [0; 1]) (used_solver ROps n [Half] Double) atol rtol false false [] None)
     = Ok ([0; 1], [[0]; [1 + delta]])).
Proof. exact C136_half_refuted_pf. Qed.
Print Assumptions C136_half_refuted.

(** A problem used in both precisions; its coefficients are not those of the source. *)
Example C136_ex : used_solver ROps Rk4 [Double; Float] Double = problem_solver ROps Rk4 Double /\
  literal Float (1 # 6) = (11184811 # 67108864)%Q.
Proof. exact C136_ex_pf. Qed.

