(** Property theorems (generated by tools/genprop.py from Pf_Repeat.v, which holds the proofs). *)
From Coq Require Import ZArith QArith Qreals Reals Lra Lia List Bool.
From Verif Require Import Num Py Tensor M_Constants M_SolversOde M_Utils M_Interp M_Odeint.
From Verif Require Import Spec_Ode Spec_Adaptive L_Base L_Fixed L_Utils Pf_HybPlain.
From Verif Require Import Spec_RK Spec_Norm L_Vec L_Steps L_Tables L_Steps2 L_Adaptive L_Adaptive2 L_Hybrid2 Pf_Hybrid Pf_Cast.
Import ListNotations.
Local Notation length := List.length.
From Verif Require Import Pf_Repeat.
Import ListNotations.
Local Open Scope R_scope.

(** Fixed-step solvers: a grid in which some time occurs twice raises AssertionError, for every field, state, solver and direction of time. *)
Theorem C189_fixed_refuted :
  forall fuel f x ts c l1 l2 l3 s atol rtol interp all semi, s_fixed s = true -> ts = l1 ++ c :: l2 ++ c :: l3 ->
  snd (@odeint ROps fuel f x (@TTensor ROps ts) s atol rtol interp all [] semi) = Err AssertionError.
Proof. exact C189_fixed_refuted_pf. Qed.
Print Assumptions C189_fixed_refuted.

(** Adaptive solvers: repeating the last time has no effect at all: the calls and the outcome are those of the grid without the repetition,
    so that the time occurs once in the output. *)
Theorem C189_last_refuted :
  forall fuel f x t0 t1 ts T s atol rtol all save_at semi, s_fixed s = false -> t0 <= t1 -> last (t1 :: ts) 0 = T ->
  @odeint ROps fuel f x (@TTensor ROps (t0 :: t1 :: ts ++ [T])) s atol rtol false all save_at semi =
  @odeint ROps fuel f x (@TTensor ROps (t0 :: t1 :: ts)) s atol rtol false all save_at semi.
Proof. exact C189_last_refuted_pf. Qed.
Print Assumptions C189_last_refuted.

(** In particular an interval of length zero: both times are requested, the initial state is returned once. *)
Theorem C189_zero_interval_refuted :
  forall fuel f x t s atol rtol interp all save_at semi, s_fixed s = false ->
  snd (@odeint ROps fuel f x (@TTensor ROps [t; t]) s atol rtol interp all save_at semi) = Ok ([t], [x]).
Proof. exact C189_zero_interval_refuted_pf. Qed.
Print Assumptions C189_zero_interval_refuted.

(** A repeated first time is returned twice with the initial state, by both built-in adaptive solvers and for every continuation of the grid. *)
Theorem C189_start_partial :
  forall fuel s rows b bh n f x t0 t1 ts atol rtol all save_at semi times sol,
  builtin_pair s rows b bh -> field_on n f -> length x = n -> t0 < last (t1 :: ts) 0 ->
  snd (@odeint ROps fuel f x (@TTensor ROps (t0 :: t0 :: t1 :: ts)) s atol rtol false all save_at semi) = Ok (times, sol) ->
  exists l m, times = t0 :: t0 :: l /\ sol = x :: x :: m.
Proof. exact C189_start_partial_pf. Qed.
Print Assumptions C189_start_partial.

(** The grids meant: [0; 1; 1; 2] for the fixed-step solvers, [0; 1; 2; 2] for the others. *)
Example C189_ex :
  [0; 1; 1; 2] = [0] ++ 1 :: [] ++ 1 :: [2] /\ 0 <= 1 /\ last [1; 2] 0 = 2 /\ s_fixed (RungeKutta4 ROps) = true /\ s_fixed (DormandPrince45 ROps) = false.
Proof. exact C189_ex_pf. Qed.

