(** Property theorems (generated by tools/genprop.py from Pf_Request.v, which holds the proofs). *)
From Coq Require Import ZArith QArith Qreals Reals Lra Lia String List Bool Sorted.
From Verif Require Import Num Py Tensor M_Constants M_SolversOde M_Utils M_Interp M_Odeint.
From Verif Require Import Spec_Ode Spec_Trees Spec_RK Spec_Norm Spec_Adaptive.
From Verif Require Import L_Base L_Fixed L_Vec L_Steps L_Tables L_Steps2 L_Interp L_Utils L_Fixed2 L_Adaptive L_Run.
From Verif Require Import L_Adaptive2 L_Term L_Growth L_Adaptive3 L_Adaptive4 Pf_Adaptive.
Import ListNotations.
Local Notation length := List.length.
From Verif Require Import Pf_Request.
Import ListNotations.
Local Open Scope R_scope.

(** C178.  dopri5 with interpolation: two grids with the same first and last time give the same calls of the vector
    field, and the same states at the times they share. *)
Theorem C178_requested_times :
  forall fuel n f x t0 t1 ts t1' ts' atol rtol all all' save_at save_at' semi,
  field_on n f -> length x = n -> increasing (t0 :: t1 :: ts) -> increasing (t0 :: t1' :: ts') -> last (t1 :: ts) t0 = last (t1' :: ts') t0 ->
  let r := @odeint ROps fuel f x (@TTensor ROps (t0 :: t1 :: ts)) (DormandPrince45 ROps) atol rtol true all save_at semi in
  let r' := @odeint ROps fuel f x (@TTensor ROps (t0 :: t1' :: ts')) (DormandPrince45 ROps) atol rtol true all' save_at' semi in
  fst r = fst r' /\
  (snd r = OutOfFuel /\ snd r' = OutOfFuel \/
   exists times sol times' sol', snd r = Ok (times, sol) /\ snd r' = Ok (times', sol') /\ agree times sol times' sol').
Proof. exact C178_requested_times_pf. Qed.
Print Assumptions C178_requested_times.

(** C178, decreasing grids *)
Theorem C178_requested_times_back :
  forall fuel n f x t0 t1 ts t1' ts' atol rtol all all' save_at save_at' semi,
  field_on n f -> length x = n -> decreasing (t0 :: t1 :: ts) -> decreasing (t0 :: t1' :: ts') -> last (t1 :: ts) t0 = last (t1' :: ts') t0 ->
  let r := @odeint ROps fuel f x (@TTensor ROps (t0 :: t1 :: ts)) (DormandPrince45 ROps) atol rtol true all save_at semi in
  let r' := @odeint ROps fuel f x (@TTensor ROps (t0 :: t1' :: ts')) (DormandPrince45 ROps) atol rtol true all' save_at' semi in
  snd r = OutOfFuel /\ snd r' = OutOfFuel \/
  exists times sol times' sol', snd r = Ok (times, sol) /\ snd r' = Ok (times', sol') /\ agree times sol times' sol'.
Proof. exact C178_requested_times_back_pf. Qed.
Print Assumptions C178_requested_times_back.

(** the decay problem of C14 over [[0, 3]], with and without the time 1: the solves return, with the same states at 0 and 3 *)
Example C178_requested_times_ex :
  let f := fun (t : R) (x : list R) => map (fun a => - a) x in
  field_on 2 f /\ increasing [0; 1; 3] /\ increasing [0; 3] /\ last [1; 3] 0 = last [3] 0 /\
  exists fuel a b c, snd (@odeint ROps fuel f [1; 2] (@TTensor ROps [0; 1; 3]) (DormandPrince45 ROps) (1/1000) (1/1000) true false [] None) = Ok ([0; 1; 3], [a; b; c]) /\
    snd (@odeint ROps fuel f [1; 2] (@TTensor ROps [0; 3]) (DormandPrince45 ROps) (1/1000) (1/1000) true false [] None) = Ok ([0; 3], [a; c]).
Proof. exact C178_requested_times_ex_pf. Qed.

