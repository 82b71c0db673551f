(** Property theorems (generated by tools/genprop.py from Pf_Back.v, which holds the proofs). *)
From Coq Require Import ZArith QArith Qreals Reals Lra Lia List Bool Sorted Factorial.
From Verif Require Import Num Py Tensor M_Constants M_SolversOde M_Utils M_Interp M_Odeint.
From Verif Require Import Spec_Ode Spec_Trees Spec_RK Spec_Norm Spec_Adaptive Spec_Conv Spec_Inv Spec_Order.
From Verif Require Import L_Base L_Fixed L_Vec L_Steps L_Tables L_Steps2 L_Interp L_Utils L_Fixed2 L_Adaptive L_Run.
From Verif Require Import L_Conv Pf_Fixed L_Reach L_Inv L_Order Pf_Conv Pf_Order Pf_Cross.
Import ListNotations.
From Verif Require Import Pf_Back.
Import ListNotations.
Local Open Scope R_scope.

(** C176.  On smooth Lipschitz problems, with Euler, Midpoint or (for fields without explicit time) RungeKutta4 of order p: solving from t0 to T
    along any grid, and then from the result back along the reversed grid, returns to the initial state up to C H^p, H the largest step. *)
Theorem C176_return_partial :
  forall s rows b p n f L y yd J K M t0 T, classical_order s rows b p f ->
  field_on n f -> 0 <= L -> lipschitz n L f -> t0 < T -> 0 <= M -> 0 <= K -> smooth_solution n t0 T p f y yd J K M ->
  exists C, 0 <= C /\ forall H t1 ts fuel atol rtol interp all semi,
    increasing (t0 :: t1 :: ts) -> separated (t0 :: t1 :: ts) -> steps_at_most H (t0 :: t1 :: ts) -> last (t1 :: ts) t0 = T ->
    let grid := t0 :: t1 :: ts in
    exists sol back,
      snd (@odeint ROps fuel f (y t0) (@TTensor ROps grid) s atol rtol interp all [] semi) = Ok (grid, sol) /\
      rmap snd (snd (@odeint ROps fuel f (last sol []) (@TTensor ROps (rev grid)) s atol rtol interp all [] semi)) = Ok back /\
      near n (C * H ^ p) (last back []) (y t0).
Proof. exact C176_return_partial_pf. Qed.
Print Assumptions C176_return_partial.

(** C176 fails for RungeKutta4 on fields with explicit time: y' = t, m steps of size 1/m over [[0, 1]] and back, started at 0, end at
    -1/(2m): the error is of first order, not of fourth. *)
Theorem C176_rk4_refuted : forall fuel atol rtol interp all semi (m : nat), (1 <= m)%nat ->
  let grid := ugrid (/ INR m) m 0 in
  separated grid ->
  exists sol back,
    snd (@odeint ROps fuel (fun t _ => [t]) [0] (@TTensor ROps grid) (RungeKutta4 ROps) atol rtol interp all [] semi) = Ok (grid, sol) /\
    rmap snd (snd (@odeint ROps fuel (fun t _ => [t]) (last sol []) (@TTensor ROps (rev grid)) (RungeKutta4 ROps) atol rtol interp all [] semi)) = Ok back /\
    last back [] = [- (/ INR m / 2)].
Proof. exact C176_rk4_refuted_pf. Qed.
Print Assumptions C176_rk4_refuted.

(** The hypotheses of C176 are met (for the smoothness see also C103_ex): y' = y on [[0, 1]] by RungeKutta4, a grid with two steps; exactness is too
    much to ask: one step of Euler forward and back takes 1 to 0. *)
Example C176_ex :
  (let f := fun (_ : R) (x : list R) => x in
   classical_order (RungeKutta4 ROps) (to_R_rows q_rk4_code) (to_R qb_rk4) 4 f /\ field_on 1 f /\ lipschitz 1 1 f /\
   smooth_solution 1 0 1 4 f (fun t => [exp t]) (fun _ t => [exp t]) (fun m _ _ _ => match m with O => 1 | _ => 0 end) 0 (exp 1)) /\
  (increasing [0; 1/2; 1] /\ separated [0; 1/2; 1] /\ steps_at_most (1/2) [0; 1/2; 1] /\ last [1/2; 1] 0 = 1) /\
  one_step_traj (erk_step (to_R_rows q_euler) (to_R qb_euler) (fun _ x => x)) [2] [1; 0] = [[2]; [0]].
Proof. exact C176_ex_pf. Qed.

