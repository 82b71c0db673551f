(** Property theorems (generated by tools/genprop.py from Pf_HnnEnergy.v, which holds the proofs). *)
From Coq Require Import ZArith QArith Qreals Reals Lra Lia List Bool Psatz.
From Verif Require Import Num Py Tensor M_Constants M_SolversOde M_Utils M_Interp M_Odeint M_Models.
From Verif Require Import Spec_Ode Spec_Trees Spec_RK Spec_Root Spec_Conv Spec_Inv Spec_Lin Spec_Order Spec_Models.
From Verif Require Import Spec_Norm Spec_Adaptive L_Interp L_Adaptive L_Run L_Adaptive2 L_Adaptive3 L_Adaptive4 Pf_Adaptive.
From Verif Require Import L_Base L_Fixed L_Vec L_Steps L_Tables L_Steps2 L_Utils L_Fixed2 L_Root L_Models L_Conv Pf_Models Pf_Fixed L_Reach L_Inv L_Order L_Order2 Pf_Lin Pf_Diss Pf_Conv Pf_Order Pf_Descent.
Import ListNotations.
From Verif Require Import Pf_HnnEnergy.
Import ListNotations.
Local Open Scope R_scope.

(** C173.  The energy along a fixed-step solution of a Hamiltonian network stays within C (t - t0) H^p of the initial one, p being
    the order of the solver (RungeKutta4 included, because the field has no explicit time) and H <= 1 the largest step. *)
Theorem C173_energy_order :
  forall s rows b p m E G grad_sum L y yd J K M t0 T, energy_gradient (2 * m) E G grad_sum ->
  classical_order s rows b p (hnn_field grad_sum) -> 0 <= L -> lipschitz (2 * m) L (hnn_field grad_sum) -> t0 <= T -> 0 <= M -> 0 <= K ->
  smooth_solution (2 * m) t0 T p (hnn_field grad_sum) y yd J K M ->
  exists C, 0 <= C /\ forall H t1 ts fuel atol rtol interp all semi times sol,
    increasing (t0 :: t1 :: ts) -> separated (t0 :: t1 :: ts) -> 0 <= H <= 1 -> steps_at_most H (t0 :: t1 :: ts) -> last (t1 :: ts) t0 <= T ->
    snd (@odeint ROps fuel (hnn_field grad_sum) (y t0) (@TTensor ROps (t0 :: t1 :: ts)) s atol rtol interp all [] semi) = Ok (times, sol) ->
    List.length sol = List.length times /\
    forall k tk xk, nth_error times k = Some tk -> nth_error sol k = Some xk -> Rabs (E xk - E (y t0)) <= C * (tk - t0) * H ^ p.
Proof. exact C173_energy_order_pf. Qed.
Print Assumptions C173_energy_order.

(** C173, dopri5: within C H^5, H being the largest distance between the returned times. *)
Theorem C173_energy_dopri5 :
  forall m E G grad_sum L y yd J K M t0 T, energy_gradient (2 * m) E G grad_sum ->
  0 <= L -> lipschitz (2 * m) L (hnn_field grad_sum) -> t0 <= T -> 0 <= M -> 0 <= K ->
  smooth_solution (2 * m) t0 T 5 (hnn_field grad_sum) y yd J K M ->
  exists C, 0 <= C /\ forall H t1 ts fuel atol rtol all save_at semi times sol,
    increasing (t0 :: t1 :: ts) -> last (t1 :: ts) t0 <= T -> 0 <= H <= 1 ->
    snd (@odeint ROps fuel (hnn_field grad_sum) (y t0) (@TTensor ROps (t0 :: t1 :: ts)) (DormandPrince45 ROps) atol rtol false all save_at semi) = Ok (times, sol) ->
    steps_at_most H times ->
    List.length sol = List.length times /\
    forall k tk xk, nth_error times k = Some tk -> nth_error sol k = Some xk ->
      Rabs (E xk - E (y t0)) <= C * H ^ 5.
Proof. exact C173_energy_dopri5_pf. Qed.
Print Assumptions C173_energy_dopri5.

(** Not conserved exactly: every Euler step of length h multiplies the energy (q^2 + p^2) / 2 of the oscillator by 1 + h^2. *)
Theorem C173_euler_growth :
  forall fuel q p t0 t1 ts atol rtol interp all semi times sol,
  separated (t0 :: t1 :: ts) -> t0 <= t1 ->
  snd (@odeint ROps fuel (hnn_field (map (fun x => x))) [q; p] (@TTensor ROps (t0 :: t1 :: ts)) (Euler ROps) atol rtol interp all [] semi) = Ok (times, sol) ->
  List.length sol = List.length (t0 :: t1 :: ts) /\
  forall i y y', nth_error sol i = Some y -> nth_error sol (S i) = Some y' ->
  dot y' y' / 2 = (1 + nth i (spacings (t0 :: t1 :: ts)) 0 ^ 2) * (dot y y / 2).
Proof. exact C173_euler_growth_pf. Qed.
Print Assumptions C173_euler_growth.

(** The oscillator, its field and the solution (cos t, - sin t) on [[0, 1]] meet the hypotheses for every order. *)
Example C173_ex :
  energy_gradient (2 * 1) (fun x => dot x x / 2) (fun x => x) (map (fun x => x)) /\
  lipschitz (2 * 1) 1 (hnn_field (map (fun x => x))) /\
  (forall p, smooth_solution (2 * 1) 0 1 p (hnn_field (map (fun x => x))) (fun t => [cos t; - sin t])
    (fun m t => [cos (t + INR m * (PI / 2)); - sin (t + INR m * (PI / 2))])
    (fun m _ i j => match m, i, j with 0%nat, 0%nat, 1%nat => 1 | 0%nat, 1%nat, 0%nat => -1 | _, _, _ => 0 end) 0 1) /\
  classical_order (RungeKutta4 ROps) (to_R_rows q_rk4_code) (to_R qb_rk4) 4 (hnn_field (map (fun x => x))).
Proof. exact C173_ex_pf. Qed.

