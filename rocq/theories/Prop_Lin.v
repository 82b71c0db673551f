(** Property theorems (generated by tools/genprop.py from Pf_Lin.v, which holds the proofs). *)
From Coq Require Import ZArith QArith Qreals Reals Lra Lia List Bool Psatz.
From Verif Require Import Num Py Tensor M_Constants M_SolversOde M_Utils M_Interp M_Odeint.
From Verif Require Import Spec_Ode Spec_Trees Spec_RK Spec_Norm Spec_Adaptive Spec_Inv Spec_Lin.
From Verif Require Import L_Base L_Fixed L_Vec L_Steps L_Tables L_Steps2 L_Interp L_Utils L_Fixed2 L_Adaptive L_Run.
From Verif Require Import L_Adaptive2 L_Adaptive3 L_Adaptive4 Pf_Fixed Pf_Adaptive L_Reach L_Inv.
Import ListNotations.
From Verif Require Import Pf_Lin.
Import ListNotations.
Local Open Scope R_scope.

(** C124.  Integrals: if coordinate j of the field is a polynomial p_j in the time alone, of degree 0 (euler, rk4),
    at most 1 (midpoint) or at most 4 (dopri5), then coordinate j of every returned state, at time t, is exactly
    x_j plus the integral of p_j from t_0 to t (G_j is any antiderivative), whatever the grid and the tolerances. *)
Theorem C124_polynomial_integrals :
  forall s m fuel (ps : list (list R)) x t0 ts atol rtol all semi times sol,
  exact_below s m -> Forall (fun p => (List.length p <= m)%nat) ps -> List.length x = List.length ps ->
  increasing (t0 :: ts) -> (1 <= List.length ts)%nat ->
  snd (@odeint ROps fuel (fun t _ => map (fun p => peval p t) ps) x (@TTensor ROps (t0 :: ts)) s atol rtol false all [] semi) = Ok (times, sol) ->
  List.length sol = List.length times /\
  forall i t y j (G : R -> R), nth_error times i = Some t -> nth_error sol i = Some y -> (j < List.length ps)%nat ->
  (forall u, derivable_pt_lim G u (peval (nth j ps []) u)) ->
  nth j y 0 = nth j x 0 + (G t - G t0).
Proof. exact C124_polynomial_integrals_pf. Qed.
Print Assumptions C124_polynomial_integrals.

(** y' = 3 t^2 - 1 with dopri5 *)
Example C124_ex : exact_below (DormandPrince45 ROps) 5 /\ (List.length [-1; 0; 3]%R <= 5)%nat /\ peval [-1; 0; 3] 2 = 11 /\
  forall u, derivable_pt_lim (fun s => s ^ 3 - s) u (peval [-1; 0; 3] u).
Proof. exact C124_ex_pf. Qed.

(** rk4 does not even integrate y' = t: from y(0) = 0, one step to t = 1 gives 1/4 instead of 1/2. *)
Theorem C124_rk4_refuted : forall fuel atol rtol interp all semi,
  snd (@odeint ROps fuel (fun t _ => [t]) [0] (@TTensor ROps [0; 1]) (RungeKutta4 ROps) atol rtol interp all [] semi)
  = Ok ([0; 1], [[0]; [1 / 4]]).
Proof. exact C124_rk4_refuted_pf. Qed.
Print Assumptions C124_rk4_refuted.

(** C125.  Linear systems y' = A y: every state returned by euler, midpoint, rk4 or dopri5, at time t, is obtained from x by
    steps of sizes that add up to t - t_0, each applying the polynomial 1 + hA + (hA)^2/2 + ... of the method: the
    exponential series up to the order of the method (plus (hA)^6/600 for dopri5). *)
Theorem C125_linear_system :
  forall s c fuel n A x t0 ts atol rtol all semi times sol,
  stability_coeffs s c -> linear_on n A -> List.length x = n -> increasing (t0 :: ts) -> (1 <= List.length ts)%nat ->
  snd (@odeint ROps fuel (fun _ => A) x (@TTensor ROps (t0 :: ts)) s atol rtol false all [] semi) = Ok (times, sol) ->
  List.length sol = List.length times /\
  forall i t y, nth_error times i = Some t -> nth_error sol i = Some y ->
  exists hs, fold_right Rplus 0 hs = t - t0 /\ y = fold_right (fun h z => matrix_poly n A c h z) x hs.
Proof. exact C125_linear_system_pf. Qed.
Print Assumptions C125_linear_system.

(** C125.  With a fixed-step solver the steps are the spacings of the grid. *)
Theorem C125_linear_fixed :
  forall s c fuel n A x t0 t1 ts atol rtol interp all semi,
  fixed_coeffs s c -> linear_on n A -> List.length x = n -> separated (t0 :: t1 :: ts) -> t0 <= t1 ->
  snd (@odeint ROps fuel (fun _ => A) x (@TTensor ROps (t0 :: t1 :: ts)) s atol rtol interp all [] semi)
  = Ok (t0 :: t1 :: ts, one_step_traj (fun _ h y => matrix_poly n A c h y) x (t0 :: t1 :: ts)).
Proof. exact C125_linear_fixed_pf. Qed.
Print Assumptions C125_linear_fixed.

(** the matrix [[0 1][-2 -3]] with rk4 *)
Example C125_ex : linear_on 2 (fun y => [nth 1 y 0; - 2 * nth 0 y 0 - 3 * nth 1 y 0]) /\
  fixed_coeffs (RungeKutta4 ROps) [1; 1; 1 / 2; 1 / 6; 1 / 24] /\ separated [0; 1; 2] /\
  matrix_poly 2 (fun y => [nth 1 y 0; - 2 * nth 0 y 0 - 3 * nth 1 y 0]) [1; 1; 1 / 2; 1 / 6; 1 / 24] 1 [1; 0] = [5 / 12; - (1 / 12)].
Proof. exact C125_ex_pf. Qed.

(** C126.  Exponential decay y' = - lambda y: after i steps every coordinate has been multiplied by the values of the
    polynomial of the method at - lambda h, for the spacings h of the grid. *)
Theorem C126_decay :
  forall s c fuel lambda x t0 t1 ts atol rtol interp all semi times sol,
  fixed_coeffs s c -> separated (t0 :: t1 :: ts) -> t0 <= t1 ->
  snd (@odeint ROps fuel (fun _ => map (Rmult (- lambda))) x (@TTensor ROps (t0 :: t1 :: ts)) s atol rtol interp all [] semi) = Ok (times, sol) ->
  times = t0 :: t1 :: ts /\ List.length sol = List.length times /\
  forall i y, nth_error sol i = Some y ->
  y = map (Rmult (grid_product (fun h => peval c (h * - lambda)) (t0 :: t1 :: ts) i)) x.
Proof. exact C126_decay_pf. Qed.
Print Assumptions C126_decay.

(** C126.  Within the stability interval (lambda h <= 2 for euler and midpoint, lambda h <= 2.78 for rk4) no coordinate
    ever exceeds its initial value; beyond it (lambda h > 2, lambda h > 2.79) every coordinate that is not zero grows. *)
Theorem C126_stability_limit :
  forall s lo hi fuel lambda x t0 t1 ts atol rtol interp all semi times sol,
  stable_limit s lo hi -> separated (t0 :: t1 :: ts) -> t0 <= t1 ->
  snd (@odeint ROps fuel (fun _ => map (Rmult (- lambda))) x (@TTensor ROps (t0 :: t1 :: ts)) s atol rtol interp all [] semi) = Ok (times, sol) ->
  ((forall h, In h (spacings (t0 :: t1 :: ts)) -> 0 <= lambda * h <= lo) ->
   forall i y j, nth_error sol i = Some y -> Rabs (nth j y 0) <= Rabs (nth j x 0)) /\
  ((forall h, In h (spacings (t0 :: t1 :: ts)) -> hi < lambda * h) ->
   forall i y j, nth_error sol (S i) = Some y -> nth j x 0 <> 0 -> Rabs (nth j x 0) < Rabs (nth j y 0)).
Proof. exact C126_stability_limit_pf. Qed.
Print Assumptions C126_stability_limit.

(** C126.  Harmonic oscillator q' = omega p, p' = - omega q: the energy q^2 + p^2 is multiplied by an explicit factor
    per step. *)
Theorem C126_oscillator :
  forall s E fuel w x t0 t1 ts atol rtol interp all semi times sol,
  energy_factor s E -> List.length x = 2%nat -> separated (t0 :: t1 :: ts) -> t0 <= t1 ->
  snd (@odeint ROps fuel (fun _ => rotation w) x (@TTensor ROps (t0 :: t1 :: ts)) s atol rtol interp all [] semi) = Ok (times, sol) ->
  List.length sol = List.length (t0 :: t1 :: ts) /\
  forall i y, nth_error sol i = Some y ->
  energy y = grid_product (fun h => E (h * w)) (t0 :: t1 :: ts) i * energy x.
Proof. exact C126_oscillator_pf. Qed.
Print Assumptions C126_oscillator.

(** C126.  With euler and midpoint the energy grows in every step, however small the steps; with rk4 it never grows if
    (omega h)^2 <= 8. *)
Theorem C126_oscillator_energy :
  forall s E fuel w x t0 t1 ts atol rtol interp all semi times sol,
  energy_factor s E -> List.length x = 2%nat -> separated (t0 :: t1 :: ts) -> t0 <= t1 ->
  snd (@odeint ROps fuel (fun _ => rotation w) x (@TTensor ROps (t0 :: t1 :: ts)) s atol rtol interp all [] semi) = Ok (times, sol) ->
  ((s = Euler ROps \/ s = Midpoint ROps) -> w <> 0 -> 0 < energy x -> (forall h, In h (spacings (t0 :: t1 :: ts)) -> h <> 0) ->
   forall i y, nth_error sol (S i) = Some y -> energy x < energy y) /\
  (s = RungeKutta4 ROps -> (forall h, In h (spacings (t0 :: t1 :: ts)) -> (h * w) ^ 2 <= 8) ->
   forall i y, nth_error sol i = Some y -> energy y <= energy x).
Proof. exact C126_oscillator_energy_pf. Qed.
Print Assumptions C126_oscillator_energy.

Example C126_stability_limit_ex : stable_limit (RungeKutta4 ROps) (278 / 100) (279 / 100) /\ separated [0; 1; 2] /\
  (forall h, In h (spacings [0; 1; 2]) -> 0 <= 2 * h <= 278 / 100) /\ (forall h, In h (spacings [0; 1; 2]) -> 279 / 100 < 3 * h) /\
  grid_product (fun h => peval [1; 1; 1 / 2; 1 / 6; 1 / 24] (h * - 2)) [0; 1; 2] 2 = 1 / 9 /\
  grid_product (fun h => peval [1; 1; 1 / 2; 1 / 6; 1 / 24] (h * - 3)) [0; 1; 2] 2 = 121 / 64.
Proof. exact C126_stability_limit_ex_pf. Qed.

Example C126_oscillator_ex : energy_factor (Midpoint ROps) (fun z => 1 + z ^ 4 / 4) /\ separated [0; 1; 2] /\
  energy (rotation 2 [3; 4]) = 100 /\ grid_product (fun h => 1 + (h * 2) ^ 4 / 4) [0; 1; 2] 2 = 25.
Proof. exact C126_oscillator_ex_pf. Qed.

