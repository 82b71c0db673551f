(** Property theorems (generated by tools/genprop.py from Pf_Descent.v, which holds the proofs). *)
From Coq Require Import ZArith Reals Lra Lia List Bool Psatz.
From Verif Require Import Num Py Tensor M_Constants M_SolversOde M_Utils M_Interp M_Odeint M_Models.
From Verif Require Import Spec_Ode Spec_Norm Spec_RK Spec_Root Spec_Conv Spec_Models Spec_Lin.
From Verif Require Import L_Base L_Fixed L_Vec L_Steps L_Utils L_Fixed2 L_Root L_Models L_Sens Pf_Models Pf_Fixed L_Reach L_Inv Pf_Lin Pf_Diss.
Import ListNotations.
From Verif Require Import Pf_Descent.
Import ListNotations.
Local Open Scope R_scope.

(** C172.  An Euler solve of a gradient flow whose gradient has the Lipschitz constant L: a step of length h from y lowers
    the energy by at least h (1 - L h / 2) |grad E(y)|^2.  With 0 <= h and L h <= 2 it never rises. *)
Theorem C172_descent :
  forall fuel n E G L grad_sum x t0 t1 ts atol rtol interp all semi times sol,
  smooth_energy n E G L -> gradient_of_sum n E grad_sum -> List.length x = n ->
  separated (t0 :: t1 :: ts) -> t0 <= t1 ->
  snd (@odeint ROps fuel (gnf_field grad_sum) x (@TTensor ROps (t0 :: t1 :: ts)) (Euler ROps) atol rtol interp all [] semi) = Ok (times, sol) ->
  List.length sol = List.length (t0 :: t1 :: ts) /\
  forall i y y', nth_error sol i = Some y -> nth_error sol (S i) = Some y' ->
  let h := nth i (spacings (t0 :: t1 :: ts)) 0 in
  E y' <= E y - h * (1 - L * h / 2) * dot (G y) (G y) /\ (0 <= h -> L * h <= 2 -> E y' <= E y).
Proof. exact C172_descent_pf. Qed.
Print Assumptions C172_descent.

(** C172.  If E is convex and every spacing has 0 <= h and L h <= 1, the energy at time t_i exceeds the energy of any
    state z, so also the minimum, by at most |x - z|^2 / (2 (t_i - t_0)), and no state is farther from z than x is when
    z minimises E. *)
Theorem C172_convex_rate :
  forall fuel n E G L grad_sum x z t0 t1 ts atol rtol interp all semi times sol,
  smooth_energy n E G L -> convex_energy n E G -> gradient_of_sum n E grad_sum -> List.length x = n -> List.length z = n ->
  separated (t0 :: t1 :: ts) -> (forall h, In h (spacings (t0 :: t1 :: ts)) -> 0 <= h /\ L * h <= 1) ->
  snd (@odeint ROps fuel (gnf_field grad_sum) x (@TTensor ROps (t0 :: t1 :: ts)) (Euler ROps) atol rtol interp all [] semi) = Ok (times, sol) ->
  List.length sol = List.length (t0 :: t1 :: ts) /\
  forall i y t, nth_error sol i = Some y -> nth_error (t0 :: t1 :: ts) i = Some t ->
  (t0 < t -> E y - E z <= sqdist x z / (2 * (t - t0))) /\
  (t0 <= t -> (forall w, List.length w = n -> E z <= E w) -> sqdist y z <= sqdist x z).
Proof. exact C172_convex_rate_pf. Qed.
Print Assumptions C172_convex_rate.

(** The limit 2 / L is sharp: for E(y) = y^2 / 2, where L = 1, one step longer than 2 raises the energy. *)
Theorem C172_limit :
  forall fuel x h atol rtol interp all semi,
  x <> 0 -> 2 < h -> separated [0; h] ->
  smooth_energy 1 (fun y => dot y y / 2) (fun y => y) 1 /\
  exists y, snd (@odeint ROps fuel (gnf_field (map (fun y => y))) [x] (@TTensor ROps [0; h]) (Euler ROps) atol rtol interp all [] semi)
    = Ok ([0; h], [[x]; [y]]) /\ dot [x] [x] / 2 < dot [y] [y] / 2.
Proof. exact C172_limit_pf. Qed.
Print Assumptions C172_limit.

(** The energy |y|^2 / 2 meets all hypotheses; the Euler states 1, 1/2, 0 on the grid 0, 1/2, 3/2 *)
Example C172_ex :
  smooth_energy 1 (fun y => dot y y / 2) (fun y => y) 1 /\ convex_energy 1 (fun y => dot y y / 2) (fun y => y) /\
  gradient_of_sum 1 (fun y => dot y y / 2) (map (fun y => y)) /\ separated [0; 1 / 2; 3 / 2] /\
  (forall h, In h (spacings [0; 1 / 2; 3 / 2]) -> 0 <= h /\ 1 * h <= 1) /\
  snd (@odeint ROps 0 (gnf_field (map (fun y => y))) [1] (@TTensor ROps [0; 1 / 2; 3 / 2]) (Euler ROps) (1 / 10 ^ 3) (1 / 10 ^ 3) false true [] None)
  = Ok ([0; 1 / 2; 3 / 2], [[1]; [1 / 2]; [0]]).
Proof. exact C172_ex_pf. Qed.

