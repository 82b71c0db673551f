(** Property theorems (generated by tools/genprop.py from Pf_Diss.v, which holds the proofs). *)
From Coq Require Import ZArith QArith Qreals Reals Lra Lia List Bool Psatz.
From Verif Require Import Num Py Tensor M_Constants M_SolversOde M_Utils M_Interp M_Odeint.
From Verif Require Import Spec_Ode Spec_Trees Spec_RK Spec_Norm Spec_Adaptive Spec_Inv Spec_Lin Spec_Diss.
From Verif Require Import L_Base L_Fixed L_Vec L_Steps L_Tables L_Steps2 L_Interp L_Utils L_Fixed2 L_Adaptive L_Run.
From Verif Require Import L_Adaptive2 L_Adaptive3 L_Adaptive4 Pf_Fixed Pf_Adaptive L_Reach L_Inv Pf_Lin.
Import ListNotations.
From Verif Require Import Pf_Diss.
Import ListNotations.
Local Open Scope R_scope.

(** C131.  If no entry of a nonnegative state decreases faster than at the relative rate lambda, and every spacing h
    satisfies 0 <= h and lambda h <= 1, all states euler returns from a nonnegative state are nonnegative. *)
Theorem C131_euler_nonnegative :
  forall fuel n f lambda x t0 t1 ts atol rtol interp all semi,
  field_on n f -> decay_at_most n lambda f -> List.length x = n -> nonnegative x ->
  separated (t0 :: t1 :: ts) -> (forall h, In h (spacings (t0 :: t1 :: ts)) -> 0 <= h /\ lambda * h <= 1) ->
  exists sol, snd (@odeint ROps fuel f x (@TTensor ROps (t0 :: t1 :: ts)) (Euler ROps) atol rtol interp all [] semi)
    = Ok (t0 :: t1 :: ts, sol) /\ List.length sol = List.length (t0 :: t1 :: ts) /\ Forall nonnegative sol.
Proof. exact C131_euler_nonnegative_pf. Qed.
Print Assumptions C131_euler_nonnegative.

(** The limit is sharp: for y' = - lambda y one Euler step with lambda h > 1 makes a positive state negative. *)
Theorem C131_euler_limit :
  forall fuel lambda x h atol rtol interp all semi,
  0 < x -> 1 < lambda * h -> 0 <= h -> separated [0; h] ->
  exists y, snd (@odeint ROps fuel (fun _ => map (Rmult (- lambda))) [x] (@TTensor ROps [0; h]) (Euler ROps) atol rtol interp all [] semi)
    = Ok ([0; h], [[x]; [y]]) /\ y < 0.
Proof. exact C131_euler_limit_pf. Qed.
Print Assumptions C131_euler_limit.

(** C131, refuted for midpoint: the field max(-1, 4 - 20 t) y has lambda = 1, but a step of length 1 takes 1 to -2. *)
Theorem C131_midpoint_refuted :
  let f := fun (t : R) => map (Rmult (Rmax (- 1) (4 - 20 * t))) in
  field_on 1 f /\ decay_at_most 1 1 f /\ (forall h, In h (spacings [0; 1]) -> 0 <= h /\ 1 * h <= 1) /\
  snd (@odeint ROps 0 f [1] (@TTensor ROps [0; 1]) (Midpoint ROps) (1 / 10 ^ 3) (1 / 10 ^ 3) false true [] None)
  = Ok ([0; 1], [[1]; [- 2]]).
Proof. exact C131_midpoint_refuted_pf. Qed.
Print Assumptions C131_midpoint_refuted.

(** A chain of reactions a -> b -> nothing with rates 2 and 1. *)
Example C131_ex :
  let f := fun (_ : R) (y : list R) => match y with [a; b] => [- 2 * a; 2 * a - b] | _ => y end in
  field_on 2 f /\ decay_at_most 2 2 f /\ nonnegative [1; 0] /\ separated [0; 1; 3] /\ f 0 [1; 0] = [- 2; 2].
Proof. exact C131_ex_pf. Qed.

(** C132.  Two Euler solutions of a dissipative field on the same grid: the squared distance of the states is at most
    the initial one times the product of 1 - 2 mu h + L^2 h^2 over the steps. *)
Theorem C132_euler_contraction :
  forall fuel n f mu L x x' t0 t1 ts atol rtol interp all semi times sol times' sol',
  field_on n f -> dissipative n mu L f -> Rabs mu <= L -> List.length x = n -> List.length x' = n ->
  separated (t0 :: t1 :: ts) -> (forall h, In h (spacings (t0 :: t1 :: ts)) -> 0 <= h) ->
  snd (@odeint ROps fuel f x (@TTensor ROps (t0 :: t1 :: ts)) (Euler ROps) atol rtol interp all [] semi) = Ok (times, sol) ->
  snd (@odeint ROps fuel f x' (@TTensor ROps (t0 :: t1 :: ts)) (Euler ROps) atol rtol interp all [] semi) = Ok (times', sol') ->
  List.length sol = List.length (t0 :: t1 :: ts) /\ List.length sol' = List.length (t0 :: t1 :: ts) /\
  forall i y y', nth_error sol i = Some y -> nth_error sol' i = Some y' ->
  dist2 y y' <= grid_product (fun h => 1 - 2 * mu * h + L ^ 2 * h ^ 2) (t0 :: t1 :: ts) i * dist2 x x'.
Proof. exact C132_euler_contraction_pf. Qed.
Print Assumptions C132_euler_contraction.

(** C132.  With spacings L^2 h <= 2 mu trajectories never move apart: the distance at i never exceeds the initial one. *)
Theorem C132_euler_nonexpansive :
  forall fuel n f mu L x x' t0 t1 ts atol rtol interp all semi times sol times' sol',
  field_on n f -> dissipative n mu L f -> Rabs mu <= L -> List.length x = n -> List.length x' = n ->
  separated (t0 :: t1 :: ts) -> (forall h, In h (spacings (t0 :: t1 :: ts)) -> 0 <= h /\ L ^ 2 * h <= 2 * mu) ->
  snd (@odeint ROps fuel f x (@TTensor ROps (t0 :: t1 :: ts)) (Euler ROps) atol rtol interp all [] semi) = Ok (times, sol) ->
  snd (@odeint ROps fuel f x' (@TTensor ROps (t0 :: t1 :: ts)) (Euler ROps) atol rtol interp all [] semi) = Ok (times', sol') ->
  forall i y y', nth_error sol i = Some y -> nth_error sol' i = Some y' -> dist2 y y' <= dist2 x x'.
Proof. exact C132_euler_nonexpansive_pf. Qed.
Print Assumptions C132_euler_nonexpansive.

(** Beyond the limit trajectories may separate: y' = (y_2 - y_1, - y_1 - y_2) has mu = 1, L^2 = 2, and a step of
    length 3/2 > 2 mu / L^2 multiplies squared distances by 5/2. *)
Example C132_ex :
  let f := fun (_ : R) (y : list R) => match y with [a; b] => [b - a; - a - b] | _ => y end in
  field_on 2 f /\ dissipative 2 1 (sqrt 2) f /\ Rabs 1 <= sqrt 2 /\ separated [0; 1; 2] /\
  (forall h, In h (spacings [0; 1; 2]) -> 0 <= h /\ sqrt 2 ^ 2 * h <= 2 * 1) /\
  snd (@odeint ROps 0 f [1; 0] (@TTensor ROps [0; 3 / 2]) (Euler ROps) (1 / 10 ^ 3) (1 / 10 ^ 3) false true [] None)
  = Ok ([0; 3 / 2], [[1; 0]; [- (1 / 2); - (3 / 2)]]) /\
  snd (@odeint ROps 0 f [0; 0] (@TTensor ROps [0; 3 / 2]) (Euler ROps) (1 / 10 ^ 3) (1 / 10 ^ 3) false true [] None)
  = Ok ([0; 3 / 2], [[0; 0]; [0; 0]]).
Proof. exact C132_ex_pf. Qed.

