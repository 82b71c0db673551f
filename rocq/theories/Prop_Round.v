(** Property theorems (generated by tools/genprop.py from Pf_Round.v, which holds the proofs). *)
From Coq Require Import ZArith QArith Qreals Reals Lra Lia List Bool Arith.
From Verif Require Import Num Py Tensor M_Constants M_SolversOde M_Utils M_Interp M_Odeint.
From Verif Require Import Spec_Ode Spec_RK Spec_Norm Spec_Conv Spec_Round L_Base L_Fixed L_Conv L_Round.
From Flocq Require Import Core Relative.
Import ListNotations.
From Verif Require Import Pf_Round.
Import ListNotations.
Local Open Scope R_scope.

(** C107.  In rounded arithmetic (relative error u <= 1e-6, so float32 and float64 but not float16) a fixed-step
    solve on a spaced grid returns the requested times and one state for each of them, and its clock does not
    drift: at the i-th requested time b it is off by at most 3 u (|a| + |b|) + 3 eta + 1e-11, a the time before. *)
Theorem C107_one_state_per_time :
  forall rnd u eta s f x t0 t1 ts fuel atol rtol interp all semi,
  rounding u eta rnd -> 0 <= u <= 1 / 1000000 -> 0 <= eta <= 1 / 1000000000000 ->
  s = Euler (RndOps rnd) \/ s = Midpoint (RndOps rnd) \/ s = RungeKutta4 (RndOps rnd) ->
  spaced u eta (t0 :: t1 :: ts) ->
  exists one,
    (forall t h y, exists a c, snd (s_step s f y t h None) = Ok (Ret3 a (one t h y) c)) /\
    let steps := clock_traj rnd one t0 x (t1 :: ts) in
    snd (@odeint (RndOps rnd) fuel f x (@TTensor (RndOps rnd) (t0 :: t1 :: ts)) s atol rtol interp all [] semi)
      = Ok (t0 :: t1 :: ts, x :: map snd steps) /\
    List.length steps = List.length (t1 :: ts) /\
    forall i a b p, nth_error (t0 :: t1 :: ts) i = Some a -> nth_error (t1 :: ts) i = Some b -> nth_error steps i = Some p ->
      Rabs (fst p - b) <= 3 * u * (Rabs a + Rabs b) + 3 * eta + 1 / 100000000000.
Proof. exact C107_one_state_per_time_pf. Qed.
Print Assumptions C107_one_state_per_time.

(** every increasing grid of non-negative times with gaps 3e-8 + 3e-5 t is spaced, for u <= 1e-6 *)
Theorem C107_spaced_grids :
  forall u eta l, 0 <= u <= 1 / 10000000 * 8 -> 0 <= eta <= 1 / 1000000000 -> 
  (forall i a b, nth_error l i = Some a -> nth_error l (S i) = Some b -> 0 <= a /\ 3 * (1 / 100000000 + 1 / 100000 * b) <= b - a) ->
  spaced u eta l.
Proof. exact C107_spaced_grids_pf. Qed.
Print Assumptions C107_spaced_grids.

(** C108.  Euler in rounded arithmetic: grid with times of size at most A and gaps at most H, field computed up to
    eps, states of size at most B.  The error against the exact solution is that of exact arithmetic, of order
    H, plus a contribution of size u (6 A F + B) + 3 eta (F + 1) per step. *)
Theorem C108_euler_rounded :
  forall rnd u eta n f fr L M F B eps A H e0 y x t0 t1 ts fuel atol rtol interp all semi times sol,
  rounding u eta rnd -> 0 <= u <= 1 / 1000000 -> 0 <= eta <= 1 / 1000000000000 ->
  0 <= L -> 0 <= M -> 0 <= F -> 0 <= B -> 0 <= eps -> 0 <= e0 -> 0 <= H <= 2 * A ->
  let grid := t0 :: t1 :: ts in
  let tau := 4 * u * A + 3 * eta in
  let omega := 8 * u * A + 6 * eta in
  spaced u eta grid -> steps_at_most H grid -> (forall b, In b grid -> Rabs b <= A) ->
  field_on n f -> field_on n fr -> lipschitz n L f ->
  (forall t z, List.length z = n -> near n eps (fr t z) (f t z)) ->
  (forall t z, List.length z = n -> bounded_by B z -> bounded_by F (fr t z)) ->
  let a := t0 - tau in let b := last (t1 :: ts) t0 + tau in
  solves n a b f y ->
  (forall s t, a <= s <= b -> a <= t <= b -> near n (M * Rabs (s - t)) (f s (y s)) (f t (y t))) ->
  (forall t, a <= t <= b -> bounded_by F (f t (y t))) ->
  List.length x = n -> near n e0 x (y t0) ->
  snd (@odeint (RndOps rnd) fuel fr x (@TTensor (RndOps rnd) grid) (Euler (RndOps rnd)) atol rtol interp all [] semi) = Ok (times, sol) ->
  (forall z, In z sol -> bounded_by B z) ->
  forall i s z, nth_error grid i = Some s -> nth_error sol i = Some z ->
    let S := s - t0 + INR i * omega in
    near n (exp (L * S) * (e0 + S * (eps + M * (H + omega)) + INR i * (u * (6 * A * F + B) + 3 * eta * (F + 1))) + F * tau) z (y s).
Proof. exact C108_euler_rounded_pf. Qed.
Print Assumptions C108_euler_rounded.

(** Rounding to nearest even in a binary format with p digits and least exponent emin (unbounded above) is a
    rounding with u = 2^-p, eta = 2^(emin - 1): float32 is p = 24, emin = -149, float64 is p = 53, emin = -1074. *)
Theorem C107_ieee : forall p emin, (0 < p)%Z ->
  rounding (/ 2 * bpow radix2 (- p + 1)) (/ 2 * bpow radix2 emin) (round radix2 (FLT_exp emin p) ZnearestE).
Proof. exact C107_ieee_pf. Qed.
Print Assumptions C107_ieee.

(** float32 on the grid 0, 1/2, 1 *)
Example C107_ex :
  exists u eta, rounding u eta (round radix2 (FLT_exp (-149) 24) ZnearestE) /\ 0 <= u <= 1 / 1000000 /\
    0 <= eta <= 1 / 1000000000000 /\ spaced u eta [0; 1 / 2; 1].
Proof. exact C107_ex_pf. Qed.

(** y' = -y from 1 in float32 on that grid: the computed states exist and stay below 5, the constants of C108
    are L = 1, M = F = B = 5, eps = 0, A = 1, H = 1/2 *)
Example C108_ex :
  let rnd := round radix2 (FLT_exp (-149) 24) ZnearestE in
  let f := fun (_ : R) (x : list R) => map Ropp x in
  let y := fun t => [exp (- t)] in
  let grid := [0; 1 / 2; 1] in
  exists u eta, rounding u eta rnd /\ 0 <= u <= 1 / 1000000 /\ 0 <= eta <= 1 / 1000000000000 /\
    spaced u eta grid /\ steps_at_most (1 / 2) grid /\ (forall b, In b grid -> Rabs b <= 1) /\
    field_on 1 f /\ lipschitz 1 1 f /\ (forall t z, List.length z = 1%nat -> bounded_by 5 z -> bounded_by 5 (f t z)) /\
    let a := 0 - (4 * u * 1 + 3 * eta) in let b := 1 + (4 * u * 1 + 3 * eta) in
    solves 1 a b f y /\
    (forall s t, a <= s <= b -> a <= t <= b -> near 1 (5 * Rabs (s - t)) (f s (y s)) (f t (y t))) /\
    (forall t, a <= t <= b -> bounded_by 5 (f t (y t))) /\
    exists sol, snd (@odeint (RndOps rnd) 0 f [1] (@TTensor (RndOps rnd) grid) (Euler (RndOps rnd)) 0 0 false false [] None) = Ok (grid, sol) /\
      List.length sol = 3%nat /\ (forall z, In z sol -> bounded_by 5 z).
Proof. exact C108_ex_pf. Qed.

