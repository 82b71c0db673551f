(** Property theorems (generated by tools/genprop.py from Pf_RoundRK.v, which holds the proofs). *)
From Coq Require Import ZArith QArith Qreals Reals Lra Lia List Bool Arith.
From Verif Require Import Num Py Tensor M_Constants M_SolversOde M_Utils M_Interp M_Odeint.
From Verif Require Import Spec_Ode Spec_RK Spec_Norm Spec_Conv Spec_Order Spec_Round L_Base L_Fixed L_Vec L_Steps L_Steps2 L_Conv L_Round.
From Verif Require Import Pf_Fixed Pf_Conv L_Reach L_Order Pf_Order Pf_Round.
From Flocq Require Import Core.
Import ListNotations.
Local Notation length := List.length.
From Verif Require Import Pf_RoundRK.
Import ListNotations.
Local Open Scope R_scope.

(** C168.  Rounding errors of the fixed-step solvers add up at most linearly: for problems of a given size (states, field at the
    origin, times, step sizes and Lipschitz constants bounded) there is one constant C for all fields, grids, roundings and numbers
    of steps such that the i-th computed state differs from that of exact arithmetic by at most C (e0 + i (u + eta + eps)): u and
    eta are the errors of the arithmetic, eps of the computed field, e0 of the initial state. *)
Theorem C168_rounding :
  forall n L Lt F B A H, 0 <= L -> 0 <= Lt -> 0 <= F -> 0 <= B -> 0 <= H <= 2 * A ->
  exists C, 0 <= C /\
  forall rnd u eta eps f fr s sr x xr e0 t0 t1 ts fuel atol rtol interp all semi times sol times' solr,
  rounding u eta rnd -> 0 <= u <= 1 / 1000000 -> 0 <= eta <= 1 / 1000000000000 -> 0 <= eps <= 1 -> 0 <= e0 ->
  same_solver rnd s sr ->
  let grid := t0 :: t1 :: ts in
  spaced u eta grid -> steps_at_most H grid -> (forall b, In b grid -> Rabs b <= A) ->
  field_on n f -> field_on n fr -> lipschitz n L f -> lipschitz_time n Lt f -> bounded_by F (f 0 (repeat 0 n)) ->
  (forall t z, List.length z = n -> near n eps (fr t z) (f t z)) ->
  List.length x = n -> List.length xr = n -> near n e0 xr x ->
  snd (@odeint ROps fuel f x (@TTensor ROps grid) s atol rtol interp all [] semi) = Ok (times, sol) ->
  snd (@odeint (RndOps rnd) fuel fr xr (@TTensor (RndOps rnd) grid) sr atol rtol interp all [] semi) = Ok (times', solr) ->
  (forall z, In z solr -> bounded_by B z) ->
  times = grid /\ times' = grid /\
  forall i z zr, nth_error sol i = Some z -> nth_error solr i = Some zr ->
    near n (C * (e0 + INR i * (u + eta + eps))) zr z.
Proof. exact C168_rounding_pf. Qed.
Print Assumptions C168_rounding.

(** C168 with C103: the error of a solve in rounded arithmetic against the true solution is that of the order of the method (hmax the
    largest step) plus the rounding errors. *)
Theorem C168_total_error :
  forall s rows b p n f L Lt F B A H y yd J K M t0 T, classical_order s rows b p f ->
  field_on n f -> 0 <= L -> lipschitz n L f -> 0 <= Lt -> lipschitz_time n Lt f -> 0 <= F -> bounded_by F (f 0 (repeat 0 n)) ->
  t0 <= T -> 0 <= M -> 0 <= K -> smooth_solution n t0 T p f y yd J K M -> 0 <= B -> 0 <= H <= 2 * A ->
  exists C, 0 <= C /\
  forall rnd u eta eps fr sr xr e0 t1 ts hmax fuel atol rtol interp all semi times solr,
  rounding u eta rnd -> 0 <= u <= 1 / 1000000 -> 0 <= eta <= 1 / 1000000000000 -> 0 <= eps <= 1 -> 0 <= e0 ->
  same_solver rnd s sr ->
  let grid := t0 :: t1 :: ts in
  spaced u eta grid -> steps_at_most hmax grid -> hmax <= H -> (forall b, In b grid -> Rabs b <= A) -> last (t1 :: ts) t0 <= T ->
  field_on n fr -> (forall t z, List.length z = n -> near n eps (fr t z) (f t z)) ->
  List.length xr = n -> near n e0 xr (y t0) ->
  snd (@odeint (RndOps rnd) fuel fr xr (@TTensor (RndOps rnd) grid) sr atol rtol interp all [] semi) = Ok (times, solr) ->
  (forall z, In z solr -> bounded_by B z) ->
  forall i c zr, nth_error grid i = Some c -> nth_error solr i = Some zr ->
    near n (C * ((c - t0) * hmax ^ p + e0 + INR i * (u + eta + eps))) zr (y c).
Proof. exact C168_total_error_pf. Qed.
Print Assumptions C168_total_error.

(** y' = -y from 1 in float32 with rk4 on the grid 0, 1/2, 1 meets the hypotheses with n = L = A = 1, Lt = F = 0, H = 1/2, some B *)
Example C168_ex :
  let rnd := round radix2 (FLT_exp (-149) 24) ZnearestE in
  let f := fun (_ : R) (x : list R) => map Ropp x in
  let grid := [0; 1 / 2; 1] in
  exists u eta B sol solr, rounding u eta rnd /\ 0 <= u <= 1 / 1000000 /\ 0 <= eta <= 1 / 1000000000000 /\
    spaced u eta grid /\ steps_at_most (1 / 2) grid /\ (forall b, In b grid -> Rabs b <= 1) /\
    field_on 1 f /\ lipschitz 1 1 f /\ lipschitz_time 1 0 f /\ bounded_by 0 (f 0 [0]) /\
    same_solver rnd (RungeKutta4 ROps) (RungeKutta4 (RndOps rnd)) /\
    snd (@odeint ROps 0 f [1] (@TTensor ROps grid) (RungeKutta4 ROps) 0 0 false false [] None) = Ok (grid, sol) /\
    snd (@odeint (RndOps rnd) 0 f [1] (@TTensor (RndOps rnd) grid) (RungeKutta4 (RndOps rnd)) 0 0 false false [] None) = Ok (grid, solr) /\
    List.length solr = 3%nat /\ 0 <= B /\ (forall z, In z solr -> bounded_by B z).
Proof. exact C168_ex_pf. Qed.

