(** Property theorems (generated by tools/genprop.py from Pf_Unit.v, which holds the proofs). *)
From Coq Require Import ZArith QArith Qreals Reals Lra Lia List Bool.
From Verif Require Import Num Py Tensor M_Constants M_SolversOde M_Utils M_Interp M_Odeint M_Autograd.
From Verif Require Import Spec_Ode Spec_Trees Spec_RK Spec_Norm Spec_Adaptive Spec_Inv.
From Verif Require Import L_Base L_Fixed L_Vec L_Steps L_Tables L_Steps2 L_Utils L_Fixed2 L_Adaptive L_Adaptive2 L_Reach L_Inv Pf_Fixed Pf_AdGrad.
Import ListNotations.
Local Notation length := List.length.
From Verif Require Import Pf_Unit.
Import ListNotations.
Local Open Scope R_scope.

(** C156 (fixed-step solvers).  The same states in every unit of time, for increasing grids without times that are close in the sense of torch.isclose, in both
    units. *)
Theorem C156_fixed : forall fuel s rows b n f x c t0 t1 ts atol rtol interp all semi,
  builtin_fixed s rows b -> field_on n f -> List.length x = n -> 0 < c -> increasing (t0 :: t1 :: ts) ->
  separated (t0 :: t1 :: ts) -> separated (map (Rmult c) (t0 :: t1 :: ts)) ->
  exists states,
  snd (@odeint ROps fuel f x (@TTensor ROps (t0 :: t1 :: ts)) s atol rtol interp all [] semi) = Ok (t0 :: t1 :: ts, states) /\
  snd (@odeint ROps fuel (rescaled_field c f) x (@TTensor ROps (map (Rmult c) (t0 :: t1 :: ts))) s atol rtol interp all [] semi) =
  Ok (map (Rmult c) (t0 :: t1 :: ts), states).
Proof. exact C156_fixed_pf. Qed.
Print Assumptions C156_fixed.

(** C156 (adaptive loop).  Everything except the choice of the first step size is independent of the unit: _adaptive_odeint with the first slope and the first step size in
    the new unit returns the same states.  (partial: odeint chooses the first step size; C156_adaptive_refuted.) *)
Theorem C156_loop_partial : forall fuel s rows b bh f k1 x dt c ts atol rtol interp all semi,
  builtin_pair s rows b bh -> 0 < c ->
  snd (@adaptive_odeint ROps fuel (rescaled_field c f) (map (Rmult (/ c)) k1) x (c * dt) (map (Rmult c) ts) s atol rtol interp all semi) =
  rmap (fun r : list R * list (list R) => (map (Rmult c) (fst r), snd r)) (snd (@adaptive_odeint ROps fuel f k1 x dt ts s atol rtol interp all semi)).
Proof. exact C156_loop_partial_pf. Qed.
Print Assumptions C156_loop_partial.

(** C156 is violated for adaptive solvers: x' = 1 + t^5 from 1 over [0, 1/20] with dopri5, atol = 1, rtol = 0 takes one step; in hundredths it takes two, and returns another state: the
    formula for the first step size ([init_step], utils.py lines 37-54) has (0.01 / slope) ** (1 / (order + 1)), which does not scale with the unit. *)
Theorem C156_adaptive_refuted : forall fuel, (2 <= fuel)%nat ->
  let f := fun (t : R) (_ : list R) => [1 + t ^ 5] in
  exists times times' y y',
    snd (@odeint ROps fuel f [1] (@TTensor ROps [0; 1 / 20]) (DormandPrince45 ROps) 1 0 false false [] None) = Ok (times, [[1]; [y]]) /\
    snd (@odeint ROps fuel (rescaled_field 100 f) [1] (@TTensor ROps (map (Rmult 100) [0; 1 / 20])) (DormandPrince45 ROps) 1 0 false false [] None) = Ok (times', [[1]; [y']]) /\
    times' = map (Rmult 100) times /\ y < y'.
Proof. exact C156_adaptive_refuted_pf. Qed.
Print Assumptions C156_adaptive_refuted.

(** C156, refuted for fixed-step solvers: x' = x by euler over [0, 1] works; in units of 10^9 the interval is [0, 10^-9], and the same solve raises AssertionError. *)
Theorem C156_fixed_refuted : forall fuel,
  let f := fun (t : R) (y : list R) => y in
  (exists r, snd (@odeint ROps fuel f [1] (@TTensor ROps [0; 1]) (Euler ROps) (1/1000) (1/1000) false false [] None) = Ok r) /\
  snd (@odeint ROps fuel (rescaled_field (1 / 1000000000) f) [1] (@TTensor ROps (map (Rmult (1 / 1000000000)) [0; 1])) (Euler ROps)
    (1/1000) (1/1000) false false [] None) = Err AssertionError.
Proof. exact C156_fixed_refuted_pf. Qed.
Print Assumptions C156_fixed_refuted.

(** The hypotheses of C156 are met: three times, in seconds and milliseconds. *)
Example C156_ex : 0 < 1000 /\ increasing [0; 1; 2] /\ separated [0; 1; 2] /\ separated (map (Rmult 1000) [0; 1; 2]) /\
  builtin_fixed (Euler ROps) (to_R_rows q_euler) (to_R qb_euler) /\
  rescaled_field 1000 (fun t x => [t + nth 0 x 0]) 2000 [3] = [/ 1000 * (2000 / 1000 + 3)].
Proof. exact C156_ex_pf. Qed.

