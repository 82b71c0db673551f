(** Property theorems (generated by tools/genprop.py from Pf_NaN.v, which holds the proofs). *)
From Coq Require Import ZArith QArith Reals Lra Lia List Bool Floats.
From Flocq Require Import Core BinarySingleNaN.
From Flocq Require Import IEEE754.PrimFloat.
From Verif Require Import Num Py Tensor M_Constants M_SolversOde M_Utils M_Odeint L_Base L_Float.
Import ListNotations.
Local Notation float := PrimFloat.float.
From Verif Require Import Pf_NaN.
Import ListNotations.
Local Open Scope nat_scope.

(** C111.  In binary64, for every field that keeps the size of the state, every grid (increasing or decreasing),
    all tolerances and whatever the power function: the states that a solve by dopri5 or tsit5 (no interpolation)
    returns after the initial one do not contain NaN. *)
Theorem C111_no_nan :
  forall (pw : float -> float -> float) fuel n f x ts s atol rtol all save_at times (sol : list (list float)),
  s = DormandPrince45 (FloatOps pw) \/ s = Tsitouras45 (FloatOps pw) ->
  (forall t x, length x = n -> length (f t x) = n) -> length x = n ->
  snd (@odeint (FloatOps pw) fuel f x ts s atol rtol false all save_at None) = Ok (times, sol) ->
  forall v y, In v (tl sol) -> In y v -> PrimFloat.is_nan y = false.
Proof. exact C111_no_nan_pf. Qed.
Print Assumptions C111_no_nan.

(** C111.  An initial state with a NaN in it is never left: the solve does not return (however many iterations are
    allowed) unless the grid is empty of time. *)
Theorem C111_nan_state :
  forall (pw : float -> float -> float) fuel n f (x ts : list float) s atol rtol all save_at y T r,
  s = DormandPrince45 (FloatOps pw) \/ s = Tsitouras45 (FloatOps pw) ->
  (forall t x, length x = n -> length (f t x) = n) -> length x = n ->
  In y x -> PrimFloat.is_nan y = true ->
  pylast ts = Ok T -> PrimFloat.ltb (nth 0 ts 0%float) T = true ->
  PrimFloat.ltb (nth 1 ts 0%float) (nth 0 ts 0%float) = false ->
  snd (@odeint (FloatOps pw) fuel f x (@TTensor (FloatOps pw) ts) s atol rtol false all save_at None) <> Ok r.
Proof. exact C111_nan_state_pf. Qed.
Print Assumptions C111_nan_state.

(** Infinity is not excluded: the constant field 1e308 from the state 1e308 overflows, the scale of the error
    becomes infinite, the error ratio 0, and the solve returns the infinite state (shown with a power function that is
    constantly one, which leaves the initial step at most one). *)
Theorem C111_overflow_accepted :
  let pw := fun _ _ : float => 1%float in
  exists fuel times sol,
    snd (@odeint (FloatOps pw) fuel (fun _ _ => [1e308%float]) [1e308%float] (@TTensor (FloatOps pw) [0; 10]%float)
      (DormandPrince45 (FloatOps pw)) 0.001%float 0.001%float false false [] None) = Ok (times, sol) /\
    last sol [] = [infinity].
Proof. exact C111_overflow_accepted_pf. Qed.
Print Assumptions C111_overflow_accepted.

(** A case of [C111_no_nan]: x' = sqrt(2 - x) from 1 over [0, 1] would leave the domain of the square root (and give
    NaN) if a step overshot x = 2; the returned states are numbers. *)
Example C111_no_nan_ex :
  let pw := fun _ _ : float => 1%float in
  exists times sol,
    snd (@odeint (FloatOps pw) 200 (fun _ x => map (fun a => PrimFloat.sqrt (PrimFloat.sub 2%float a)) x) [1%float]
      (@TTensor (FloatOps pw) [0; 1]%float) (DormandPrince45 (FloatOps pw)) 0.001%float 0.001%float false false [] None)
    = Ok (times, sol) /\ length sol = 2.
Proof. exact C111_no_nan_ex_pf. Qed.

