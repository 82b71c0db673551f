(** Property theorems (generated by tools/genprop.py from Pf_Land.v, which holds the proofs). *)
From Coq Require Import ZArith QArith Reals Lra Lia List Bool Floats.
From Flocq Require Import Core BinarySingleNaN.
From Flocq Require Import IEEE754.PrimFloat.
From Verif Require Import Num Py Tensor M_Constants M_SolversOde M_Utils M_Odeint L_Base L_Float Spec_Land.
Import ListNotations.
Local Notation float := PrimFloat.float.
From Verif Require Import Pf_Land.
Import ListNotations.
Local Open Scope nat_scope.

(** C16 (what holds).  In binary64, for every vector field (it may return NaN, infinities or arrays of a wrong
    length), every power function that is not negative at fractional exponents, all tolerances and seminorms:
    if consecutive times of [t_span] have one sign and are within a factor two of each other, a solve by dopri5 or
    tsit5 (without interpolation) that returns reports exactly the requested times, bit for bit, with one state
    each.  On decreasing grids the reported times are the negated ones. *)
Theorem C16_close_grid_partial :
  forall (pw : float -> float -> float) fuel f x (ts : list float) s atol rtol save_at semi times sol,
  sane_power pw -> s = DormandPrince45 (FloatOps pw) \/ s = Tsitouras45 (FloatOps pw) -> (2 <= length ts)%nat ->
  (close_grid ts = true -> forall tt, tt = @TTensor (FloatOps pw) ts \/ tt = @TList (FloatOps pw) ts ->
     snd (@odeint (FloatOps pw) fuel f x tt s atol rtol false false save_at semi) = Ok (times, sol) ->
     times = ts /\ length sol = length ts) /\
  (close_grid (map PrimFloat.opp ts) = true ->
     snd (@odeint (FloatOps pw) fuel f x (@TTensor (FloatOps pw) ts) s atol rtol false false save_at semi) = Ok (times, sol) ->
     times = map PrimFloat.opp ts /\ length sol = length ts).
Proof. exact C16_close_grid_partial_pf. Qed.
Print Assumptions C16_close_grid_partial.

(** A case: the field (-x, 1) over t_span = [1, 1.5, 2, 2.1, 4] meets the hypotheses and the solve returns. *)
Example C16_close_grid_partial_ex :
  let pw := fun _ _ : float => 1%float in
  let ts := [1; 1.5; 2; 2.1; 4]%float in
  sane_power pw /\ close_grid ts = true /\
  exists times sol,
    snd (@odeint (FloatOps pw) 200 (fun _ x => [PrimFloat.opp (nth 0 x 0%float); 1%float]) [1%float; 0%float]
      (@TTensor (FloatOps pw) ts) (DormandPrince45 (FloatOps pw)) 0.001%float 0.001%float false false [] None)
    = Ok (times, sol) /\ length sol = 5.
Proof. exact C16_close_grid_partial_ex_pf. Qed.

