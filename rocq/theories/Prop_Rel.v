(** Property theorems (generated by tools/genprop.py from Pf_Rel.v, which holds the proofs). *)
From Coq Require Import ZArith QArith Lia List Bool Floats.
From Verif Require Import Num Py Tensor M_Constants M_SolversOde M_Utils M_Interp M_Odeint L_Base L_Nan.
Import ListNotations.
Local Notation length := List.length.
From Verif Require Import Pf_Rel.
Import ListNotations.
Local Open Scope float_scope.

(** C160, refuted.  For every tolerance rtol, every time grid that goes forward, every state one of whose entries is zero and every
    field that leaves this entry at zero (for instance f(t, x) = -x, or any coupled field for which the entry is an
    equilibrium), a solve by dopri5 or tsit5 with atol = 0 never returns, in double precision: however many iterations it is given.
    The scaled error of the entry is 0/0. *)
Theorem C160_zero_entry_refuted :
  forall (pw : float -> float -> float) (s : solver (FloatOps pw) (list float)),
  s = DormandPrince45 (FloatOps pw) \/ s = Tsitouras45 (FloatOps pw) ->
  forall (f : float -> list float -> list float) (i : nat) (x : list float),
  (forall t y, entry_zero i y -> entry_zero i (f t y)) -> nth_error x i = Some 0 ->
  forall (t0 t1 T : float) (ts : list float), (t1 <? t0) = false -> pylast (t0 :: t1 :: ts) = Ok T -> (t0 <? T) = true ->
  forall (fuel : nat) (rtol : float) (interp all : bool) (save : list float),
  snd (@odeint (FloatOps pw) fuel f x (@TTensor (FloatOps pw) (t0 :: t1 :: ts)) s 0 rtol interp all save None) = OutOfFuel.
Proof. exact C160_zero_entry_refuted_pf. Qed.
Print Assumptions C160_zero_entry_refuted.

(** C160, the part that holds: with a positive finite absolute tolerance the scaled error of an entry that is zero, whatever finite
    rtol, is zero, so that the entry adds nothing to the sum of squares that decides about the step. *)
Theorem C160_absolute_partial :
  forall (pw : float -> float -> float) (atol rtol x x' e : float),
  (0 <? atol) = true -> (PrimFloat.abs atol <? infinity) = true -> (PrimFloat.abs rtol <? infinity) = true ->
  (x = 0 \/ x = -0) -> (x' = 0 \/ x' = -0) -> (e = 0 \/ e = -0) ->
  @error_ratio (FloatOps pw) atol rtol None [x] [x'] [e] = 0.
Proof. exact C160_absolute_partial_pf. Qed.
Print Assumptions C160_absolute_partial.

(** The hypotheses are met by x' = -x from (1, 0) over [0, 1], and the scaled error of a zero entry is zero for atol = rtol = 0.001. *)
Example C160_ex :
  forall pw : float -> float -> float,
  (forall fuel, snd (@odeint (FloatOps pw) fuel (fun _ y => map PrimFloat.opp y) [1; 0] (@TTensor (FloatOps pw) [0; 1])
     (DormandPrince45 (FloatOps pw)) 0 0.001 false false [] None) = OutOfFuel) /\
  @error_ratio (FloatOps pw) 0.001 0.001 None [0] [0] [0] = 0.
Proof. exact C160_ex_pf. Qed.

