(** What a solve of x' = v with a constant v must return, and the rounding of the coefficients. *)
From Coq Require Import ZArith Reals List.
From Flocq Require Import Core.
Import ListNotations.
Local Open Scope R_scope.

(** nearest number with [p] significant bits, ties to even *)
Definition nearest (p : Z) (x : R) : R := round radix2 (FLX_exp p) ZnearestE x.

(** the states [sol] returned at [times] are those of x + (1 + delta) v (t - t0): the solution if delta = 0 *)
Definition constant_speed (delta : R) (x v : list R) (t0 : R) (times : list R) (sol : list (list R)) : Prop :=
  length sol = length times /\
  forall i t y, nth_error times i = Some t -> nth_error sol i = Some y -> length y = length x /\
  forall j, (j < length x)%nat -> nth j y 0 = nth j x 0 + (1 + delta) * nth j v 0 * (t - t0).
