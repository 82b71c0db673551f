(** Specification of grids on which binary64 time stepping lands exactly. *)
From Coq Require Import List Bool Floats.
Import ListNotations.
Local Open Scope float_scope.

(** [a] and [b] are finite, [a < b], of one sign and within a factor two of each other. *)
Definition close (a b : float) : bool :=
  is_finite a && is_finite b && (a <? b) &&
  (((0 <? a) && (b <=? a + a)) || ((b <? 0) && (b + b <=? a))).

(** Consecutive times of the grid are close. *)
Fixpoint close_grid (ts : list float) : bool :=
  match ts with
  | a :: ((b :: _) as rest) => close a b && close_grid rest
  | _ => true
  end.

(** A power function whose values at fractional exponents are not negative (IEEE-754 [pow] returns NaN
    for a negative base, +0 for a zero base and +inf for an infinite one). *)
Definition sane_power (pw : float -> float -> float) : Prop :=
  forall a b, (0 <? b) = true -> (b <? 1) = true -> (pw a b <? 0) = false.
