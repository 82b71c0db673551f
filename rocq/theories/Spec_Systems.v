(** Textbook forms of the systems of torchdyn/numerics/systems.py. *)
From Coq Require Import Reals List String.
Import ListNotations.
Local Open Scope R_scope.

Definition lorenz (sigma rho beta : R) (v : list R) : list R :=
  match v with
  | [x; y; z] => [sigma * (y - x); x * (rho - z) - y; x * y - beta * z]
  | _ => []
  end.
(** x'' = mu (1 - x^2) x' - x *)
Definition van_der_pol (mu : R) (v : list R) : list R :=
  match v with [x; y] => [y; mu * (1 - x ^ 2) * y - x] | _ => [] end.
Definition rabinovich_fabrikant (gamma alpha : R) (v : list R) : list R :=
  match v with
  | [x; y; z] => [y * (z - 1 + x ^ 2) + gamma * x; x * (3 * z + 1 - x ^ 2) + gamma * y; - 2 * z * (alpha + x * y)]
  | _ => []
  end.

(** sum over k < n *)
Fixpoint sum_below (n : nat) (g : nat -> R) : R := match n with O => 0 | S n => sum_below n g + g n end.
(** a sum of harmonics: two cosines per harmonic k *)
Definition harmonics (a phi w : nat -> nat -> nat -> R) (nh i : nat) (s : R) : R :=
  sum_below nh (fun k => a i k 0%nat * cos (w i k 0%nat * s + phi i k 0%nat) + a i k 1%nat * cos (w i k 1%nat * s + phi i k 1%nat)).
Definition amplitude (a : nat -> nat -> nat -> R) (nh i : nat) : R :=
  sum_below nh (fun k => Rabs (a i k 0%nat) + Rabs (a i k 1%nat)).
