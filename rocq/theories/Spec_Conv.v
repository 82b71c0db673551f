(** Specification vocabulary for convergence: R^n with the maximum norm, componentwise derivatives. *)
From Coq Require Import Reals List.
Import ListNotations.
Local Open Scope R_scope.

(** [x] and [y] in R^n differ by at most [D] in every component. *)
Definition near (n : nat) (D : R) (x y : list R) : Prop :=
  forall i, (i < n)%nat -> Rabs (nth i x 0 - nth i y 0) <= D.

(** Lipschitz in the state, for the maximum norm. *)
Definition lipschitz (n : nat) (L : R) (f : R -> list R -> list R) : Prop :=
  forall t x y D, length x = n -> length y = n -> near n D x y -> near n (L * D) (f t x) (f t y).

(** [dy] is the componentwise derivative of the curve [y] at every time of [[a, b]]. *)
Definition curve_derivative (n : nat) (a b : R) (y dy : R -> list R) : Prop :=
  forall i t, (i < n)%nat -> a <= t <= b ->
    derivable_pt_lim (fun s => nth i (y s) 0) t (nth i (dy t) 0).

(** All components of the curve are at most [M] in absolute value on [[a, b]]. *)
Definition curve_bound (n : nat) (a b M : R) (y : R -> list R) : Prop :=
  forall i t, (i < n)%nat -> a <= t <= b -> Rabs (nth i (y t) 0) <= M.

(** [y] solves y' = f(t, y) on [[a, b]]. *)
Definition solves (n : nat) (a b : R) (f : R -> list R -> list R) (y : R -> list R) : Prop :=
  (forall t, length (y t) = n) /\ curve_derivative n a b y (fun t => f t (y t)).

(** Consecutive entries increase by at most [H]. *)
Definition steps_at_most (H : R) (l : list R) : Prop :=
  forall i a b, nth_error l i = Some a -> nth_error l (S i) = Some b -> b - a <= H.
