(** Rounded arithmetic: every operation is followed by a rounding with relative error u and absolute error
    eta (IEEE binary formats without overflow: u half an ulp of 1, eta half the least subnormal number). *)
From Coq Require Import QArith Qreals Reals List.
From Verif Require Import Num.
Import ListNotations.
Local Open Scope R_scope.

Definition rounding (u eta : R) (rnd : R -> R) : Prop := forall x, Rabs (rnd x - x) <= u * Rabs x + eta.

(** Negation, absolute value, maximum, minimum and comparisons are exact. *)
Definition RndOps (rnd : R -> R) : NumOps := {|
  num := R; nQ := fun q => rnd (Q2R q);
  nadd := fun a b => rnd (a + b); nsub := fun a b => rnd (a - b);
  nmul := fun a b => rnd (a * b); ndiv := fun a b => rnd (a / b);
  nopp := Ropp; nabs := Rabs; nsqrt := fun a => rnd (R_sqrt.sqrt a); npowr := fun a b => rnd (Rpw a b);
  nmax := Rmax; nmin := Rmin;
  nltb := Rltb; nleb := Rleb; neqb := Reqb |}.

(** Times and states of a one-step method that aims at the given times: the step size is the rounded distance
    to the next one, the clock advances by a rounded sum. *)
Fixpoint clock_traj {X : Type} (rnd : R -> R) (one : R -> R -> X -> X) (t : R) (x : X) (targets : list R) : list (R * X) :=
  match targets with
  | [] => []
  | s :: rest =>
      let h := rnd (s - t) in
      let t' := rnd (t + h) in
      (t', one t h x) :: clock_traj rnd one t' (one t h x) rest
  end.

(** Consecutive times a < b differ by more than three times the tolerance that identifies times, and the
    rounding errors at their magnitudes are below half of it. *)
Definition spaced (u eta : R) (l : list R) : Prop :=
  forall i a b, nth_error l i = Some a -> nth_error l (S i) = Some b ->
    3 * (1 / 100000000 + 1 / 100000 * Rmax (Rabs a) (Rabs b)) <= b - a /\
    3 * u * (Rabs a + Rabs b) + 3 * eta <= / 2 * (1 / 100000000 + 1 / 100000 * Rabs b).

(** Explicit Euler in rounded arithmetic *)
Definition euler_rounded (rnd : R -> R) (f : R -> list R -> list R) (t h : R) (x : list R) : list R :=
  map (fun p => rnd (fst p + rnd (h * snd p))) (combine x (f t x)).
