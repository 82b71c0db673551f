(** Natural cubic splines and adjoint recursions. *)
From Coq Require Import Reals List.
From Verif Require Import Spec_RK.
Import ListNotations.
Local Open Scope R_scope.

(** S passes through the points, is twice continuously differentiable everywhere, has no curvature at the two ends and
    is a polynomial of degree 3 between neighbouring knots *)
Definition natural_spline (ts xs : list R) (S : R -> R) : Prop :=
  (forall i t x, nth_error ts i = Some t -> nth_error xs i = Some x -> S t = x) /\
  (exists S1 S2 : R -> R,
     (forall t, derivable_pt_lim S t (S1 t)) /\ (forall t, derivable_pt_lim S1 t (S2 t)) /\ (forall t, continuity_pt S2 t) /\
     S2 (hd 0 ts) = 0 /\ S2 (last ts 0) = 0) /\
  (forall i t t', nth_error ts i = Some t -> nth_error ts (Datatypes.S i) = Some t' ->
     exists a b c d, forall u, t <= u <= t' -> S u = a + b * u + c * u ^ 2 + d * u ^ 3).

(** The adjoint state at the first time: steps of the method with the field [f] from the end of the grid to its
    beginning; at every time the gradient [g] of the loss with respect to the state of this time is added *)
Fixpoint adjoint_recursion (rows : list (R * list R)) (b : list R) (f : R -> list R -> list R)
  (ts : list R) (gs : list (list R)) : list R :=
  match ts, gs with
  | t0 :: ((t1 :: _) as ts'), g :: gs' =>
      axpy 1 g (erk_step rows b f t1 (t0 - t1) (adjoint_recursion rows b f ts' gs'))
  | _, g :: _ => g
  | _, [] => []
  end.

(** The same for the explicit Euler method, with the states [xs] of the grid and the vector-Jacobian product [vjp]:
    lambda(t0) = g + lambda(t1) + (t0 - t1) J(t1, x1)^T (- lambda(t1)) *)
Fixpoint euler_recursion (vjp : R -> list R -> list R -> list R) (ts : list R) (xs gs : list (list R)) : list R :=
  match ts, xs, gs with
  | t0 :: ((t1 :: _) as ts'), _ :: ((x1 :: _) as xs'), g :: gs' =>
      let lam := euler_recursion vjp ts' xs' gs' in
      axpy 1 g (axpy (t0 - t1) (vjp t1 x1 (map Ropp lam)) lam)
  | _, _, g :: _ => g
  | _, _, [] => []
  end.
