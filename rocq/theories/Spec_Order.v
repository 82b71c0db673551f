(** Constants of the perturbation and convergence bounds of explicit Runge-Kutta methods, order
    conditions, stability polynomials. *)
From Coq Require Import Reals List QArith Factorial.
From Verif Require Import Spec_Trees Spec_RK Spec_Conv.
Import ListNotations.
Local Open Scope R_scope.

(** sum_j |w_j| g_j and sum_j w_j g_j *)
Fixpoint abs_sum (w g : list R) : R :=
  match w, g with a :: w', u :: g' => Rabs a * u + abs_sum w' g' | _, _ => 0 end.
Fixpoint lin_sum (w g : list R) : R :=
  match w, g with a :: w', u :: g' => a * u + lin_sum w' g' | _, _ => 0 end.

(** Constants attached to the stages one after the other: that of stage i may depend on its row and on
    those of the earlier stages *)
Definition stagewise (step : list R -> R * list R -> R) (rows : list (R * list R)) : list R :=
  fold_left (fun acc r => acc ++ [step acc r]) rows [].

(** How much stage values, and a step, enlarge a difference of the states; the field has Lipschitz
    constant L, the step size is at most H *)
Definition stage_growth (L H : R) := stagewise (fun g r => L * (1 + H * abs_sum (snd r) g)).
Definition growth (L H : R) (rows : list (R * list R)) (b : list R) : R := abs_sum b (stage_growth L H rows).
(** How much they enlarge a difference of the fields *)
Definition stage_leak (L H : R) := stagewise (fun g r => 1 + L * H * abs_sum (snd r) g).
Definition leak (L H : R) (rows : list (R * list R)) (b : list R) : R := abs_sum b (stage_leak L H rows).

(** the fields differ by at most eps *)
Definition field_near (n : nat) (eps : R) (f g : R -> list R -> list R) : Prop :=
  forall t x, length x = n -> near n eps (f t x) (g t x).

(** matrices with real entries, and their action on R^n *)
Fixpoint rsum (N : nat) (g : nat -> R) : R := match N with O => 0 | S m => rsum m g + g m end.
Definition mat_vec (n : nat) (A : nat -> nat -> R) (v : nat -> R) (i : nat) : R := rsum n (fun j => A i j * v j).

(** Smoothness along a solution, to order p: y, y' = f(t, y), ..., y^(p+1) exist on [[t0, T]] with bound M;
    J 0 t is the Jacobian of f in the state at (t, y t), with a quadratic remainder; it has p - 1 time
    derivatives J 1, ..., J (p-1) with bound M.  (For f with bounded continuous derivatives up to order
    max(p, 2) all of this holds.) *)
Definition smooth_solution (n : nat) (t0 T : R) (p : nat) (f : R -> list R -> list R) (y : R -> list R)
  (yd : nat -> R -> list R) (J : nat -> R -> nat -> nat -> R) (K M : R) : Prop :=
  (forall t, length (y t) = n) /\
  (forall t, yd 0%nat t = y t) /\ (forall t, t0 <= t <= T -> yd 1%nat t = f t (y t)) /\
  (forall m, (m <= p)%nat -> curve_derivative n t0 T (yd m) (yd (S m))) /\
  (forall m, (m <= S p)%nat -> curve_bound n t0 T M (yd m)) /\
  (forall m i j t, (S m < p)%nat -> (i < n)%nat -> (j < n)%nat -> t0 <= t <= T ->
     derivable_pt_lim (fun s => J m s i j) t (J (S m) t i j)) /\
  (forall m i j t, (m < p)%nat -> (i < n)%nat -> (j < n)%nat -> t0 <= t <= T -> Rabs (J m t i j) <= M) /\
  (forall t x D, t0 <= t <= T -> length x = n -> near n D x (y t) -> forall i, (i < n)%nat ->
     Rabs (nth i (f t x) 0 - nth i (f t (y t)) 0
           - mat_vec n (J 0%nat t) (fun j => nth j x 0 - nth j (y t) 0) i) <= K * (D * D)).

(** Effect of writing the 7 mid-point weights of dopri5 with 16 digits, per unit of step size: M bounds the
    slope of the solution, M (1 + L H) the field near it, [leak] sums the amplifications of the stages *)
Definition digits_effect (L M H : R) : R :=
  M * (1 + L * H) * leak L H (to_R_rows q_dopri5) (repeat 1 7) / 10 ^ 14.
