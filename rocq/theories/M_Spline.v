(** Model of the uses of torchcde: the spline of the interpolated adjoint (torchdyn/numerics/sensitivity.py, lines
    116-159) and dense_output (torchdyn/numerics/utils.py, lines 66-73).

    torchcde is not part of the repository (setup.py line 28 and pyproject.toml line 15 ask for version 0.2.3 or later);
    the functions below follow its signatures and documentation: natural_cubic_coeffs(x, t=None),
    hermite_cubic_coefficients_with_backward_differences(x, t=None), CubicSpline(coeffs, t=None). *)
From Coq Require Import ZArith QArith List Bool.
From Verif Require Import Num Py Tensor M_SolversOde M_Odeint M_Sens.
Import ListNotations.
Local Open Scope nat_scope.

Section Spline.
Context {K : NumOps}.
Notation V := (vec K).

(** ** torchcde *)

Fixpoint strictly_increasing (l : list K) : bool :=
  match l with
  | a :: ((b :: _) as l') => nltb a b && strictly_increasing l'
  | _ => true
  end.

(** validate_input_path(x, t): x has the shape (..., length, channels), t has the shape (length,).
    Simplification: the tensors are floating point (otherwise ValueError as well). *)
Definition validate_input_path (x_shape t_shape : list nat) (t : list K) : res unit :=
  if length x_shape <? 2 then Err ValueError else
  if negb (length t_shape =? 1) then Err ValueError else
  if negb (strictly_increasing t) then Err ValueError else
  if negb (nth (length x_shape - 2) x_shape 0 =? length t) then Err ValueError else
  if length t <? 2 then Err ValueError else Ok tt.

(** tridiagonal_solve with equal side diagonals [r]: [d] and [b] are the diagonal entry and the right-hand side of
    the current row after elimination *)
Fixpoint tridiagonal (r diag rhs : list K) (d b : K) : list K :=
  match r, diag, rhs with
  | r0 :: r', d1 :: diag', b1 :: rhs' =>
      let w := (r0 / d)%N in
      match tridiagonal r' diag' rhs' (d1 - w * r0)%N (b1 - w * b)%N with
      | [] => []
      | o :: outs => ((b - r0 * o) / d)%N :: o :: outs
      end
  | _, _, _ => [(b / d)%N]
  end.

Definition diffs (l : list K) : list K := map2 nsub (tl l) l.

(** the derivatives of the natural cubic spline at the knots *)
Definition knot_derivatives (t x : list K) : list K :=
  let r := map (fun h => n1 / h)%N (diffs t) in
  let scaled := map2 (fun dx r => (nQ 3 * dx) * (r * r))%N (diffs x) r in
  let diag := map (fun v => nQ 2 * v)%N (map2 nadd (r ++ [n0]) (n0 :: r)) in
  let rhs := map2 nadd (scaled ++ [n0]) (n0 :: scaled) in
  match diag, rhs with
  | d :: diag', b :: rhs' => tridiagonal r diag' rhs' d b
  | _, _ => []
  end.

(** the coefficients a, b, 2c, 3d on one interval of length h *)
Definition cubic : Type := (K * K * K * K)%type.
Definition hermite_cubic (h x0 x1 k0 k1 : K) : cubic :=
  let r := (n1 / h)%N in
  let six := (nQ 6 * (x1 - x0))%N in
  (x0, k0, ((six * r - nQ 4 * k0 - nQ 2 * k1) * r)%N, ((- six * r + nQ 3 * (k0 + k1)) * (r * r))%N).

Fixpoint hermite_cubics (t x k : list K) : list (K * cubic) :=
  match t, x, k with
  | t0 :: ((t1 :: _) as t'), x0 :: ((x1 :: _) as x'), k0 :: ((k1 :: _) as k') =>
      (t0, hermite_cubic (t1 - t0)%N x0 x1 k0 k1) :: hermite_cubics t' x' k'
  | _, _, _ => []
  end.

(** natural_cubic_coeffs of one channel: the cubics with the left ends of their intervals *)
Definition natural_cubic_coeffs (t x : list K) : list (K * cubic) :=
  match t, x with
  | [t0; t1], [x0; x1] => [(t0, (x0, ((x1 - x0) / (t1 - t0))%N, n0, n0))]
  | _, _ => hermite_cubics t x (knot_derivatives t x)
  end.

(** CubicSpline.evaluate: the interval is bucketize(t, knots) - 1 between the first and the last one, that is the
    last one whose left end is below t *)
Definition eval_cubic (c : cubic) (s : K) : K :=
  let '(a, b, two_c, three_d) := c in
  (a + (b + (nhalf * two_c + three_d * s / nQ 3) * s) * s)%N.
Fixpoint spline_evaluate (cs : list (K * cubic)) (t : K) : K :=
  match cs with
  | [] => n0
  | (t0, c) :: cs' =>
      match cs' with
      | (t1, _) :: _ => if nltb t1 t then spline_evaluate cs' t else eval_cubic c (t - t0)%N
      | [] => eval_cubic c (t - t0)%N
      end
  end.

(** ** sensitivity.py, lines 126-127 and 132: [shape] is the shape of the state, the solution has one axis more.
    sol.permute(1, 0, 2) raises unless the solution has three axes; the number of elements of the state are the channels. *)
Definition size (shape : list nat) : nat := fold_right Nat.mul 1 shape.
Definition interp_path (shape : list nat) (t_sol : list K) (sol : list V) : res (K -> V) :=
  match shape with
  | [k; d] =>
      rbind (validate_input_path [k; length sol; d] [length t_sol] t_sol) (fun _ =>
      Ok (fun t => map (fun j => spline_evaluate (natural_cubic_coeffs t_sol (map (fun y => nth j y n0) sol)) t)
                       (seq 0 (size shape))))
  | _ => Err RuntimeError
  end.

(** forward and backward of the interpolated adjoint, lines 108-159: [gx] are the gradients of the loss with respect to
    the returned states *)
Definition interp_backward (fuel : nat) (F : adj_field) (shape : list nat) (nmu : nat) (s : solver K V) (atol rtol : K)
  (t_span t_sol : list K) (sol gx : list V) : res (V * V) :=
  rbind (interp_path shape t_sol sol) (fun path =>
  interp_adjoint_backward fuel F path nmu s atol rtol t_span gx).

(** ** dense_output, utils.py lines 66-73: the times are passed as x and the permuted solution as t *)
Record array : Type := MkArr { a_shape : list nat; a_data : list K }.
Definition permute102 (a : array) : res (list nat) :=
  match a_shape a with [p; q; r] => Ok [q; p; r] | _ => Err RuntimeError end.
(** what happens after the validation is left open: [run] *)
Definition dense_output {A : Type} (run : list nat -> array -> array -> array -> res A) (sol t_sol t_eval : array) : res A :=
  rbind (permute102 sol) (fun shape =>
  rbind (validate_input_path (a_shape t_sol) shape (a_data sol)) (fun _ =>
  run shape sol t_sol t_eval)).

End Spline.
