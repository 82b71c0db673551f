(** Polynomials, powers of a linear map, and products along a grid. *)
From Coq Require Import Reals List Lra.
From Verif Require Import Spec_RK.
Import ListNotations.
Local Open Scope R_scope.

(** p_0 + p_1 s + p_2 s^2 + ... *)
Fixpoint peval (p : list R) (s : R) : R := match p with [] => 0 | a :: p' => a + s * peval p' s end.

(** A is linear on R^n *)
Definition linear_on (n : nat) (A : list R -> list R) : Prop :=
  (forall y, length y = n -> length (A y) = n) /\
  forall a k y, length k = n -> length y = n -> A (axpy a k y) = axpy a (A k) (A y).

(** c_0 y + c_1 h A y + c_2 h^2 A^2 y + ... *)
Fixpoint matrix_poly (n : nat) (A : list R -> list R) (c : list R) (h : R) (y : list R) : list R :=
  match c with
  | [] => repeat 0 n
  | a :: c' => axpy a y (map (Rmult h) (matrix_poly n A c' h (A y)))
  end.

(** the product of g over the spacings of the first i intervals of a grid *)
Fixpoint grid_product (g : R -> R) (ts : list R) (i : nat) : R :=
  match i, ts with
  | S i', t0 :: ((t1 :: _) as ts') => g (t1 - t0) * grid_product g ts' i'
  | _, _ => 1
  end.

(** all spacings of a grid *)
Fixpoint spacings (ts : list R) : list R :=
  match ts with
  | t0 :: ((t1 :: _) as ts') => (t1 - t0) :: spacings ts'
  | _ => []
  end.
