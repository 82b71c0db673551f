(** What a gradient with respect to the initial state is, for fields with a constant Jacobian. *)
From Coq Require Import Reals List.
From Verif Require Import Spec_RK Spec_Root.
Import ListNotations.
Local Open Scope R_scope.

(** sum over the returned times of <g_i, x_i>: the linearisation of a loss whose gradients with respect
    to the returned states are g *)
Fixpoint pairing (g xs : list (list R)) : R :=
  match g, xs with
  | a :: g', x :: xs' => dot a x + pairing g' xs'
  | _, _ => 0
  end.

(** f(t, y) = M y + c(t) on R^n *)
Definition constant_jacobian (n : nat) (M : list (list R)) (f : R -> list R -> list R) : Prop :=
  is_matrix n n M /\ field_on n f /\
  forall t y z, length y = n -> length z = n -> minus_vec (f t y) (f t z) = apply M (minus_vec y z).

(** the product w^T M, as autograd computes it *)
Definition transposed_product (n : nat) (M : list (list R)) (vjp : R -> list R -> list R -> list R) : Prop :=
  forall t x w, length w = n ->
    length (vjp t x w) = n /\ forall v, length v = n -> dot (vjp t x w) v = dot w (apply M v).
