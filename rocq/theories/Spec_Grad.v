(** Smooth families of vector fields and the size of gradients. *)
From Coq Require Import Reals List.
From Verif Require Import Spec_RK Spec_Root Spec_Conv.
Import ListNotations.
Local Open Scope R_scope.

(** all n components of u are at most E in absolute value *)
Definition within (n : nat) (E : R) (u : list R) : Prop := forall i, (i < n)%nat -> Rabs (nth i u 0) <= E.

(** f q t x is a vector field on R^n with parameters q in R^m; near the parameters p it is Lipschitz in time, state and
    parameters, and D t x is its derivative in (x, q) at (x, p): additive, bounded, with a quadratic remainder, and
    Lipschitz in the point (t, x).  Fields with bounded derivatives up to order two are of this kind. *)
Definition smooth_family (n m : nat) (L : R) (f : list R -> R -> list R -> list R) (p : list R)
  (D : R -> list R -> list R -> list R -> list R) : Prop :=
  length p = m /\
  (forall q, length q = m -> field_on n (f q)) /\
  (forall t x u q, length x = n -> length u = n -> length q = m -> length (D t x u q) = n) /\
  (forall q s t y x E, length q = m -> length y = n -> length x = n -> 0 <= E -> near n E y x -> near m E q p ->
     near n (L * (Rabs (s - t) + E)) (f q s y) (f p t x)) /\
  (forall q t y x E, length q = m -> length y = n -> length x = n -> 0 <= E -> near n E y x -> near m E q p ->
     near n (L * (E * E)) (minus_vec (f q t y) (f p t x)) (D t x (minus_vec y x) (minus_vec q p))) /\
  (forall t x u u' q q', length x = n -> length u = n -> length u' = n -> length q = m -> length q' = m ->
     D t x (minus_vec u u') (minus_vec q q') = minus_vec (D t x u q) (D t x u' q')) /\
  (forall t x u q E, length x = n -> length u = n -> length q = m -> 0 <= E -> within n E u -> within m E q ->
     within n (L * E) (D t x u q)) /\
  (forall s t y x u q e E, length y = n -> length x = n -> length u = n -> length q = m -> 0 <= e -> 0 <= E ->
     near n e y x -> within n E u -> within m E q -> near n (L * (Rabs (s - t) + e) * E) (D s y u q) (D t x u q)).

(** vector-Jacobian products: w . D t x u q = vjp_x . u + vjp_p . q *)
Definition transposes (n m : nat) (D : R -> list R -> list R -> list R -> list R) (vx vp : R -> list R -> list R -> list R) : Prop :=
  forall t x w, length x = n -> length w = n -> length (vx t x w) = n /\ length (vp t x w) = m /\
    forall u q, length u = n -> length q = m -> dot (vx t x w) u + dot (vp t x w) q = dot w (D t x u q).

(** the weights of the method sum to one, one weight per stage *)
Definition consistent (rows : list (R * list R)) (b : list R) : Prop := length b = length rows /\ fold_right Rplus 0 b = 1.

(** sum of the absolute values of all entries *)
Definition total (g : list (list R)) : R := fold_right Rplus 0 (map (fun v => fold_right Rplus 0 (map Rabs v)) g).
