(** Labelled data sets, spheres, moons, rings. *)
From Coq Require Import Reals List Arith.
From Verif Require Import Spec_Root.
Import ListNotations.
Local Open Scope R_scope.

(** n points of R^dim with n labels *)
Definition dataset (n dim : nat) (D : list (list R) * list nat) : Prop :=
  length (fst D) = n /\ Forall (fun r => length r = dim) (fst D) /\ length (snd D) = n.
Definition point (D : list (list R) * list nat) (i : nat) : list R := nth i (fst D) [].
Definition label (D : list (list R) * list nat) (i : nat) : nat := nth i (snd D) 0%nat.

Definition on_sphere (radius : R) (v : list R) : Prop := euclid v = radius.
(** a drawn vector of dimension dim that is not zero *)
Definition draw (dim : nat) (v : nat -> R) : list R := map v (seq 0 dim).
Definition nonzero_draw (dim : nat) (v : nat -> R) : Prop := exists j, (j < dim)%nat /\ v j <> 0.

(** the two moons: the upper half of the unit circle, and the lower half of the unit circle around (1, 1/2) *)
Definition moon (lab : nat) (theta : R) : list R :=
  if (lab =? 0)%nat then [cos theta; sin theta] else [1 - cos theta; / 2 - sin theta].

(** point i of k equidistant points on a circle, starting after the first axis *)
Definition ring (radius : R) (k i : nat) : list R :=
  [radius * cos (2 * PI * INR (S i) / INR k); radius * sin (2 * PI * INR (S i) / INR k)].
(** value i of k equidistant values from a to b *)
Definition between (a b : R) (k i : nat) : R := if (k =? 1)%nat then a else a + (b - a) * (INR i / INR (k - 1)).
