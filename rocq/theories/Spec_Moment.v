(** Finite probability: equally likely outcomes, independent increments. *)
From Coq Require Import Reals List.
From Verif Require Import Spec_Sde Spec_Lin.
Import ListNotations.
Local Open Scope R_scope.

(** the average of a list of numbers *)
Definition mean (l : list R) : R := fold_right Rplus 0 l / INR (length l).
Definition average {A} (phi : A -> R) (l : list A) : R := mean (map phi l).

(** all ways to choose one element of each list: independent draws, each list holds equally likely values *)
Fixpoint paths {A} (D : list (list A)) : list (list A) :=
  match D with
  | [] => [[]]
  | d :: D' => flat_map (fun w => map (cons w) (paths D')) d
  end.

(** the values of an increment over a time h: n components with mean zero and variance h *)
Definition white (n : nat) (h : R) (d : list (list R)) : Prop :=
  d <> [] /\ forall j, (j < n)%nat ->
  average (fun w => comp w j) d = 0 /\ average (fun w => comp w j ^ 2) d = h.

(** along the grid the Brownian motion W has the increments p *)
Definition increments (W : R -> R -> list R) (grid : list R) (p : list (list R)) : Prop :=
  forall i s t, nth_error grid i = Some s -> nth_error grid (S i) = Some t -> W s t = nth i p [].

(** sum of f 0 ... f (n - 1) *)
Fixpoint fsum (n : nat) (f : nat -> R) : R := match n with O => 0 | S m => fsum m f + f m end.

(** f(t, x) = A(t) x + b(t) *)
Definition affine_field (n : nat) (f : R -> list R -> list R) (A : R -> nat -> nat -> R) (b : R -> nat -> R) : Prop :=
  forall t x j, length x = n -> (j < n)%nat -> comp (f t x) j = fsum n (fun k => A t j k * comp x k) + b t j.
