(** Small specifications for the asynchronous leapfrog method, independent of the model. *)
From Coq Require Import Reals List.
From Verif Require Import Spec_RK.
Import ListNotations.
Local Open Scope R_scope.

(** One step of size [h]: drift half a step with the velocity, evaluate the field there, move the
    position by a full step with that slope, reflect the velocity at it. *)
Definition leap (f : R -> list R -> list R) (t h : R) (p : list R * list R) : list R * list R :=
  let g := f (t + h / 2) (axpy (h / 2) (snd p) (fst p)) in
  (axpy h g (fst p), axpy (-1) (snd p) (map (Rmult 2) g)).

(** The state vector of a pair: position, then velocity. *)
Definition join (p : list R * list R) : list R := fst p ++ snd p.

(** The same position with the opposite velocity. *)
Definition flip (p : list R * list R) : list R * list R := (fst p, map Ropp (snd p)).

(** All steps of the grid have size [h]. *)
Definition equal_steps (h : R) (l : list R) : Prop :=
  forall i a b, nth_error l i = Some a -> nth_error l (S i) = Some b -> b - a = h.
