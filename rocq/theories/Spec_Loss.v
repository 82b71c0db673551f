(** Integral losses propagated in the first column of the state. *)
From Coq Require Import Reals List.
From Verif Require Import Spec_RK Spec_Inv.
Import ListNotations.
Local Open Scope R_scope.

(** A batch of k rows of d columns, stored one row after the other *)
Definition batch_rows (d k : nat) (y : list R) : list (list R) := map (fun i => sample d i y) (seq 0 k).
Definition shaped (d k : nat) (X : list (list R)) : Prop := length X = k /\ Forall (fun r => length r = d) X.

(** For rows of d + 1 columns: the first column, and the batch of the other d columns *)
Definition losses (d k : nat) (y : list R) : list R := map (fun i => nth (i * S d) y 0) (seq 0 k).
Definition states (d k : nat) (y : list R) : list R := flat_map (fun i => tl (sample (S d) i y)) (seq 0 k).

(** F has the loss [l] in the first column and the field [g] in the others; both see the other columns only *)
Definition augmented (d k : nat) (l g F : R -> list R -> list R) : Prop :=
  field_on (k * d) g /\ field_on (k * S d) F /\
  forall t y, length y = (k * S d)%nat ->
    losses d k (F t y) = l t (states d k y) /\ states d k (F t y) = g t (states d k y).

(** The points at which a step of a Runge-Kutta method evaluates the field *)
Definition stage_points (rows : list (R * list R)) (g : R -> list R -> list R) (t h : R) (x : list R) : list (R * list R) :=
  fold_left (fun ps r => ps ++ [(t + fst r * h, comb x h (snd r) (map (fun p => g (fst p) (snd p)) ps))]) rows [].

Section Path.
Variables (rows : list (R * list R)) (b : list R) (l g : R -> list R -> list R) (t0 : R) (x a : list R).
(** [quadrature t y c]: there are steps of the method from (t0, x) to (t, y), and c are the losses a of the beginning plus
    the sums of the quadrature formula of the method on these steps *)
Inductive quadrature : R -> list R -> list R -> Prop :=
| quad_start : quadrature t0 x a
| quad_step t h y c c' : quadrature t y c -> length c' = length c ->
    (forall i, (i < length c)%nat ->
       nth i c' 0 = nth i c 0 + h * inner b (map (fun p => nth i (l (fst p) (snd p)) 0) (stage_points rows g t h y))) ->
    quadrature (t + h) (erk_step rows b g t h y) c'.
End Path.
