(** Small textbook specifications for the ODE part, independent of the model. *)
From Coq Require Import Reals List Lra.
Import ListNotations.
Local Open Scope R_scope.

(** States of a one-step method along a grid: [one t h x] is the state after a step of size
    [h] from [x] at time [t]. *)
Fixpoint one_step_traj {X : Type} (one : R -> R -> X -> X) (x : X) (ts : list R) : list X :=
  match ts with
  | [] => []
  | t0 :: rest =>
      x :: match rest with
           | [] => []
           | t1 :: _ => one_step_traj one (one t0 (t1 - t0) x) rest
           end
  end.

(** Two times are identified by the code when they agree to absolute tolerance 1e-8 plus
    relative tolerance 1e-5 (of the second). *)
Definition close_to (t s : R) : Prop := Rabs (t - s) <= 1 / 100000000 + 1 / 100000 * Rabs s.

(** No two entries of the grid are identified. *)
Definition separated (l : list R) : Prop :=
  forall i j a b, i <> j -> nth_error l i = Some a -> nth_error l j = Some b -> ~ close_to a b.

(** The states of a trajectory [xs] along grid [ts] whose time is close to some entry of
    [save_at], in grid order. *)
Inductive selected {X : Type} (save_at : list R) : list R -> list X -> list X -> Prop :=
| sel_nil : selected save_at [] [] []
| sel_take t ts x xs out :
    (exists s, In s save_at /\ close_to t s) ->
    selected save_at ts xs out -> selected save_at (t :: ts) (x :: xs) (x :: out)
| sel_skip t ts x xs out :
    (forall s, In s save_at -> ~ close_to t s) ->
    selected save_at ts xs out -> selected save_at (t :: ts) (x :: xs) out.

Definition increasing (l : list R) : Prop :=
  forall i j a b, (i < j)%nat -> nth_error l i = Some a -> nth_error l j = Some b -> a < b.

Definition decreasing (l : list R) : Prop :=
  forall i j a b, (i < j)%nat -> nth_error l i = Some a -> nth_error l j = Some b -> b < a.

(** Entries of a list at the positions where the mask is true, in order. *)
Fixpoint pick {A : Type} (mask : list bool) (l : list A) : list A :=
  match mask, l with
  | true :: mask', a :: l' => a :: pick mask' l'
  | false :: mask', _ :: l' => pick mask' l'
  | _, _ => []
  end.
