(** Nonnegative states, and fields that bring trajectories together. *)
From Coq Require Import Reals List.
From Verif Require Import Spec_Inv.
Import ListNotations.
Local Open Scope R_scope.

Definition nonnegative (y : list R) : Prop := Forall (fun a => 0 <= a) y.

(** no entry decreases faster than at the relative rate lambda while the state is nonnegative *)
Definition decay_at_most (n : nat) (lambda : R) (f : R -> list R -> list R) : Prop :=
  forall t y j, length y = n -> nonnegative y -> - lambda * nth j y 0 <= nth j (f t y) 0.

(** y - z, and the squared distance *)
Fixpoint diff (y z : list R) : list R :=
  match y, z with a :: y', b :: z' => (a - b) :: diff y' z' | _, _ => [] end.
Definition dist2 (y z : list R) : R := inner (diff y z) (diff y z).

(** (f(t,y) - f(t,z)) . (y - z) <= - mu |y - z|^2  and  |f(t,y) - f(t,z)| <= L |y - z| *)
Definition dissipative (n : nat) (mu L : R) (f : R -> list R -> list R) : Prop :=
  forall t y z, length y = n -> length z = n ->
  inner (diff (f t y) (f t z)) (diff y z) <= - mu * dist2 y z /\
  dist2 (f t y) (f t z) <= L ^ 2 * dist2 y z.
