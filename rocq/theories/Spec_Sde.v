(** Textbook one-step schemes for dX = f dt + g dW with diagonal noise, written per component. *)
From Coq Require Import Reals List.
Import ListNotations.
Local Open Scope R_scope.

Definition comp (x : list R) (i : nat) : R := nth i x 0.

Section Schemes.
Variables (f g : R -> list R -> list R) (W : R -> R -> list R).

(** [y] is the state after one step from x at time s to time t *)
Definition euler_maruyama (s t : R) (x y : list R) : Prop :=
  length y = length x /\
  forall i, (i < length x)%nat -> comp y i = comp x i + comp (f s x) i * (t - s) + comp (g s x) i * comp (W s t) i.

Definition euler_heun (s t : R) (x y : list R) : Prop :=
  length y = length x /\
  exists p, length p = length x /\
  (forall i, (i < length x)%nat -> comp p i = comp x i + comp (g s x) i * comp (W s t) i) /\
  forall i, (i < length x)%nat -> comp y i = comp x i + comp (f s x) i * (t - s) +
    (comp (g s x) i + comp (g t p) i) / 2 * comp (W s t) i.

(** derivative-free Milstein; [c] = 1 for Ito, 0 for Stratonovich *)
Definition milstein (c : R) (s t : R) (x y : list R) : Prop :=
  length y = length x /\
  exists p, length p = length x /\
  (forall i, (i < length x)%nat -> comp p i = comp x i + comp (f s x) i * (t - s) + comp (g s x) i * sqrt (t - s)) /\
  forall i, (i < length x)%nat -> comp y i = comp x i + comp (f s x) i * (t - s) + comp (g s x) i * comp (W s t) i +
    (comp (g s p) i - comp (g s x) i) / (2 * sqrt (t - s)) * (comp (W s t) i ^ 2 - c * (t - s)).
End Schemes.

(** A trajectory along a grid whose consecutive states are related by the scheme [S s t x y]. *)
Definition follows (S : R -> R -> list R -> list R -> Prop) (x : list R) (ts : list R) (xs : list (list R)) : Prop :=
  length xs = length ts /\ nth_error xs 0 = Some x /\
  forall i s t a b, nth_error ts i = Some s -> nth_error ts (Datatypes.S i) = Some t ->
    nth_error xs i = Some a -> nth_error xs (Datatypes.S i) = Some b -> S s t a b.

(** The documented scheme behind each solver name. *)
From Coq Require Import String.
Definition scheme_of (name : string) (f g : R -> list R -> list R) (W : R -> R -> list R)
  : option (R -> R -> list R -> list R -> Prop) :=
  (if name =? "euler" then Some (euler_maruyama f g W)
   else if name =? "eulerHeun" then Some (euler_heun f g W)
   else if name =? "milstein_ito" then Some (milstein f g W 1)
   else if name =? "milstein_stratonovich" then Some (milstein f g W 0)
   else None)%string.

(** [X] solves dX = f(t, X) dt + sigma dW (additive noise, path by path) on [[a, b]]: X - sigma W is
    differentiable with derivative f(t, X(t)), that is X(t) = X(a) + int_a^t f(s, X(s)) ds + sigma (W(t) - W(a)). *)
Definition additive_solution (n : nat) (a b : R) (f : R -> list R -> list R) (sigma : list R) (W X : R -> list R) : Prop :=
  (forall t, List.length (X t) = n) /\
  forall i t, (i < n)%nat -> a <= t <= b ->
    derivable_pt_lim (fun s => comp (X s) i - comp sigma i * comp (W s) i) t (comp (f t (X t)) i).
