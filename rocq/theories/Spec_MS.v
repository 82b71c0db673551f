(** Specification of multiple shooting, independent of the model. *)
From Coq Require Import Reals List.
Import ListNotations.
Local Open Scope R_scope.

Definition add_list (a b : list R) : list R := map (fun p => fst p + snd p) (combine a b).
Definition sub_list (a b : list R) : list R := map (fun p => fst p - snd p) (combine a b).

Section Parareal.
Variables coarse fine : list R -> list R.

(** The sequential solution: row j + 1 is the fine flow of row j. *)
Fixpoint sequential (b : list R) (j : nat) : list R :=
  match j with O => b | S j' => fine (sequential b j') end.

(** Pass number i of parareal turns the rows B into B': the first i rows are kept and
    B'[m] = coarse(B'[m-1]) - coarse(B[m-1]) + fine(B[m-1]) from row i on. *)
Definition parareal_pass (i : nat) (B B' : list (list R)) : Prop :=
  length B' = length B /\
  (forall m, (m < i)%nat -> nth_error B' m = nth_error B m) /\
  (forall m a old, (i <= S m)%nat -> (S m < length B)%nat -> nth_error B' m = Some a -> nth_error B m = Some old ->
     nth_error B' (S m) = Some (add_list (sub_list (coarse a) (coarse old)) (fine old))).

(** k passes, numbered from i *)
Fixpoint parareal_passes (k i : nat) (B B' : list (list R)) : Prop :=
  match k with
  | O => B' = B
  | S k' => exists B1, parareal_pass i B B1 /\ parareal_passes k' (S i) B1 B'
  end.
End Parareal.

(** The implicit Euler recursion for a field without time dependence: row k + 1 solves
    b = B[k] + (t_{k+1} - t_k) f(b), with the initial condition x in place of row 0. *)
Definition scale_list (c : R) (a : list R) : list R := map (Rmult c) a.
Definition implicit_euler_rows (f : R -> list R -> list R) (when_ : R -> R) (x : list R) (B : list (list R)) (ts : list R) : Prop :=
  forall k ta tb a b, nth_error ts k = Some ta -> nth_error ts (S k) = Some tb ->
    nth_error (x :: skipn 1 B) k = Some a -> nth_error B (S k) = Some b ->
    b = add_list a (scale_list (tb - ta) (f (when_ tb) b)).

(** Binomial coefficients by Pascal's rule *)
Fixpoint binomial (n k : nat) : nat :=
  match n, k with
  | _, O => 1
  | O, S _ => 0
  | S n', S k' => binomial n' k' + binomial n' k
  end.
