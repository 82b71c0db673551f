(** Root mean square of a list of reals. *)
From Coq Require Import Reals List.
Import ListNotations.
Local Open Scope R_scope.

Fixpoint sum_sq (l : list R) : R :=
  match l with [] => 0 | a :: l' => a * a + sum_sq l' end.

Definition rms (l : list R) : R := sqrt (sum_sq l / INR (length l)).

(** Entrywise sum of two lists of the same length *)
Definition plus_list (a b : list R) : list R := map (fun p => fst p + snd p) (combine a b).

(** All entries are at most B in absolute value *)
Definition bounded_by (B : R) (l : list R) : Prop := forall a, In a l -> Rabs a <= B.
