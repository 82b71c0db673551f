(** Linear algebra on lists of real numbers and the stopping rule of a root finder. *)
From Coq Require Import Reals List.
Import ListNotations.
Local Open Scope R_scope.

Definition dot (a b : list R) : R := fold_right Rplus 0 (map (fun p => fst p * snd p) (combine a b)).
Definition euclid (v : list R) : R := sqrt (dot v v).

(** a matrix is the list of its rows *)
Definition is_matrix (r c : nat) (A : list (list R)) : Prop := length A = r /\ Forall (fun row => length row = c) A.
Definition apply (A : list (list R)) (v : list R) : list R := map (fun row => dot row v) A.

Definition plus_vec (a b : list R) : list R := map (fun p => fst p + snd p) (combine a b).
Definition minus_vec (a b : list R) : list R := map (fun p => fst p - snd p) (combine a b).
Definition times (c : R) (a : list R) : list R := map (Rmult c) a.

(** [P] holds for corresponding elements of two lists of equal length *)
Definition pairwise {A B} (P : A -> B -> Prop) (l : list A) (m : list B) : Prop := Forall2 P l m.
