(** When a number with derivatives in two directions describes a quantity that depends on two real parameters. *)
From Coq Require Import Reals List.
From Verif Require Import Py.
Import ListNotations.
Local Open Scope R_scope.

(** [second d c]: d holds the value of c at (0, 0), its derivatives in the two parameters and its mixed second derivative *)
Definition second (d : (R * R) * (R * R)) (c : R * R -> R) : Prop :=
  exists c1 : R -> R, (forall b, derivable_pt_lim (fun a => c (a, b)) 0 (c1 b)) /\
    fst (fst d) = c (0, 0) /\ snd (fst d) = c1 0 /\ derivable_pt_lim (fun b => c (0, b)) 0 (fst (snd d)) /\ derivable_pt_lim c1 0 (snd (snd d)).

(** A time: a number without derivatives *)
Definition plain (t : R) : (R * R) * (R * R) := ((t, 0), (0, 0)).

Definition second_vec (n : nat) (D : list ((R * R) * (R * R))) (c : R * R -> list R) : Prop :=
  length D = n /\ (forall p, length (c p) = n) /\ forall i, (i < n)%nat -> second (nth i D (plain 0)) (fun p => nth i (c p) 0).

Definition second_field (n : nat) (F : (R * R) * (R * R) -> list ((R * R) * (R * R)) -> list ((R * R) * (R * R))) (f : R * R -> R -> list R -> list R) : Prop :=
  forall t Y y, second_vec n Y y -> second_vec n (F (plain t) Y) (fun p => f p t (y p)).

Definition second_states (n : nat) (A : list (list ((R * R) * (R * R)))) (a : R * R -> list (list R)) : Prop :=
  (forall p, length (a p) = length A) /\ forall k, (k < length A)%nat -> second_vec n (nth k A []) (fun p => nth k (a p) []).

Definition second_solve (n : nat) (rd : res (list ((R * R) * (R * R)) * list (list ((R * R) * (R * R))))) (rr : R * R -> res (list R * list (list R))) : Prop :=
  (exists times A a, rd = Ok (map plain times, A) /\ (forall p, rr p = Ok (times, a p)) /\ second_states n A a) \/
  (exists er, rd = Err er /\ forall p, rr p = Err er).
