(** When a value with a derivative describes a quantity that depends on one real parameter. *)
From Coq Require Import Reals List.
From Verif Require Import Py.
Import ListNotations.
Local Open Scope R_scope.

(** [tracks d c]: d is the value of the curve c at 0 and its derivative there *)
Definition tracks (d : R * R) (c : R -> R) : Prop := fst d = c 0 /\ derivable_pt_lim c 0 (snd d).

(** The same for vectors with n entries *)
Definition tracks_vec (n : nat) (D : list (R * R)) (c : R -> list R) : Prop :=
  length D = n /\ (forall e, length (c e) = n) /\
  forall i, (i < n)%nat -> tracks (nth i D (0, 0)) (fun e => nth i (c e) 0).

(** A vector field with derivatives [F] describes the family [f e] of vector fields: it differentiates correctly in the
    state and in the parameter. *)
Definition tracks_field (n : nat) (F : R * R -> list (R * R) -> list (R * R)) (f : R -> R -> list R -> list R) : Prop :=
  forall t Y y, tracks_vec n Y y -> tracks_vec n (F (t, 0) Y) (fun e => f e t (y e)).

(** Lists of states *)
Definition tracks_states (n : nat) (S : list (list (R * R))) (s : R -> list (list R)) : Prop :=
  (forall e, length (s e) = length S) /\
  forall k, (k < length S)%nat -> tracks_vec n (nth k S []) (fun e => nth k (s e) []).

(** A solve with derivatives describes a family of solves: all return at the same times, or all raise the same exception. *)
Definition tracks_solve (n : nat) (rd : res (list (R * R) * list (list (R * R)))) (rr : R -> res (list R * list (list R))) : Prop :=
  (exists times S s, rd = Ok (map (fun t => (t, 0)) times, S) /\ (forall e, rr e = Ok (times, s e)) /\ tracks_states n S s) \/
  (exists er, rd = Err er /\ forall e, rr e = Err er).
