(** Python-level vocabulary of the model: exceptions as values, fuel, call log, indexing. *)
From Coq Require Import ZArith List Bool Arith Lia.
Import ListNotations.

Inductive exn : Type :=
| IndexError | ValueError | TypeError | AssertionError | KeyError | AttributeError
| NotImplementedError | RuntimeError | NameError | UnboundLocalError | ZeroDivisionError.

Definition exn_eq_dec : forall a b : exn, {a = b} + {a <> b}.
Proof. decide equality. Defined.

(** Result of a Python computation: a value, an exception, or "the fuel of a while loop
    ran out" (never a Python outcome: it stands for "still running"). *)
Inductive res (A : Type) : Type :=
| Ok (a : A)
| Err (e : exn)
| OutOfFuel.
Arguments Ok {A}. Arguments Err {A}. Arguments OutOfFuel {A}.

Definition rbind {A B} (r : res A) (k : A -> res B) : res B :=
  match r with Ok a => k a | Err e => Err e | OutOfFuel => OutOfFuel end.

Definition rmap {A B} (g : A -> B) (r : res A) : res B := rbind r (fun a => Ok (g a)).

(** Sequence access [l[i]] with a non-negative index: IndexError when out of range. *)
Definition pyget {A} (l : list A) (i : nat) : res A :=
  match nth_error l i with Some a => Ok a | None => Err IndexError end.

(** [l[-1]] *)
Definition pylast {A} (l : list A) : res A :=
  match rev l with a :: _ => Ok a | [] => Err IndexError end.

(** Normalisation of a slice bound: negative bounds count from the end, then clamp. *)
Definition slice_bound (len : nat) (i : Z) : nat :=
  let j := if (i <? 0)%Z then (i + Z.of_nat len)%Z else i in
  Nat.min (Z.to_nat j) len.

(** [l[lo:hi]] with optional bounds. *)
Definition pyslice {A} (lo hi : option Z) (l : list A) : list A :=
  let n := length l in
  let a := match lo with None => 0 | Some i => slice_bound n i end in
  let b := match hi with None => n | Some i => slice_bound n i end in
  firstn (b - a) (skipn a l).

(** Computations that log calls of type [L] and may raise. *)
Definition M (L A : Type) : Type := (list L * res A)%type.

Definition mret {L A} (a : A) : M L A := ([], Ok a).
Definition mraise {L A} (e : exn) : M L A := ([], Err e).
Definition mfuel {L A} : M L A := ([], OutOfFuel).
Definition mlift {L A} (r : res A) : M L A := ([], r).
Definition mlog {L} (l : L) : M L unit := ([l], Ok tt).
Definition mbind {L A B} (m : M L A) (k : A -> M L B) : M L B :=
  match snd m with
  | Ok a => let r := k a in (fst m ++ fst r, snd r)
  | Err e => (fst m, Err e)
  | OutOfFuel => (fst m, OutOfFuel)
  end.

Declare Scope m_scope.
Delimit Scope m_scope with M.
Notation "x <- m ;; k" := (mbind m (fun x => k))
  (at level 61, m at next level, right associativity) : m_scope.
Notation "' p <- m ;; k" := (mbind m (fun x => let p := x in k))
  (at level 61, p pattern, m at next level, right associativity) : m_scope.
Open Scope m_scope.

(** A call [f(t, x)], recorded in the log. *)
Definition call {T X Y} (f : T -> X -> Y) (t : T) (x : X) : M (T * X) Y := ([(t, x)], Ok (f t x)).

(** Number of booleans that are true: Python's [sum(bools)]. *)
Definition count_true (l : list bool) : nat := length (filter (fun b => b) l).

(** Index of the first [true]: [min([i for i, b in enumerate(l) if b == True])];
    ValueError on an empty sequence. *)
Fixpoint first_true_from (i : nat) (l : list bool) : option nat :=
  match l with
  | [] => None
  | b :: l' => if b then Some i else first_true_from (S i) l'
  end.
Definition first_true (l : list bool) : res nat :=
  match first_true_from 0 l with Some i => Ok i | None => Err ValueError end.
