(** Tensors as flat lists with elementwise operations (torch semantics on equal shapes). *)
From Coq Require Import List ZArith QArith.
From Verif Require Import Num.
Import ListNotations.

Fixpoint map2 {A B C} (f : A -> B -> C) (l : list A) (m : list B) : list C :=
  match l, m with
  | a :: l', b :: m' => f a b :: map2 f l' m'
  | _, _ => []
  end.

Section Vec.
  Context {K : NumOps}.
  Definition vec : Type := list K.

  Definition vadd (a b : vec) : vec := map2 nadd a b.
  Definition vsub (a b : vec) : vec := map2 nsub a b.
  Definition vmul (a b : vec) : vec := map2 nmul a b.
  Definition vdiv (a b : vec) : vec := map2 ndiv a b.
  Definition vmax (a b : vec) : vec := map2 nmax a b.
  Definition vopp (a : vec) : vec := map nopp a.
  Definition vabs (a : vec) : vec := map nabs a.
  Definition vscale (c : K) (a : vec) : vec := map (nmul c) a.      (* c * a *)
  Definition vadds (c : K) (a : vec) : vec := map (nadd c) a.       (* c + a *)
  Definition vzeros (n : nat) : vec := repeat n0 n.
  Definition vsum (a : vec) : K := fold_left nadd a n0.
  Definition vdot (a b : vec) : K := vsum (vmul a b).
  Definition nnat (n : nat) : K := nQ (inject_Z (Z.of_nat n)).
  Definition vmean (a : vec) : K := ndiv (vsum a) (nnat (length a)).
End Vec.
Arguments vec : clear implicits.

Declare Scope vec_scope.
Delimit Scope vec_scope with V.
Notation "a + b" := (vadd a b) : vec_scope.
Notation "a - b" := (vsub a b) : vec_scope.
Notation "c * a" := (vscale c a) : vec_scope.
