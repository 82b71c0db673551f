(** Reading entries of nested lists; sums; Chebyshev polynomials. *)
From Coq Require Import Reals List Arith.
From Verif Require Import M_Nn.
Import ListNotations.

(** the entry of a tensor of rank r at a multi-index, None out of range *)
Fixpoint entry {A : Type} (r : nat) : nd A r -> list nat -> option A :=
  match r return nd A r -> list nat -> option A with
  | O => fun x ix => match ix with [] => Some x | _ => None end
  | S r => fun x ix => match ix with
      | [] => None
      | i :: ix => match nth_error x i with Some y => entry r y ix | None => None end
      end
  end.

(** x is a regular array of the given shape *)
Fixpoint has_shape {A : Type} (r : nat) : list nat -> nd A r -> Prop :=
  match r return list nat -> nd A r -> Prop with
  | O => fun sh _ => sh = []
  | S r => fun sh x => match sh with
      | [] => False
      | n :: sh => length x = n /\ Forall (has_shape r sh) x
      end
  end.

(** a tensor of rank r: its shape and its entries agree *)
Definition is_tensor {A : Type} (r : nat) (x : list nat * nd A r) : Prop := length (fst x) = r /\ has_shape r (fst x) (snd x).

(** ix is a multi-index of an array of shape sh *)
Definition in_shape (sh ix : list nat) : Prop := Forall2 lt ix sh.

(** l with the entry number d replaced by v *)
Definition with_coord (d v : nat) (l : list nat) : list nat := firstn d l ++ match skipn d l with [] => [] | _ :: r => v :: r end.

(** i is the number of dimension d of a tensor of rank r, counted from either end *)
Definition denotes_dim (r : nat) (i : Z) (d : nat) : Prop := d < r /\ (i = Z.of_nat d \/ i = Z.of_nat d - Z.of_nat r)%Z.

Local Open Scope R_scope.
Fixpoint sum_up (n : nat) (f : nat -> R) : R := match n with O => 0 | S n => sum_up n f + f n end.

(** coefficient arrays of W rows, deg x neig each, and their entries *)
Definition coeff_array (W deg neig : nat) (c : list (list (list R))) : Prop :=
  length c = W /\ Forall (fun m => length m = deg /\ Forall (fun r => length r = neig) m) c.
Definition coeff (c : list (list (list R))) (j d i : nat) : R := nth i (nth d (nth j c []) []) 0.

(** the weight number j of a Galerkin expansion: the sum of basis functions times coefficients *)
Definition expansion (deg neig : nat) (basis : list (list R)) (c : list (list (list R))) (j : nat) : R :=
  sum_up deg (fun d => sum_up neig (fun i => nth d (nth i basis []) 0 * coeff c j d i)).
