(** Order conditions of Runge-Kutta methods via rooted trees (Butcher). *)
From Coq Require Import QArith List Arith.
Import ListNotations.

(** Rooted trees *)
Inductive tree : Type := Node (children : list tree).

(** Number of vertices *)
Fixpoint order (t : tree) : nat :=
  match t with Node cs => S (list_sum (map order cs)) end.

(** Density gamma(t) = |t| * product of the densities of the children *)
Fixpoint density (t : tree) : positive :=
  match t with
  | Node cs => Pos.of_nat (S (list_sum (map order cs))) * fold_right Pos.mul 1%positive (map density cs)
  end.

(** Rational tableaux: rows (c_i, [a_i1; ...]) *)
Definition qrows := list (Q * list Q).

Fixpoint qdot (a b : list Q) : Q :=
  match a, b with x :: a', y :: b' => Qred (x * y + qdot a' b') | _, _ => 0 end.
Definition qmuls (a b : list Q) : list Q := map (fun p => Qred (fst p * snd p)) (combine a b).

(** Elementary weights, one per stage: Phi_i([t1 ... tk]) = prod_l (sum_j a_ij Phi_j(t_l)) *)
Fixpoint phi (rows : qrows) (t : tree) : list Q :=
  match t with
  | Node cs =>
      fold_right qmuls (map (fun _ => 1%Q) rows)
        (map (fun s => let p := phi rows s in map (fun r => qdot (snd r) p) rows) cs)
  end.

(** A method (rows, b) has order at least p iff sum_i b_i Phi_i(t) = 1/gamma(t) for every
    rooted tree with at most p vertices. *)
Definition rk_order (rows : qrows) (b : list Q) (p : nat) : Prop :=
  forall t, (order t <= p)%nat -> (qdot b (phi rows t) == 1 # density t)%Q.

(** ... to within eps *)
Definition rk_order_within (eps : Q) (rows : qrows) (b : list Q) (p : nat) : Prop :=
  forall t, (order t <= p)%nat ->
    (- eps <= qdot b (phi rows t) - (1 # density t) /\ qdot b (phi rows t) - (1 # density t) <= eps)%Q.

(** Row sum condition c_i = sum_j a_ij *)
Definition row_sums (rows : qrows) : Prop :=
  forall r, In r rows -> (fst r == fold_right Qplus 0 (snd r))%Q.
Definition row_sums_within (eps : Q) (rows : qrows) : Prop :=
  forall r, In r rows ->
    (- eps <= fst r - fold_right Qplus 0 (snd r) /\ fst r - fold_right Qplus 0 (snd r) <= eps)%Q.

(** Continuous extension: the weights approximate the solution at t + theta*h to order p,
    sum_i b_i Phi_i(t) = theta^|t| / gamma(t), to within eps. *)
Definition rk_order_at (theta eps : Q) (rows : qrows) (b : list Q) (p : nat) : Prop :=
  forall t, (order t <= p)%nat ->
    let d := (qdot b (phi rows t) - Qpower theta (Z.of_nat (order t)) * (1 # density t))%Q in
    (- eps <= d /\ d <= eps)%Q.
