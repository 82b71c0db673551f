(** Textbook explicit Runge-Kutta methods on R^n (states are lists of reals). *)
From Coq Require Import QArith Qreals Reals List Lra.
From Verif Require Import Spec_Trees.
Import ListNotations.
Local Open Scope R_scope.

(** x + a k *)
Definition axpy (a : R) (k x : list R) : list R :=
  map (fun p => fst p + a * snd p) (combine x k).

(** x + h * sum_j w_j k_j *)
Definition comb (x : list R) (h : R) (w : list R) (ks : list (list R)) : list R :=
  fold_left (fun acc p => axpy (h * fst p) (snd p) acc) (combine w ks) x.

(** A tableau is a list of rows (c_i, [a_i1; a_i2; ...]).
    Stage i: k_i = f (t + c_i h) (x + h sum_j a_ij k_j). *)
Definition erk_stages (rows : list (R * list R)) (f : R -> list R -> list R) (t h : R)
  (x : list R) : list (list R) :=
  fold_left (fun ks r => ks ++ [f (t + fst r * h) (comb x h (snd r) ks)]) rows [].

(** New state x + h sum_i b_i k_i *)
Definition erk_step (rows : list (R * list R)) (b : list R) (f : R -> list R -> list R)
  (t h : R) (x : list R) : list R :=
  comb x h b (erk_stages rows f t h x).

(** A vector field on R^n *)
Definition field_on (n : nat) (f : R -> list R -> list R) : Prop :=
  forall t x, length x = n -> length (f t x) = n.

(** Time-independent vector fields *)
Definition autonomous (f : R -> list R -> list R) : Prop := forall t s x, f t x = f s x.

(** ** Published tableaux (rational) *)

Definition to_R_rows (q : qrows) : list (R * list R) :=
  map (fun r => (Q2R (fst r), map Q2R (snd r))) q.
Definition to_R (q : list Q) : list R := map Q2R q.

Definition q_euler : qrows := [(0, [])]%Q.
Definition qb_euler : list Q := [1]%Q.

Definition q_midpoint : qrows := [(0, []); (1#2, [1#2])]%Q.
Definition qb_midpoint : list Q := [0; 1]%Q.

(** Classical fourth-order method (Kutta 1901) *)
Definition q_rk4 : qrows :=
  [(0, []); (1#2, [1#2]); (1#2, [0; 1#2]); (1, [0; 0; 1])]%Q.
Definition qb_rk4 : list Q := [1#6; 1#3; 1#3; 1#6]%Q.

(** Dormand-Prince RK5(4)7FM (1980): rows and fifth-order weights; the embedded fourth-order
    weights are the ones of Shampine (1986), as in torchdiffeq. *)
Definition q_dopri5 : qrows :=
  [(0, []);
   (1#5, [1#5]);
   (3#10, [3#40; 9#40]);
   (4#5, [44#45; -56#15; 32#9]);
   (8#9, [19372#6561; -25360#2187; 64448#6561; -212#729]);
   (1, [9017#3168; -355#33; 46732#5247; 49#176; -5103#18656]);
   (1, [35#384; 0; 500#1113; 125#192; -2187#6784; 11#84])]%Q.
Definition qb5_dopri5 : list Q := [35#384; 0; 500#1113; 125#192; -2187#6784; 11#84; 0]%Q.
Definition qb4_dopri5 : list Q :=
  [1951#21600; 0; 22642#50085; 451#720; -12231#42400; 649#6300; 1#60]%Q.
