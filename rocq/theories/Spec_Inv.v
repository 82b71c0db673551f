(** Qualitative properties of a solver: what its outputs are made of, invariants, equilibria,
    changes of coordinates, batches. *)
From Coq Require Import Reals List Lra.
From Verif Require Import Spec_Ode Spec_RK Spec_Adaptive.
Import ListNotations.
Local Open Scope R_scope.

(** Scalar product *)
Fixpoint inner (c y : list R) : R :=
  match c, y with a :: c', u :: y' => a * u + inner c' y' | _, _ => 0 end.

(** Strictly monotone time grids *)
Definition monotone (ts : list R) : Prop := increasing ts \/ decreasing ts.

Section Reach.
Variables (rows : list (R * list R)) (b : list R) (f : R -> list R -> list R) (t0 : R) (x : list R).

(** States reached from x at t0 by steps (of any size and sign) of the method *)
Inductive reached : R -> list R -> Prop :=
| reached_start : reached t0 x
| reached_step t h y : reached t y -> reached (t + h) (erk_step rows b f t h y).
End Reach.

(** Matrices are lists of rows *)
Definition apply_matrix (M : list (list R)) (y : list R) : list R := map (fun r => inner r y) M.
Definition affine_map (M : list (list R)) (c y : list R) : list R :=
  map (fun p => fst p + snd p) (combine (apply_matrix M y) c).

(** Sample i of a batch of samples of dimension d stored one after the other *)
Definition sample (d i : nat) (y : list R) : list R := firstn d (skipn (i * d) y).

(** F applies f to each of the k samples of a batch *)
Definition batched (d k : nat) (f F : R -> list R -> list R) : Prop :=
  field_on (k * d) F /\
  forall t y i, length y = (k * d)%nat -> (i < k)%nat -> sample d i (F t y) = f t (sample d i y).

(** Coordinates of y listed by the positions idx (repetitions allowed) *)
Definition reindex (idx : list nat) (y : list R) : list R := map (fun j => nth j y 0) idx.

(** Every position below n occurs the same number of times k > 0 in idx, and no other occurs *)
Definition balanced (n : nat) (idx : list nat) : Prop :=
  (forall j, In j idx -> (j < n)%nat) /\
  exists k, (0 < k)%nat /\ forall j, (j < n)%nat -> count_occ PeanoNat.Nat.eq_dec idx j = k.

(** The field seen at times shifted by s *)
Definition shifted_field (s : R) (f : R -> list R -> list R) : R -> list R -> list R :=
  fun t y => f (t - s) y.
