(** Drifts and diffusions as users write them, and batches as flat vectors. *)
From Coq Require Import String List Bool Arith.
From Verif Require Import Num Py Tensor M_Core Spec_Core.
Import ListNotations.
Local Open Scope nat_scope.
Local Notation length := List.length.

(** n rows with w columns *)
Definition shaped {T} (n w : nat) (x : list (list T)) : Prop := length x = n /\ Forall (fun row => length row = w) x.

(** row i of a flat vector is made of the entries i w, ..., i w + w - 1 *)
Definition rows_of {T} (n w : nat) (v : list T) : list (list T) :=
  map (fun i => firstn w (skipn (i * w) v)) (seq 0 n).

(** the drift or diffusion f(x), or f(t, x), has the value F(t, x) at all batches of n rows and w
    columns, whatever the attribute t of its submodules *)
Inductive sees {K A} (c : @callable K A) (t : K) (x : list (vec K)) : list (string * @pyval K A) -> Prop :=
| sees_state p : takes c [p] 0 -> p <> "t"%string -> sees c t x [(p, VState x)]
| sees_time p : takes c ["t"%string; p] 0 -> p <> "t"%string -> sees c t x [("t"%string, VTime t); (p, VState x)].
Definition computes {K A} (n w : nat) (c : @callable K A) (F : K -> list (vec K) -> list (vec K)) : Prop :=
  forall t x, shaped n w x ->
  shaped n w (F t x) /\ exists env, sees c t x env /\ forall depth, c_body c depth env = Ok (F t x).
(** the same function of flat vectors *)
Definition flat {K : NumOps} (n w : nat) (F : K -> list (vec K) -> list (vec K)) (t : K) (v : vec K) : vec K :=
  concat (F t (rows_of n w v)).
