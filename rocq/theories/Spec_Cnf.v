(** The density of a one-dimensional map, and the squared spacings of a grid. *)
From Coq Require Import Reals List.
Import ListNotations.
Local Open Scope R_scope.

(** sum of (t_{k+1} - t_k)^2 over the first i intervals *)
Fixpoint squared_spacings (ts : list R) (i : nat) : R :=
  match i, ts with
  | S i', t0 :: ((t1 :: _) as ts') => (t1 - t0) ^ 2 + squared_spacings ts' i'
  | _, _ => 0
  end.

(** a differentiable map phi with phi'(x) > 0 carries a density with logarithm l at x to a density with
    logarithm l - ln phi'(x) at phi(x) *)
Definition pushed_log_density (phi : R -> R) (x l l' : R) : Prop :=
  exists D, derivable_pt_lim phi x D /\ 0 < D /\ l' = l - ln D.
