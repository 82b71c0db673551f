(** Property theorems (generated by tools/genprop.py from Pf_Jagged.v, which holds the proofs). *)
From Coq Require Import ZArith QArith Reals Lra Lia List Bool.
From Verif Require Import Num Py Tensor M_Odeint Spec_Ode L_Base L_Jagged.
Import ListNotations.
From Verif Require Import Pf_Jagged.
Import ListNotations.
Local Open Scope R_scope.

(** C33 (what the code does).  [ps] lists the sub-problems (grid, initial state).  For a solver whose
    THIRD return value is the new state and which treats the sub-problems independently and leaves
    the state alone for a zero step, the result for each sub-problem is the trajectory of its
    independent solve with the second state repeated and the last one dropped. *)
Theorem C33_jagged_actual :
  forall (X : Type) (step : R -> R -> X -> X) (bstep : @batch_step ROps X) (ps : list (list R * X)) fuel L,
  (forall t x, step t 0 x = x) ->
  (forall l : list (R * R * X),
     snd (bstep (map (fun e => fst (fst e)) l) (map snd l) (map (fun e => snd (fst e)) l))
     = Some (map (fun e => step (fst (fst e)) (snd (fst e)) (snd e)) l)) ->
  (forall p, In p ps -> (2 <= List.length (fst p) <= L)%nat /\ apart (fst p)) -> (L <= fuel)%nat ->
  @jagged_fixed_odeint ROps X fuel (map snd ps) (map fst ps) bstep
  = Ok (map (fun p => firstn (List.length (fst p)) (dup_second (one_step_traj step (snd p) (fst p)))) ps).
Proof. exact C33_jagged_actual_pf. Qed.
Print Assumptions C33_jagged_actual.

(** C33 (true variant).  With two-point grids the jagged solve equals the independent solves. *)
Theorem C33_two_points_partial :
  forall (X : Type) (step : R -> R -> X -> X) (bstep : @batch_step ROps X) (ps : list (list R * X)) fuel,
  (forall t x, step t 0 x = x) ->
  (forall l : list (R * R * X),
     snd (bstep (map (fun e => fst (fst e)) l) (map snd l) (map (fun e => snd (fst e)) l))
     = Some (map (fun e => step (fst (fst e)) (snd (fst e)) (snd e)) l)) ->
  (forall p, In p ps -> List.length (fst p) = 2%nat /\ apart (fst p)) -> (2 <= fuel)%nat ->
  @jagged_fixed_odeint ROps X fuel (map snd ps) (map fst ps) bstep
  = Ok (map (fun p => one_step_traj step (snd p) (fst p)) ps).
Proof. exact C33_two_points_partial_pf. Qed.
Print Assumptions C33_two_points_partial.

(** C33, refuted.  x' = 1 from 0 on the grid 0, 1, 2: the states returned are 0, 1, 1; an independent
    solve gives 0, 1, 2. *)
Theorem C33_jagged_refuted :
  exists (step : R -> R -> R -> R) (bstep : @batch_step ROps R) (ps : list (list R * R)) fuel,
  (forall l : list (R * R * R),
     snd (bstep (map (fun e => fst (fst e)) l) (map snd l) (map (fun e => snd (fst e)) l))
     = Some (map (fun e => step (fst (fst e)) (snd (fst e)) (snd e)) l)) /\
  @jagged_fixed_odeint ROps R fuel (map snd ps) (map fst ps) bstep = Ok [[0; 1; 1]] /\
  map (fun p => one_step_traj step (snd p) (fst p)) ps = [[0; 1; 2]].
Proof. exact C33_jagged_refuted_pf. Qed.
Print Assumptions C33_jagged_refuted.

(** C33, refuted for the built-in solvers: their third return value is None, so any batch with at
    least one unfinished sub-problem raises TypeError. *)
Theorem C33_builtin_refuted :
  forall (X : Type) (bstep : @batch_step ROps X) (ps : list (list R * X)) fuel,
  (forall t x dt, snd (bstep t x dt) = None) -> ps <> [] ->
  (forall p, In p ps -> (2 <= List.length (fst p))%nat /\ apart (fst p)) -> (1 <= fuel)%nat ->
  @jagged_fixed_odeint ROps X fuel (map snd ps) (map fst ps) bstep = Err TypeError.
Proof. exact C33_builtin_refuted_pf. Qed.
Print Assumptions C33_builtin_refuted.

(** C33 (the shifted variant).  _shifted_fixed_odeint never returns: it raises for every input. *)
Theorem C33_shifted_refuted :
  forall (K : NumOps) (X : Type) (f : list K -> X -> X) x t_span r,
  snd (@shifted_fixed_odeint K X f x t_span) <> Ok r.
Proof. exact C33_shifted_refuted_pf. Qed.
Print Assumptions C33_shifted_refuted.

