(** Property theorems (generated by tools/genprop.py from Pf_RootConv.v, which holds the proofs). *)
From Coq Require Import ZArith QArith Qreals Reals Lra Lia String List Bool Psatz.
From Verif Require Import Num Py Tensor M_Root L_Base.
Import ListNotations.
Local Notation length := List.length.
From Verif Require Import Pf_RootConv.
Import ListNotations.
Local Open Scope R_scope.

(** C171.  Nonlinear equations in one unknown each, with slopes between m > 0 and M: both Broyden methods, without line search and with
    a step size below 2 m / M, started from inverse slopes in the same range, converge linearly from every starting point: the error of
    every row is multiplied by at most a factor below one in every step, and the run ends by its tolerances or by maxiters. *)
Theorem C171_linear_convergence :
  forall n m M alpha h root g start j0 (tl : tols (K := ROps)) maxiters name me sf, equations n m M h root g -> broyden_method name me ->
  0 < alpha -> alpha * (M / m) < 2 -> 0 < f_rtol tl -> 0 < x_rtol tl -> (forall i, (i < n)%nat -> / M <= j0 i <= / m) ->
  0 <= factor m M alpha < 1 /\
  exists st z, @root_find ROps sf g (col n start) (mcol n j0) alpha tl maxiters name "none" = Ok st /\ r_z st = col n z /\
    (r_conv st = true \/ r_steps st = Z.to_nat (maxiters + 1)) /\
    forall i, (i < n)%nat -> Rabs (z i - root i) <= factor m M alpha ^ r_steps st * Rabs (start i - root i).
Proof. exact C171_linear_convergence_pf. Qed.
Print Assumptions C171_linear_convergence.

(** C171.  The inverse slopes root_find starts from when it is given the derivatives at the starting point (batch_jacobian and
    pinverse, root.py:255-272) lie in the range the convergence theorems ask for. *)
Theorem C171_true_jacobian :
  forall n m M h root g start d, equations n m M h root g ->
  (forall i, (i < n)%nat -> derivable_pt_lim (h i) (start i) (d i)) ->
  forall i, (i < n)%nat -> d i <> 0 /\ / M <= / d i <= / m.
Proof. exact C171_true_jacobian_pf. Qed.
Print Assumptions C171_true_jacobian.

(** C171.  If no root is zero, then the run ends by its tolerances as soon as maxiters is large enough, and increasing maxiters further
    does not change it. *)
Theorem C171_termination :
  forall n m M alpha h root g start j0 (tl : tols (K := ROps)) name me sf, equations n m M h root g -> broyden_method name me ->
  0 < alpha -> alpha * (M / m) < 2 -> 0 < f_tol tl -> 0 < f_rtol tl -> 0 < x_tol tl -> 0 < x_rtol tl -> (forall i, (i < n)%nat -> / M <= j0 i <= / m) ->
  (forall i, (i < n)%nat -> root i <> 0) ->
  exists K : nat, forall maxiters, (Z.of_nat K <= maxiters)%Z ->
  exists st, @root_find ROps sf g (col n start) (mcol n j0) alpha tl maxiters name "none" = Ok st /\ r_conv st = true /\ (r_steps st <= S K)%nat.
Proof. exact C171_termination_pf. Qed.
Print Assumptions C171_termination.

(** C171, refuted for roots at zero: z = 0 solved from any other point with the default step size and tolerances (x_rtol = 1) has errors
    9/10^k, but never reports convergence, for no maxiters: every |dz| is larger than |z|. *)
Theorem C171_zero_root_refuted :
  equations 1 1 1 (fun _ a => a) (fun _ => 0) (fun z => z) /\
  forall name me sf start maxiters, broyden_method name me -> start <> 0 ->
  exists st, @root_find ROps sf (fun z => z) [[start]] [[[1]]] (1 / 10) (@default_tols ROps) maxiters name "none" = Ok st /\
    r_conv st = false /\ r_steps st = Z.to_nat (maxiters + 1) /\ r_z st = [[(9 / 10) ^ Z.to_nat (maxiters + 1) * start]].
Proof. exact C171_zero_root_refuted_pf. Qed.
Print Assumptions C171_zero_root_refuted.

Example C171_ex : equations 2 1 2 (fun i => match i with O => bend (3 / 2) | _ => bend (- 3 / 2) end) (fun i => match i with O => 1 | _ => -1 end)
    (fun z => match z with [[a]; [b]] => [[bend (3 / 2) a]; [bend (- 3 / 2) b]] | _ => z end) /\ 1 / 10 * (2 / 1) < 2 /\ / 2 <= 1 / 2 <= / 1.
Proof. exact C171_ex_pf. Qed.

