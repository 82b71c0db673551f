(** Property theorems (generated by tools/genprop.py from Pf_SdeLaws.v, which holds the proofs). *)
From Coq Require Import ZArith QArith Qreals Reals Lra Lia String List Bool.
From Verif Require Import Num Py Tensor M_SolversOde M_Odeint M_Sde Spec_Ode Spec_Sde.
From Verif Require Import L_Base L_Fixed L_Fixed2 L_Vec L_Jagged L_Conv L_Sde Pf_Sde.
Import ListNotations.
Local Notation length := List.length.
From Verif Require Import Pf_SdeLaws.
Import ListNotations.
Local Open Scope R_scope.

(** Solving up to a time of the grid and continuing from there with the same Brownian path gives the states of the whole solve:
    every solver that can be built, every grid (also with decreasing or repeated times). *)
Theorem C190_restart :
  forall name sde bm s x pre tm post, @sde_str_to_solver ROps name sde bm = Ok s -> pre <> [] -> post <> [] ->
  let solve x0 l := @sdeint ROps sde x0 l name bm [] in
  exists xs xm ys, solve x (pre ++ [tm]) = Ok (pre ++ [tm], xs ++ [xm]) /\ solve xm (tm :: post) = Ok (tm :: post, xm :: ys) /\
    solve x (pre ++ tm :: post) = Ok (pre ++ tm :: post, xs ++ xm :: ys).
Proof. exact C190_restart_pf. Qed.
Print Assumptions C190_restart.

(** The hypotheses are met: the SDE of C41 with Euler-Maruyama, restarted in the middle of [0; 1; 3]. *)
Example C190_ex : (exists s, @sde_str_to_solver ROps "euler" (ex_sde "ito") ex_bm = Ok s) /\ [0; 1; 3] = [0] ++ 1 :: [3].
Proof. exact C190_ex_pf. Qed.

(** Solving the SDE in other units gives the solution in other units, exactly and for all four solvers. *)
Theorem C191_units :
  forall name tau sigma c sde sde' bm bm' s x ts, 0 < tau -> other_units tau sigma c sde sde' bm bm' ->
  @sde_str_to_solver ROps name sde bm = Ok s -> (2 <= length ts)%nat ->
  exists sol, @sdeint ROps sde x ts name bm [] = Ok (ts, sol) /\
    @sdeint ROps sde' (sc c x) (map (fun t => tau * t + sigma) ts) name bm' [] = Ok (map (fun t => tau * t + sigma) ts, map (sc c) sol).
Proof. exact C191_units_pf. Qed.
Print Assumptions C191_units.

(** The hypotheses are met: geometric Brownian motion in units of a quarter of the time and twice the state. *)
Example C191_ex :
  let gbm a b := @MkSde ROps (fun _ x => sc a x) (fun _ x => sc b x) (Some "diagonal"%string) (Some "ito"%string) in
  let w := fun r t : R => [t - r] in let w' := fun r t : R => [(t - r) / 2] in
  other_units 4 1 2 (gbm 3 5) (gbm (3 / 4) (5 / 2)) w w' /\ (exists s, @sde_str_to_solver ROps "euler" (gbm 3 5) w = Ok s) /\
  (exists s, @sde_str_to_solver ROps "milstein_ito" (gbm 3 5) w = Ok s).
Proof. exact C191_ex_pf. Qed.

