(** Property theorems (generated by tools/genprop.py from Pf_SdeCausal.v, which holds the proofs). *)
From Coq Require Import ZArith QArith Qreals Reals Lra Lia String List Bool.
From Verif Require Import Num Py Tensor M_SolversOde M_Odeint M_Sde Spec_Ode Spec_Sde.
From Verif Require Import L_Base L_Fixed L_Sde.
Import ListNotations.
Local Notation length := List.length.
From Verif Require Import Pf_SdeCausal.
Import ListNotations.
Local Open Scope R_scope.

(** The states up to a time depend on the drift, the diffusion, the Brownian path and the grid only up to that time: two solves that agree on the
    times [pre] return the same states there, whatever comes later. The path is read only between neighbouring times. *)
Theorem C200_causal :
  forall name s s' bm bm' q q' x pre post post', @sde_str_to_solver ROps name s bm = Ok q -> @sde_str_to_solver ROps name s' bm' = Ok q' ->
  (2 <= length (pre ++ post))%nat -> (2 <= length (pre ++ post'))%nat -> agree_on pre s s' bm bm' ->
  exists xs ys ys', @sdeint ROps s x (pre ++ post) name bm [] = Ok (pre ++ post, xs ++ ys) /\
    @sdeint ROps s' x (pre ++ post') name bm' [] = Ok (pre ++ post', xs ++ ys') /\ length xs = length pre.
Proof. exact C200_causal_pf. Qed.
Print Assumptions C200_causal.

(** The hypotheses are met by two different SDEs and paths that agree up to time 1, and the states at later times do differ. *)
Example C200_ex :
  let s := @MkSde ROps (fun _ y => y) (fun _ _ => [1]) (Some "diagonal"%string) (Some "ito"%string) in
  let bm := fun u t : R => [t - u] in let bm' := fun u t : R => if Rleb t 1 then [t - u] else [7] in
  (exists q, @sde_str_to_solver ROps "euler" s bm = Ok q) /\ (exists q', @sde_str_to_solver ROps "euler" s bm' = Ok q') /\ agree_on [0; 1] s s bm bm' /\
  @sdeint ROps s [1] ([0; 1] ++ [2]) "euler" bm [] = Ok ([0; 1; 2], [[1]; [3]; [7]]) /\
  @sdeint ROps s [1] ([0; 1] ++ [2]) "euler" bm' [] = Ok ([0; 1; 2], [[1]; [3]; [13]]).
Proof. exact C200_ex_pf. Qed.

