(** Property theorems (generated by tools/genprop.py from Pf_SdeSuper.v, which holds the proofs). *)
From Coq Require Import ZArith QArith Qreals Reals Lra Lia String List Bool.
From Verif Require Import Num Py Tensor M_SolversOde M_Odeint M_Sde Spec_Ode Spec_Sde.
From Verif Require Import L_Base L_Fixed L_Fixed2 L_Vec L_Jagged L_Conv L_Sde Pf_Sde Pf_SdeLaws Pf_Super.
Import ListNotations.
Local Notation length := List.length.
From Verif Require Import Pf_SdeSuper.
Import ListNotations.
Local Open Scope R_scope.

(** Superposition along one Brownian path: if drift and diffusion are linear with sources, the states from a x + b z are the combinations
    of the states from x and z of the two parts; all four solvers, both calculi, every grid. *)
Theorem C192_superposition :
  forall name a b sde sde1 sde2 bm s x z ts, combined a b sde sde1 sde2 -> @sde_str_to_solver ROps name sde bm = Ok s -> (2 <= length ts)%nat ->
  exists s1 s2, @sdeint ROps sde1 x ts name bm [] = Ok (ts, s1) /\ @sdeint ROps sde2 z ts name bm [] = Ok (ts, s2) /\
    @sdeint ROps sde (lin a b x z) ts name bm [] = Ok (ts, map (fun p => lin a b (fst p) (snd p)) (combine s1 s2)) /\
    length s1 = length ts /\ length s2 = length ts.
Proof. exact C192_superposition_pf. Qed.
Print Assumptions C192_superposition.

(** The hypotheses are met: geometric Brownian motion combined with itself. *)
Example C192_ex :
  let gbm := @MkSde ROps (fun _ x => map (Rmult 3) x) (fun _ x => map (Rmult 5) x) (Some "diagonal"%string) (Some "ito"%string) in
  combined 2 7 gbm gbm gbm /\ (exists s, @sde_str_to_solver ROps "milstein_ito" gbm (fun r t => [t - r]) = Ok s) /\ lin 2 7 [1] [1] = [9].
Proof. exact C192_ex_pf. Qed.

