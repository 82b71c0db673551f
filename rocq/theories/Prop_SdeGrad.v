(** Property theorems (generated by tools/genprop.py from Pf_SdeGrad.v, which holds the proofs). *)
From Coq Require Import ZArith QArith Qreals Reals Lra Lia List Bool String.
From Verif Require Import Num Py Tensor M_Odeint M_Sde M_Autograd.
From Verif Require Import Spec_Autograd.
From Verif Require Import L_Base L_Nan Pf_Autograd.
Import ListNotations.
Local Notation length := List.length.
From Verif Require Import Pf_SdeGrad.
Import ListNotations.
Local Open Scope R_scope.

(** C164.  Any solver name, any declared types, any save_at; for the Milstein solvers the grid has to be increasing (they divide by the root of the
    step size).  If autograd differentiates drift and diffusion correctly in state and parameter, the derivatives of the returned
    states along a Brownian path that autograd computes are the derivatives of the returned states; exceptions are raised with
    gradients exactly when they are raised without. *)
Theorem C164_gradient :
  forall (n : nat) (SD : sde_func DR) (sd : R -> sde_func ROps) (B : brownian DR) (b : brownian ROps) (X : list (R * R)) (x : R -> list R)
    (name : string) (ts save_at : list R),
  tracks_sde n SD sd -> same_path n B b -> tracks_vec n X x ->
  (name = "milstein_ito"%string \/ name = "milstein_stratonovich"%string -> increasing ts) ->
  tracks_solve n (@sdeint DR SD X (map (fun t => (t, 0)) ts) name B (map (fun t => (t, 0)) save_at))
    (fun e => @sdeint ROps (sd e) (x e) ts name b save_at).
Proof. exact C164_gradient_pf. Qed.
Print Assumptions C164_gradient.

(** dX = (1 + e) X dt + e X dW from 2 + e along the path W(t) = t, increasing grid *)
Example C164_ex :
  let SD := @MkSde DR (fun (_ : R * R) Y => map (@nmul DR (1, 1)) Y) (fun (_ : R * R) Y => map (@nmul DR (0, 1)) Y) (Some "diagonal"%string) (Some "ito"%string) : sde_func DR in
  let sd := fun e => @MkSde ROps (fun (_ : R) y => map (Rmult (1 + e)) y) (fun (_ : R) y => map (Rmult e) y) (Some "diagonal"%string) (Some "ito"%string) : sde_func ROps in
  tracks_sde 1 SD sd /\ same_path 1 (fun t u : R * R => [(fst u - fst t, 0)]) (fun t u : R => [u - t]) /\
  tracks_vec 1 [(2, 1)] (fun e => [2 + e]) /\ increasing [0; 1; 3].
Proof. exact C164_ex_pf. Qed.

