(** Property theorems (generated by tools/genprop.py from Pf_SdeInv.v, which holds the proofs). *)
From Coq Require Import ZArith QArith Qreals Reals Lra Lia String List Bool.
From Verif Require Import Num Py Tensor M_SolversOde M_Odeint M_Sde Spec_Ode Spec_Sde.
From Verif Require Import Spec_Inv L_Sde.
From Verif Require Import Pf_Sde.
Import ListNotations.
Local Notation length := List.length.
From Verif Require Import Pf_SdeInv.
Import ListNotations.
Local Open Scope R_scope.

(** Linear invariants of SDE solves, path by path, for every accepted solver name, grid and Brownian path: if w . f = 0 and
    - w . g = 0 and all components are driven by the same Brownian motion (scalar noise), or
    - only components with w_i = 0 are driven by noise (diagonal noise),
    then w . y has in all returned states its value at the initial state. *)
Theorem C196_invariant :
  forall n name (sde : sde_func ROps) (bm : brownian ROps) s w x t0 t1 ts, sized n sde bm -> length x = n -> @sde_str_to_solver ROps name sde bm = Ok s ->
  (forall t y, length y = n -> inner w (sde_f sde t y) = 0) ->
  (forall t y, length y = n -> inner w (sde_g sde t y) = 0) /\ (forall s t i j, (i < n)%nat -> (j < n)%nat -> comp (bm s t) i = comp (bm s t) j) \/
  (forall t y i, length y = n -> (i < n)%nat -> nth i w 0 * comp (sde_g sde t y) i = 0) ->
  exists xs, @sdeint ROps sde x (t0 :: t1 :: ts) name bm [] = Ok (t0 :: t1 :: ts, xs) /\ (length xs = length (t0 :: t1 :: ts))%nat /\ forall y, In y xs -> inner w y = inner w x.
Proof. exact C196_invariant_pf. Qed.
Print Assumptions C196_invariant.

(** From a state in which drift and diffusion vanish at all times, every solver returns that state at all times, for every Brownian path. *)
Theorem C196_equilibrium :
  forall n name (sde : sde_func ROps) (bm : brownian ROps) s x t0 t1 ts, sized n sde bm -> length x = n -> @sde_str_to_solver ROps name sde bm = Ok s ->
  (forall t, sde_f sde t x = repeat 0 n) -> (forall t, sde_g sde t x = repeat 0 n) ->
  exists xs, @sdeint ROps sde x (t0 :: t1 :: ts) name bm [] = Ok (t0 :: t1 :: ts, xs) /\ (length xs = length (t0 :: t1 :: ts))%nat /\ forall y, In y xs -> y = x.
Proof. exact C196_equilibrium_pf. Qed.
Print Assumptions C196_equilibrium.

Example C196_ex :
  sized 2 swap_sde (fun s t => [t - s; t - s]) /\ (exists s, @sde_str_to_solver ROps "euler" swap_sde (fun s t : R => [t - s; t - s]) = Ok s) /\
  (forall t y, length y = 2%nat -> inner [1; 1] (sde_f swap_sde t y) = 0) /\ (forall t y, length y = 2%nat -> inner [1; 1] (sde_g swap_sde t y) = 0) /\
  (forall s t i j, (i < 2)%nat -> (j < 2)%nat -> comp [t - s; t - s] i = comp [t - s; t - s] j) /\ sde_g swap_sde 0 [0; 1] = repeat 0 2.
Proof. exact C196_ex_pf. Qed.

