(** Property theorems (generated by tools/genprop.py from Pf_SdeOrder.v, which holds the proofs). *)
From Coq Require Import ZArith QArith Qreals Reals Lra Lia String List Bool.
From Verif Require Import Num Py Tensor M_SolversOde M_Odeint M_Sde Spec_Ode Spec_Adaptive Spec_Conv Spec_Sde.
From Verif Require Import L_Fixed L_Sde L_Conv.
From Verif Require Import Pf_Sde Pf_SdeDep Pf_SdeCausal.
Import ListNotations.
Local Notation length := List.length.
From Verif Require Import Pf_SdeOrder.
Import ListNotations.
Local Open Scope R_scope.

(** Scalar SDE with additive noise, L-Lipschitz drift, steps of size at most 1/L: along the same Brownian path the solutions from x <= z stay in
    that order at every time, for every solver. *)
Theorem C204_additive_partial :
  forall name sde bm s S sigma L x z t0 t1 ts, sized 1 sde bm ->
  @sde_str_to_solver ROps name sde bm = Ok s -> scheme_of name (sde_f sde) (sde_g sde) bm = Some S ->
  (forall t y, length y = 1%nat -> sde_g sde t y = sigma t) -> 0 <= L -> lipschitz 1 L (sde_f sde) -> x <= z -> increasing (t0 :: t1 :: ts) ->
  (forall i a b, nth_error (t0 :: t1 :: ts) i = Some a -> nth_error (t0 :: t1 :: ts) (Datatypes.S i) = Some b -> L * (b - a) <= 1) ->
  exists xs zs, @sdeint ROps sde [x] (t0 :: t1 :: ts) name bm [] = Ok (t0 :: t1 :: ts, xs) /\ @sdeint ROps sde [z] (t0 :: t1 :: ts) name bm [] = Ok (t0 :: t1 :: ts, zs) /\
    length xs = length (t0 :: t1 :: ts) /\ length zs = length (t0 :: t1 :: ts) /\
    forall i a b, nth_error xs i = Some a -> nth_error zs i = Some b -> nth 0 a 0 <= nth 0 b 0.
Proof. exact C204_additive_partial_pf. Qed.
Print Assumptions C204_additive_partial.

(** With multiplicative noise the order is lost: for dX = X dW the exact solutions never cross, but one Euler-Maruyama step of any size over which
    the path falls by more than 1 moves the solution from 1 below the solution from 0. *)
Theorem C204_multiplicative_refuted :
  forall w h, w < -1 -> let sde := @MkSde ROps (fun _ _ => [0]) (fun _ y => y) (Some "diagonal"%string) (Some "ito"%string) in let bm := fun _ _ : R => [w] in
  exists y, y < 0 /\ @sdeint ROps sde [1] [0; h] "euler" bm [] = Ok ([0; h], [[1]; [y]]) /\ @sdeint ROps sde [0] [0; h] "euler" bm [] = Ok ([0; h], [[0]; [0]]).
Proof. exact C204_multiplicative_refuted_pf. Qed.
Print Assumptions C204_multiplicative_refuted.

(** The hypotheses are met: dX = -X dt + t dW with steps 1 and 1/2. *)
Example C204_ex :
  let sde := @MkSde ROps (fun _ y => map Ropp y) (fun t _ => [t]) (Some "additive"%string) (Some "ito"%string) in let bm := fun u t : R => [7 * t - 7 * u] in
  sized 1 sde bm /\ (exists s, @sde_str_to_solver ROps "euler" sde bm = Ok s) /\ (exists S, scheme_of "euler" (sde_f sde) (sde_g sde) bm = Some S) /\
  lipschitz 1 1 (sde_f sde) /\ increasing [0; 1; 3 / 2] /\
  (forall i a b, nth_error [0; 1; 3 / 2] i = Some a -> nth_error [0; 1; 3 / 2] (Datatypes.S i) = Some b -> 1 * (b - a) <= 1).
Proof. exact C204_ex_pf. Qed.

