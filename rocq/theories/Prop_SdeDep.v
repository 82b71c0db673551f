(** Property theorems (generated by tools/genprop.py from Pf_SdeDep.v, which holds the proofs). *)
From Coq Require Import ZArith QArith Qreals Reals Lra Lia String List Bool.
From Verif Require Import Num Py Tensor M_SolversOde M_Odeint M_Sde Spec_Ode Spec_Adaptive Spec_Conv Spec_Sde.
From Verif Require Import L_Sde L_Conv.
From Verif Require Import Pf_Sde.
Import ListNotations.
Local Notation length := List.length.
From Verif Require Import Pf_SdeDep.
Import ListNotations.
Local Open Scope R_scope.

(** Additive noise (the diffusion may depend on time but not on the state), drift L-Lipschitz: along the same Brownian path, whatever it is, the
    solutions from two initial states at distance e are at time t at most exp(L (t - t0)) e apart, for every solver. *)
Theorem C203_dependence :
  forall n name sde bm s S sigma L e x z t0 t1 ts, sized n sde bm -> length x = n -> length z = n ->
  @sde_str_to_solver ROps name sde bm = Ok s -> scheme_of name (sde_f sde) (sde_g sde) bm = Some S ->
  (forall t y, length y = n -> sde_g sde t y = sigma t) -> 0 <= L -> lipschitz n L (sde_f sde) -> 0 <= e -> near n e x z -> increasing (t0 :: t1 :: ts) ->
  exists xs zs, @sdeint ROps sde x (t0 :: t1 :: ts) name bm [] = Ok (t0 :: t1 :: ts, xs) /\ @sdeint ROps sde z (t0 :: t1 :: ts) name bm [] = Ok (t0 :: t1 :: ts, zs) /\
    length xs = length (t0 :: t1 :: ts) /\ length zs = length (t0 :: t1 :: ts) /\
    forall i t a b, nth_error (t0 :: t1 :: ts) i = Some t -> nth_error xs i = Some a -> nth_error zs i = Some b -> near n (exp (L * (t - t0)) * e) a b.
Proof. exact C203_dependence_pf. Qed.
Print Assumptions C203_dependence.

(** The hypotheses are met: dX = -X dt + t dW. *)
Example C203_ex :
  let sde := @MkSde ROps (fun _ y => map Ropp y) (fun t _ => [t]) (Some "additive"%string) (Some "ito"%string) in let bm := fun u t : R => [7 * t - 7 * u] in
  sized 1 sde bm /\ (exists s, @sde_str_to_solver ROps "euler" sde bm = Ok s) /\ (exists S, scheme_of "euler" (sde_f sde) (sde_g sde) bm = Some S) /\
  lipschitz 1 1 (sde_f sde) /\ near 1 1 [2] [3] /\ increasing [0; 1; 3].
Proof. exact C203_ex_pf. Qed.

