(** Property theorems (generated by tools/genprop.py from Pf_SdeRepeat.v, which holds the proofs). *)
From Coq Require Import ZArith QArith Reals Lra Lia String List Bool Floats.
From Verif Require Import Num Py Tensor M_SolversOde M_Odeint M_Sde L_Nan.
From Verif Require Spec_Ode Spec_Sde Pf_Sde Pf_Sens.
From Verif Require Import Pf_SdeBack.
Import ListNotations.
Local Notation length := List.length.
From Verif Require Import Pf_SdeRepeat.
Import ListNotations.
Local Open Scope R_scope.

(** In binary64, with the first time requested twice, both Milstein solvers return the initial state followed by states all of whose entries are
    NaN, at least one, for every SDE with additive noise and finite diffusion, every Brownian path and state: they divide the zero difference of
    the diffusion by the zero square root of the step. *)
Theorem C194_milstein_refuted :
  forall pw n name (sde : sde_func (FloatOps pw)) (bm : brownian (FloatOps pw)) x t0 ts c, sized_f pw n sde bm -> length x = n ->
  name = "milstein_ito"%string \/ name = "milstein_stratonovich"%string -> PrimFloat.is_finite t0 = true ->
  (forall y, length y = n -> sde_g sde t0 y = c) -> forallb PrimFloat.is_finite c = true ->
  exists m, @sdeint (FloatOps pw) sde x (t0 :: t0 :: ts) name bm [] = Ok (t0 :: t0 :: ts, x :: repeat (repeat nan n) (S m)).
Proof. exact C194_milstein_refuted_pf. Qed.
Print Assumptions C194_milstein_refuted.

(** A run: dX = dW from 0 over [0; 0; 1] in binary64. *)
Theorem C194_run_refuted :
  forall pw, @sdeint (FloatOps pw) (@MkSde (FloatOps pw) (fun _ x => map (fun _ => 0%float) x) (fun _ x => map (fun _ => 1%float) x) (Some "additive"%string) (Some "ito"%string)) [0%float]
    [0%float; 0%float; 1%float] "milstein_ito" (fun s t => [PrimFloat.sub t s]) [] = Ok ([0%float; 0%float; 1%float], [[0%float]; [nan]; [nan]]).
Proof. exact C194_run_refuted_pf. Qed.
Print Assumptions C194_run_refuted.

(** Euler-Maruyama and Euler-Heun return a repeated time, at any place of the grid, as often as requested and with the same state, if the Brownian
    path has no increment over an empty interval (real arithmetic). *)
Theorem C194_euler_partial :
  forall n name (sde : sde_func ROps) (bm : brownian ROps) s x t0 t1 ts, Pf_Sde.sized n sde bm -> length x = n ->
  name = "euler"%string \/ name = "eulerHeun"%string -> @sde_str_to_solver ROps name sde bm = Ok s -> (forall t, bm t t = repeat 0 n) ->
  exists xs, @sdeint ROps sde x (t0 :: t1 :: ts) name bm [] = Ok (t0 :: t1 :: ts, xs) /\ length xs = length (t0 :: t1 :: ts) /\
  forall i t, nth_error (t0 :: t1 :: ts) i = Some t -> nth_error (t0 :: t1 :: ts) (S i) = Some t -> nth_error xs (S i) = nth_error xs i.
Proof. exact C194_euler_partial_pf. Qed.
Print Assumptions C194_euler_partial.

(** The hypotheses are met: geometric Brownian motion along a path with W(s, t) = t - s, and the SDE of the run. *)
Example C194_ex :
  Pf_Sde.sized 1 (Pf_Sde.ex_sde "ito") (fun s t : R => [t - s]) /\ (exists s, @sde_str_to_solver ROps "euler" (Pf_Sde.ex_sde "ito") (fun s t : R => [t - s]) = Ok s) /\
  (forall t : R, [t - t] = repeat 0 1) /\ forallb PrimFloat.is_finite [1%float] = true.
Proof. exact C194_ex_pf. Qed.

