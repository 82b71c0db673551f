(** Property theorems (generated by tools/genprop.py from Pf_SdeBack.v, which holds the proofs). *)
From Coq Require Import ZArith QArith Reals Lra Lia String List Bool Floats.
From Verif Require Import Num Py Tensor M_SolversOde M_Odeint M_Sde L_Nan.
From Verif Require Spec_Ode Spec_Sde Pf_Sde Pf_Sens.
Import ListNotations.
Local Notation length := List.length.
From Verif Require Import Pf_SdeBack.
Import ListNotations.
Local Open Scope R_scope.

(** In binary64, with a first step backwards in time, both Milstein solvers return the initial state followed by states all of whose entries
    are NaN, for every SDE, Brownian path, state and grid: they take the square root of the negative step. There is at least one such state if the
    addition of the first step to the first time gives the second time without rounding. *)
Theorem C193_milstein_refuted :
  forall pw n name (sde : sde_func (FloatOps pw)) (bm : brownian (FloatOps pw)) x t0 t1 ts, sized_f pw n sde bm -> length x = n ->
  name = "milstein_ito"%string \/ name = "milstein_stratonovich"%string -> PrimFloat.ltb (PrimFloat.sub t1 t0) 0 = true ->
  exists m, @sdeint (FloatOps pw) sde x (t0 :: t1 :: ts) name bm [] = Ok (t0 :: t1 :: ts, x :: repeat (repeat nan n) m) /\
    (PrimFloat.eqb (PrimFloat.add t0 (PrimFloat.sub t1 t0)) t1 = true -> (1 <= m)%nat).
Proof. exact C193_milstein_refuted_pf. Qed.
Print Assumptions C193_milstein_refuted.

(** A run: dX = X dW from 1 over [1; 0] in binary64. *)
Theorem C193_run_refuted :
  forall pw, @sdeint (FloatOps pw) (@MkSde (FloatOps pw) (fun _ x => map (fun _ => 0%float) x) (fun _ x => x) (Some "diagonal"%string) (Some "ito"%string)) [1%float] [1%float; 0%float]
    "milstein_ito" (fun _ _ => [0.5%float]) [] = Ok ([1%float; 0%float], [[1%float]; [nan]]).
Proof. exact C193_run_refuted_pf. Qed.
Print Assumptions C193_run_refuted.

(** Euler-Maruyama and Euler-Heun do follow their schemes backwards in time (real arithmetic). *)
Theorem C193_euler_partial :
  forall n name (sde : sde_func ROps) (bm : brownian ROps) s S x t0 t1 ts, Pf_Sde.sized n sde bm -> length x = n ->
  name = "euler"%string \/ name = "eulerHeun"%string -> @sde_str_to_solver ROps name sde bm = Ok s -> Spec_Sde.scheme_of name (sde_f sde) (sde_g sde) bm = Some S -> t1 < t0 ->
  exists xs, @sdeint ROps sde x (t0 :: t1 :: ts) name bm [] = Ok (t0 :: t1 :: ts, xs) /\ Spec_Sde.follows S x (t0 :: t1 :: ts) xs.
Proof. exact C193_euler_partial_pf. Qed.
Print Assumptions C193_euler_partial.

(** The hypotheses are met by the SDE of the run. *)
Example C193_ex : forall pw, sized_f pw 1 (@MkSde (FloatOps pw) (fun _ x => map (fun _ => 0%float) x) (fun _ x => x) (Some "diagonal"%string) (Some "ito"%string)) (fun _ _ => [0.5%float]) /\
  PrimFloat.ltb (PrimFloat.sub 0 1) 0 = true.
Proof. exact C193_ex_pf. Qed.

