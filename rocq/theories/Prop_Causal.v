(** Property theorems (generated by tools/genprop.py from Pf_Causal.v, which holds the proofs). *)
From Coq Require Import ZArith QArith Qreals Reals Lra Lia List Bool.
From Verif Require Import Num Py Tensor M_SolversOde M_Odeint Spec_Ode Spec_RK Spec_Trees Spec_Inv.
From Verif Require Import L_Base L_Fixed L_Steps L_Steps2 L_Reach L_Inv Pf_Fixed.
Import ListNotations.
Local Notation length := List.length.
From Verif Require Import Pf_Causal.
Import ListNotations.
Local Open Scope R_scope.

(** euler, midpoint and rk4: the states up to a time depend on the field and the grid only up to that time. Two fields that agree on the times between
    the first and the last entry of [a :: pre], on grids that begin with [a :: pre], have the same states there. *)
Theorem C205_causal :
  forall fuel fuel' s rows b n f f' x a pre post post' atol rtol atol' rtol' interp interp' all all' semi semi', builtin_fixed s rows b -> field_on n f -> field_on n f' -> length x = n ->
  increasing ((a :: pre) ++ post) -> increasing ((a :: pre) ++ post') -> separated ((a :: pre) ++ post) -> separated ((a :: pre) ++ post') ->
  (1 <= length (pre ++ post))%nat -> (1 <= length (pre ++ post'))%nat -> (forall t y, a <= t <= last pre a -> f' t y = f t y) ->
  exists xs ys ys', length xs = length (a :: pre) /\
    snd (@odeint ROps fuel f x (@TTensor ROps ((a :: pre) ++ post)) s atol rtol interp all [] semi) = Ok ((a :: pre) ++ post, xs ++ ys) /\
    snd (@odeint ROps fuel' f' x (@TTensor ROps ((a :: pre) ++ post')) s atol' rtol' interp' all' [] semi') = Ok ((a :: pre) ++ post', xs ++ ys').
Proof. exact C205_causal_pf. Qed.
Print Assumptions C205_causal.

(** The hypotheses are met: y' = 0 and a field that is switched on after time 1, on grids that differ after time 1. *)
Example C205_ex :
  let f := fun (_ : R) (y : list R) => map (fun _ => 0) y in let f' := fun (t : R) (y : list R) => map (fun _ => if Rleb t 1 then 0 else 1) y in
  builtin_fixed (RungeKutta4 ROps) (to_R_rows q_rk4_code) (to_R qb_rk4) /\ field_on 1 f /\ field_on 1 f' /\ separated ([0; 1] ++ [2]) /\ increasing ([0; 1] ++ [2]) /\
  (forall t y, 0 <= t <= last [1] 0 -> f' t y = f t y) /\ f' 2 [5] <> f 2 [5].
Proof. exact C205_ex_pf. Qed.

