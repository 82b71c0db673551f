(** Property theorems (generated by tools/genprop.py from Pf_Cross.v, which holds the proofs). *)
From Coq Require Import ZArith QArith Qreals Reals Lra Lia List Bool Sorted.
From Verif Require Import Num Py Tensor M_Constants M_SolversOde M_Utils M_Interp M_Odeint.
From Verif Require Import Spec_Ode Spec_Trees Spec_RK Spec_Norm Spec_Adaptive Spec_Conv Spec_Inv Spec_Order.
From Verif Require Import L_Base L_Fixed L_Vec L_Steps L_Tables L_Steps2 L_Interp L_Utils L_Fixed2 L_Adaptive L_Run.
From Verif Require Import L_Conv Pf_Fixed L_Reach L_Inv L_Order Pf_Conv Pf_Order.
Import ListNotations.
From Verif Require Import Pf_Cross.
Import ListNotations.
Local Open Scope R_scope.

(** C175.  Fixed-step solves of a field with Lipschitz constant L, steps of size at most H with H growth(L, H) < 1: different initial states
    stay different at all times.  Differences shrink at most by the factor 1 - H growth(L, H) per step (maximum norm). *)
Theorem C175_distinct :
  forall s rows b n f L x z H t0 t1 ts fuel atol rtol interp all semi,
  builtin_fixed s rows b -> field_on n f -> 0 <= L -> lipschitz n L f -> length x = n -> length z = n -> x <> z ->
  increasing (t0 :: t1 :: ts) -> separated (t0 :: t1 :: ts) -> steps_at_most H (t0 :: t1 :: ts) -> H * growth L H rows b < 1 ->
  exists sol sol',
    snd (@odeint ROps fuel f x (@TTensor ROps (t0 :: t1 :: ts)) s atol rtol interp all [] semi) = Ok (t0 :: t1 :: ts, sol) /\
    snd (@odeint ROps fuel f z (@TTensor ROps (t0 :: t1 :: ts)) s atol rtol interp all [] semi) = Ok (t0 :: t1 :: ts, sol') /\
    (forall k xk zk, nth_error sol k = Some xk -> nth_error sol' k = Some zk -> xk <> zk) /\
    (forall D k xk zk, 0 <= D -> (exists i, (i < n)%nat /\ D <= Rabs (nth i x 0 - nth i z 0)) ->
       nth_error sol k = Some xk -> nth_error sol' k = Some zk ->
       exists i, (i < n)%nat /\ (1 - H * growth L H rows b) ^ k * D <= Rabs (nth i xk 0 - nth i zk 0)).
Proof. exact C175_distinct_pf. Qed.
Print Assumptions C175_distinct.

(** C175, one dimension: the order of the initial states is the order at all times. *)
Theorem C175_order :
  forall s rows b f L a c H t0 t1 ts fuel atol rtol interp all semi,
  builtin_fixed s rows b -> field_on 1 f -> 0 <= L -> lipschitz 1 L f -> a < c ->
  increasing (t0 :: t1 :: ts) -> separated (t0 :: t1 :: ts) -> steps_at_most H (t0 :: t1 :: ts) -> H * growth L H rows b < 1 ->
  exists sol sol',
    snd (@odeint ROps fuel f [a] (@TTensor ROps (t0 :: t1 :: ts)) s atol rtol interp all [] semi) = Ok (t0 :: t1 :: ts, sol) /\
    snd (@odeint ROps fuel f [c] (@TTensor ROps (t0 :: t1 :: ts)) s atol rtol interp all [] semi) = Ok (t0 :: t1 :: ts, sol') /\
    forall k xk zk, nth_error sol k = Some xk -> nth_error sol' k = Some zk ->
      exists ak ck, xk = [ak] /\ zk = [ck] /\ ak < ck /\ (1 - H * growth L H rows b) ^ k * (c - a) <= ck - ak.
Proof. exact C175_order_pf. Qed.
Print Assumptions C175_order.

(** C175, why states are augmented: no field with Lipschitz constant L takes 1 to -1 and -1 to 1 in one dimension, if the
    steps are small enough. *)
Theorem C175_reflection :
  forall s rows b f L H t0 t1 ts fuel atol rtol interp all semi sol sol',
  builtin_fixed s rows b -> field_on 1 f -> 0 <= L -> lipschitz 1 L f ->
  increasing (t0 :: t1 :: ts) -> separated (t0 :: t1 :: ts) -> steps_at_most H (t0 :: t1 :: ts) -> H * growth L H rows b < 1 ->
  snd (@odeint ROps fuel f [-1] (@TTensor ROps (t0 :: t1 :: ts)) s atol rtol interp all [] semi) = Ok (t0 :: t1 :: ts, sol) ->
  snd (@odeint ROps fuel f [1] (@TTensor ROps (t0 :: t1 :: ts)) s atol rtol interp all [] semi) = Ok (t0 :: t1 :: ts, sol') ->
  ~ (last sol [] = [1] /\ last sol' [] = [-1]).
Proof. exact C175_reflection_pf. Qed.
Print Assumptions C175_reflection.

(** C175, the bound on the steps is needed and sharp for Euler's method, where it is H L < 1: for y' = -y (L = 1) all states become 0 with
    the step 1, and the step 2 takes 1 to -1 and -1 to 1. *)
Theorem C175_limit : forall fuel atol rtol interp all semi,
  let solve h x := snd (@odeint ROps fuel (fun _ => map Ropp) [x] (@TTensor ROps [0; h]) (Euler ROps) atol rtol interp all [] semi) in
  lipschitz 1 1 (fun _ => map Ropp) /\
  (forall x, solve 1 x = Ok ([0; 1], [[x]; [0]])) /\ (forall x, solve 2 x = Ok ([0; 2], [[x]; [- x]])).
Proof. exact C175_limit_pf. Qed.
Print Assumptions C175_limit.

(** The hypotheses of C175 are met: y' = -y with the step 1/2, by each of the solvers (the constant of rk4 is below 3/2 for L = 1). *)
Example C175_ex :
  field_on 2 decay /\ lipschitz 2 1 decay /\ [1; 2] <> [1; 3] /\ increasing [0; 1/2] /\ separated [0; 1/2] /\ steps_at_most (1/2) [0; 1/2] /\
  1/2 * growth 1 (1/2) (to_R_rows q_euler) (to_R qb_euler) < 1 /\
  1/2 * growth 1 (1/2) (to_R_rows q_midpoint) (to_R qb_midpoint) < 1 /\
  1/2 * growth 1 (1/2) (to_R_rows q_rk4_code) (to_R qb_rk4) < 1.
Proof. exact C175_ex_pf. Qed.

