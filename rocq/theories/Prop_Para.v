(** Property theorems (generated by tools/genprop.py from Pf_Para.v, which holds the proofs). *)
From Coq Require Import ZArith QArith Qreals Reals Lra Lia List Bool.
From Verif Require Import Num Py Tensor M_SolversOde M_Odeint M_MS Spec_Ode Spec_Conv Spec_MS.
From Verif Require Import L_Base L_Fixed L_Fixed2 L_Vec L_Steps L_Steps2 L_Conv L_MS Pf_Fixed Pf_MS.
Import ListNotations.
From Verif Require Import Pf_Para.
Import ListNotations.
Local Open Scope R_scope.

(** C109.  Rate of parareal (mszero).  If the coarse flow over one interval has Lipschitz constant beta >= 1, the
    difference of the fine and the coarse flow has Lipschitz constant delta, and the initial guess is within E of
    the sequential fine solution, then after maxiter + 1 passes row m is within
    binomial(m, maxiter + 1) delta^(maxiter + 1) beta^(m - maxiter - 1) E of it. *)
Theorem C109_parareal_rate :
  forall coarse fine f oc lc off lf n t0 t1 ts B fine_steps maxiter b0 beta delta E,
  fixed_stepper (s_step coarse) f oc lc -> fixed_stepper (s_step fine) f off lf ->
  keeps_length n oc -> keeps_length n off -> (2 <= fine_steps)%nat -> separated (@linspace0 ROps (t1 - t0) fine_steps) ->
  length B = length (t0 :: t1 :: ts) -> (forall b, In b B -> length b = n) -> nth_error B 0 = Some b0 ->
  (-1 <= maxiter < Z.of_nat (length (t0 :: t1 :: ts)))%Z ->
  let sub := @linspace0 ROps (t1 - t0) fine_steps in
  let G := flow oc sub in let F := flow off sub in
  1 <= beta -> 0 <= delta -> 0 <= E ->
  (forall x y D, length x = n -> length y = n -> near n D x y -> near n (beta * D) (G x) (G y)) ->
  (forall x y D, length x = n -> length y = n -> near n D x y -> near n (delta * D) (sub_list (F x) (G x)) (sub_list (F y) (G y))) ->
  (forall m b, nth_error B m = Some b -> near n E b (sequential F b0 m)) ->
  let k := Z.to_nat (maxiter + 1) in
  exists B', @mszero_root_solve ROps coarse fine f (t0 :: t1 :: ts) B fine_steps maxiter = Ok B' /\ length B' = length B /\
    forall m b, nth_error B' m = Some b ->
      near n (INR (binomial m k) * delta ^ k * beta ^ (m - k) * E) b (sequential F b0 m).
Proof. exact C109_parareal_rate_pf. Qed.
Print Assumptions C109_parareal_rate.

Example C109_ex :
  let f := half_decay in
  let sub := @linspace0 ROps (1 - 0) 2 in
  let G := flow (euler_one f) sub in let F := flow (midpoint_one f) sub in
  fixed_stepper (s_step (Euler ROps)) f (euler_one f) euler_log /\ fixed_stepper (s_step (Midpoint ROps)) f (midpoint_one f) (midpoint_log f) /\
  keeps_length 1 (euler_one f) /\ keeps_length 1 (midpoint_one f) /\ separated sub /\
  (forall a, G [a] = [a / 2] /\ F [a] = [5 / 8 * a]) /\
  (forall x y D, length x = 1%nat -> length y = 1%nat -> near 1 D x y -> near 1 (1 * D) (G x) (G y)) /\
  (forall x y D, length x = 1%nat -> length y = 1%nat -> near 1 D x y ->
     near 1 (1 / 8 * D) (sub_list (F x) (G x)) (sub_list (F y) (G y))) /\
  (forall m b, nth_error [[8]; [4]; [2]; [1]] m = Some b -> near 1 2 b (sequential F [8] m)).
Proof. exact C109_ex_pf. Qed.

