(** Property theorems (generated by tools/genprop.py from Pf_Mono.v, which holds the proofs). *)
From Coq Require Import ZArith QArith Qreals Reals Lra Lia List Bool.
From Verif Require Import Num Py Tensor M_Constants M_SolversOde M_Utils M_Interp M_Odeint M_Autograd.
From Verif Require Import Spec_Ode Spec_RK Spec_Conv Spec_Order L_Base L_Fixed L_Vec L_Steps L_Utils L_Conv L_Reach L_Rel Pf_Fixed Pf_Values Pf_Autograd L_Order Pf_Order Pf_AdGrad Pf_Cross.
From Verif Require Import Spec_Trees Spec_Inv L_Tables L_Steps2 L_Fixed2 L_Adaptive L_Run L_Inv Pf_Conv.
From Verif Require Pf_Jump Pf_Calls.
Import ListNotations.
Local Notation length := List.length.
From Verif Require Import Pf_Mono.
Import ListNotations.
Local Open Scope R_scope.

(** Euler, any dimension: if the field f is at most g, one of the two is cooperative, the Lipschitz constants are at most L and the
    steps at most 1/L, then from x <= z the states for f and x are at most those for g and z, in every component at every time. *)
Theorem C183_euler_partial :
  forall n f g L x z H t0 t1 ts fuel atol rtol interp all semi,
  field_on n f -> field_on n g -> cooperative n f \/ cooperative n g -> 0 <= L -> lipschitz n L f -> lipschitz n L g -> field_below n f g ->
  length x = n -> length z = n -> below n x z ->
  increasing (t0 :: t1 :: ts) -> separated (t0 :: t1 :: ts) -> steps_at_most H (t0 :: t1 :: ts) -> H * L <= 1 ->
  exists sol sol',
    snd (@odeint ROps fuel f x (@TTensor ROps (t0 :: t1 :: ts)) (Euler ROps) atol rtol interp all [] semi) = Ok (t0 :: t1 :: ts, sol) /\
    snd (@odeint ROps fuel g z (@TTensor ROps (t0 :: t1 :: ts)) (Euler ROps) atol rtol interp all [] semi) = Ok (t0 :: t1 :: ts, sol') /\
    forall k xk zk, nth_error sol k = Some xk -> nth_error sol' k = Some zk -> below n xk zk.
Proof. exact C183_euler_partial_pf. Qed.
Print Assumptions C183_euler_partial.

(** rk4, one dimension: if the field f is at most g, f is Lipschitz with constant L and the steps are at most 1/(2L), then from x <= z the
    states for f and x are at most those for g and z at every time. *)
Theorem C183_rk4_partial :
  forall f g L x z H t0 t1 ts fuel atol rtol interp all semi,
  field_on 1 f -> field_on 1 g -> 0 <= L -> lipschitz 1 L f -> field_below 1 f g -> x <= z ->
  increasing (t0 :: t1 :: ts) -> separated (t0 :: t1 :: ts) -> steps_at_most H (t0 :: t1 :: ts) -> H * L <= 1 / 2 ->
  exists sol sol',
    snd (@odeint ROps fuel f [x] (@TTensor ROps (t0 :: t1 :: ts)) (RungeKutta4 ROps) atol rtol interp all [] semi) = Ok (t0 :: t1 :: ts, sol) /\
    snd (@odeint ROps fuel g [z] (@TTensor ROps (t0 :: t1 :: ts)) (RungeKutta4 ROps) atol rtol interp all [] semi) = Ok (t0 :: t1 :: ts, sol') /\
    forall k xk zk, nth_error sol k = Some xk -> nth_error sol' k = Some zk -> below 1 xk zk.
Proof. exact C183_rk4_partial_pf. Qed.
Print Assumptions C183_rk4_partial.

(** The midpoint rule reverses the order for every step size: for every h there are scalar fields f <= g with Lipschitz constant 1 such
    that one step of size h from the same state ends strictly lower for the larger field. *)
Theorem C183_midpoint_refuted :
  forall h, 1 / 1000000 <= h -> exists f g, field_on 1 f /\ field_on 1 g /\ cooperative 1 f /\ cooperative 1 g /\ lipschitz 1 1 f /\ lipschitz 1 1 g /\
  field_below 1 f g /\ forall x fuel atol rtol interp all semi, exists u v,
    snd (@odeint ROps fuel f [x] (@TTensor ROps [0; h]) (Midpoint ROps) atol rtol interp all [] semi) = Ok ([0; h], [[x]; [u]]) /\
    snd (@odeint ROps fuel g [x] (@TTensor ROps [0; h]) (Midpoint ROps) atol rtol interp all [] semi) = Ok ([0; h], [[x]; [v]]) /\
    v < u.
Proof. exact C183_midpoint_refuted_pf. Qed.
Print Assumptions C183_midpoint_refuted.

(** rk4 violates it in two dimensions, for every step size up to one: x' = min(y, 0), y' = -y from the origin stays there; with a source for y
    during the first quarter of the step, x ends below zero, because the fourth stage sees a negative y. *)
Theorem C183_rk4_refuted :
  forall h, 1 / 1000000 <= h <= 1 -> exists f g, field_on 2 f /\ field_on 2 g /\ cooperative 2 f /\ cooperative 2 g /\ lipschitz 2 1 f /\ lipschitz 2 1 g /\
  field_below 2 f g /\ forall fuel atol rtol interp all semi, exists u v,
    snd (@odeint ROps fuel f [0; 0] (@TTensor ROps [0; h]) (RungeKutta4 ROps) atol rtol interp all [] semi) = Ok ([0; h], [[0; 0]; u]) /\
    snd (@odeint ROps fuel g [0; 0] (@TTensor ROps [0; h]) (RungeKutta4 ROps) atol rtol interp all [] semi) = Ok ([0; h], [[0; 0]; v]) /\
    nth 0 v 0 < nth 0 u 0.
Proof. exact C183_rk4_refuted_pf. Qed.
Print Assumptions C183_rk4_refuted.

(** dopri5 with both tolerances 10^-3 reverses the order of two initial states by more than 1/50, for a continuous scalar field that
    does not depend on the state (the exact solutions keep their distance). *)
Theorem C183_adaptive_refuted :
  exists (F : R -> list R -> list R) T a c u v, 0 < T /\ field_on 1 F /\ lipschitz 1 0 F /\ cooperative 1 F /\ (forall t x y, F t x = F t y) /\
  a < c /\ v + 1 / 50 < u /\ forall fuel, (3 <= fuel)%nat ->
    snd (@odeint ROps fuel F [a] (@TTensor ROps [0; T]) (DormandPrince45 ROps) (1 / 1000) (1 / 1000) false false [] None) = Ok ([0; T], [[a]; [u]]) /\
    snd (@odeint ROps fuel F [c] (@TTensor ROps [0; T]) (DormandPrince45 ROps) (1 / 1000) (1 / 1000) false false [] None) = Ok ([0; T], [[c]; [v]]).
Proof. exact C183_adaptive_refuted_pf. Qed.
Print Assumptions C183_adaptive_refuted.

(** The hypotheses of C183_euler_partial are met: two species that help each other, and the same with an additional source. *)
Example C183_ex :
  let f := fun (_ : R) (x : list R) => [- nth 0 x 0 + nth 1 x 0; nth 0 x 0 - nth 1 x 0] in
  let g := fun (t : R) (x : list R) => [- nth 0 x 0 + nth 1 x 0 + t * t; nth 0 x 0 - nth 1 x 0] in
  field_on 2 f /\ field_on 2 g /\ cooperative 2 f /\ lipschitz 2 2 f /\ lipschitz 2 2 g /\ field_below 2 f g /\ below 2 [1; 2] [1; 3] /\
  increasing [0; 1/2] /\ separated [0; 1/2] /\ steps_at_most (1/2) [0; 1/2] /\ 1/2 * 2 <= 1.
Proof. exact C183_ex_pf. Qed.

