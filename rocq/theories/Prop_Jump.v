(** Property theorems (generated by tools/genprop.py from Pf_Jump.v, which holds the proofs). *)
From Coq Require Import ZArith QArith Qreals Reals Lra Lia List Bool.
From Verif Require Import Num Py Tensor M_Constants M_SolversOde M_Utils M_Interp M_Odeint M_Autograd.
From Verif Require Import Spec_Ode Spec_RK Spec_Conv Spec_Order L_Base L_Fixed L_Vec L_Steps L_Utils L_Conv L_Reach L_Rel Pf_Fixed Pf_Values Pf_Autograd L_Order Pf_Order Pf_AdGrad Pf_Cross.
Import ListNotations.
Local Notation length := List.length.
From Verif Require Import Pf_Jump.
Import ListNotations.
Local Open Scope R_scope.

(** Fixed-step solves are continuous in the initial state: for every tolerance [eps] there is a [delta] such that the states
    recorded from all initial states within [delta] of [x] stay within [eps] of those recorded from [x], at all times. *)
Theorem C180_fixed_partial :
  forall s rows b n f L x t0 t1 ts eps fuel atol rtol interp all semi,
  builtin_fixed s rows b -> field_on n f -> 0 <= L -> lipschitz n L f -> length x = n ->
  increasing (t0 :: t1 :: ts) -> separated (t0 :: t1 :: ts) -> 0 < eps ->
  exists delta, 0 < delta /\ forall z, length z = n -> near n delta x z ->
  exists sol sol',
    snd (@odeint ROps fuel f x (@TTensor ROps (t0 :: t1 :: ts)) s atol rtol interp all [] semi) = Ok (t0 :: t1 :: ts, sol) /\
    snd (@odeint ROps fuel f z (@TTensor ROps (t0 :: t1 :: ts)) s atol rtol interp all [] semi) = Ok (t0 :: t1 :: ts, sol') /\
    forall k tk xk zk, nth_error (t0 :: t1 :: ts) k = Some tk -> nth_error sol k = Some xk -> nth_error sol' k = Some zk ->
      near n eps xk zk.
Proof. exact C180_fixed_partial_pf. Qed.
Print Assumptions C180_fixed_partial.

(** Adaptive solves are not: for a continuous field that does not even depend on the state (so that the flow is a translation) and
    the solver dopri5 with both tolerances 10^-3 the final state has a jump at 365/36.  Every initial state just below it, however near,
    yields a final state that differs by more than 1/50 from the one obtained at 365/36. *)
Theorem C180_adaptive_refuted :
  exists (F : R -> list R -> list R) T, 0 < T /\ field_on 1 F /\ lipschitz 1 0 F /\ (forall t x y, F t x = F t y) /\
  (exists g, continuity g /\ forall t x, F t x = [g t]) /\
  exists xs ys, (forall fuel, (3 <= fuel)%nat ->
    snd (@odeint ROps fuel F [xs] (@TTensor ROps [0; T]) (DormandPrince45 ROps) (1 / 1000) (1 / 1000) false false [] None) = Ok ([0; T], [[xs]; [ys]])) /\
  forall delta, 0 < delta -> exists x y, Rabs (x - xs) < delta /\ 1 / 50 < Rabs (y - ys) /\
    forall fuel, (3 <= fuel)%nat ->
    snd (@odeint ROps fuel F [x] (@TTensor ROps [0; T]) (DormandPrince45 ROps) (1 / 1000) (1 / 1000) false false [] None) = Ok ([0; T], [[x]; [y]]).
Proof. exact C180_adaptive_refuted_pf. Qed.
Print Assumptions C180_adaptive_refuted.

(** The hypotheses of C180_fixed_partial are met: y' = -y on [0, 1/2] by euler, from states within any distance of [1; 2]. *)
Example C180_ex :
  builtin_fixed (Euler ROps) (to_R_rows q_euler) (to_R qb_euler) /\ field_on 2 decay /\ lipschitz 2 1 decay /\ increasing [0; 1/2] /\ separated [0; 1/2] /\
  (forall delta, 0 < delta -> [1; 2 + delta] <> [1; 2] /\ near 2 delta [1; 2] [1; 2 + delta]).
Proof. exact C180_ex_pf. Qed.

