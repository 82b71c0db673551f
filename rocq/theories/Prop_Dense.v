(** Property theorems (generated by tools/genprop.py from Pf_Dense.v, which holds the proofs). *)
From Coq Require Import ZArith QArith Qreals Reals Lra Lia List Bool Sorted Factorial.
From Verif Require Import Num Py Tensor M_Constants M_SolversOde M_Utils M_Interp M_Odeint.
From Verif Require Import Spec_Ode Spec_Trees Spec_RK Spec_Norm Spec_Adaptive Spec_Conv Spec_Inv Spec_Order.
From Verif Require Import L_Base L_Fixed L_Vec L_Steps L_Tables L_Steps2 L_Interp L_Utils L_Fixed2 L_Adaptive L_Run.
From Verif Require Import L_Adaptive2 L_Adaptive3 L_Adaptive4 L_Conv Pf_Fixed Pf_Adaptive L_Reach L_Inv L_Order L_Order2 L_Sens Pf_Conv Pf_Order.
Import ListNotations.
From Verif Require Import Pf_Dense.
Import ListNotations.
Local Open Scope R_scope.

(** C112.  The dense output of dopri5 keeps the order of the method: all states returned with the
    interpolator, inside steps and at their ends, are within C H^5 + d H of the solution, H the largest accepted
    step.  The second term, with the explicit constant d = [digits_effect] of the order of 10^-14, is the effect
    of the mid-point weights being written with 16 digits.
    With return_all_eval the step ends are among the returned times. *)
Theorem C112_dense_order :
  forall n f L y yd J K M t0 T,
  field_on n f -> 0 <= L -> lipschitz n L f -> t0 <= T -> 0 <= M -> 0 <= K -> smooth_solution n t0 T 5 f y yd J K M ->
  exists C, 0 <= C /\ forall t1 ts fuel atol rtol all save_at semi times sol,
    increasing (t0 :: t1 :: ts) -> last (t1 :: ts) t0 <= T ->
    snd (@odeint ROps fuel f (y t0) (@TTensor ROps (t0 :: t1 :: ts)) (DormandPrince45 ROps) atol rtol true all save_at semi) = Ok (times, sol) ->
    List.length sol = List.length times /\
    exists ends xT,
      path (pair_accepts (to_R_rows q_dopri5) (to_R qb5_dopri5) (to_R qb4_dopri5) f atol rtol semi) t0 (y t0) ends (last (t1 :: ts) t0) xT /\
      (all = true -> incl ends times) /\ (forall s, In s times -> In s (t0 :: ends) \/ In s (t1 :: ts)) /\
      forall H, steps_at_most H (t0 :: ends) ->
      forall k tk xk, nth_error times k = Some tk -> nth_error sol k = Some xk -> near n (C * H ^ 5 + digits_effect L M (T - t0) * H) xk (y tk).
Proof. exact C112_dense_order_pf. Qed.
Print Assumptions C112_dense_order.

(** y' = y on [[0, 1]] meets the hypotheses of C112. *)
Example C112_dense_order_ex :
  let f := fun (_ : R) (x : list R) => x in
  field_on 1 f /\ lipschitz 1 1 f /\
  smooth_solution 1 0 1 5 f (fun t => [exp t]) (fun _ t => [exp t]) (fun m _ _ _ => match m with O => 1 | _ => 0 end) 0 (exp 1).
Proof. exact C112_dense_order_ex_pf. Qed.

