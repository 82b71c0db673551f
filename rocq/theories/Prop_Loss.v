(** Property theorems (generated by tools/genprop.py from Pf_Loss.v, which holds the proofs). *)
From Coq Require Import ZArith QArith Qreals Reals Lra Lia String List Bool.
From Verif Require Import Num Py Tensor M_Constants M_SolversOde M_Utils M_Interp M_Odeint M_Core.
From Verif Require Import Spec_Ode Spec_Trees Spec_RK Spec_Norm Spec_Adaptive Spec_Inv Spec_Core Spec_Loss.
From Verif Require Import L_Base L_Fixed L_Vec L_Steps L_Tables L_Steps2 L_Utils L_Fixed2 L_Adaptive.
From Verif Require Import L_Adaptive2 L_Adaptive3 Pf_Fixed Pf_Adaptive L_Reach L_Inv Pf_Inv Pf_Core.
Import ListNotations.
Local Notation length := List.length.
From Verif Require Import Pf_Loss.
Import ListNotations.
Local Open Scope R_scope.

(** C137.  A solve with the loss in the first column of the state, with any built-in solver without dense output, all
    grids and tolerances: the other columns are states of the solver for the field alone, and the first one holds the
    sums of the solver's quadrature formula for the loss along exactly these steps. *)
Theorem C137_quadrature :
  forall fuel s rows b d k l g F y0 t0 ts atol rtol all semi times sol,
  builtin_method s rows b -> augmented d k l g F -> length y0 = (k * S d)%nat -> increasing (t0 :: ts) -> (1 <= length ts)%nat ->
  snd (@odeint ROps fuel F y0 (@TTensor ROps (t0 :: ts)) s atol rtol false all [] semi) = Ok (times, sol) ->
  length sol = length times /\
  forall i t y, nth_error times i = Some t -> nth_error sol i = Some y ->
    quadrature rows b l g t0 (states d k y0) (losses d k y0) t (states d k y) (losses d k y).
Proof. exact C137_quadrature_pf. Qed.
Print Assumptions C137_quadrature.

(** C137.  With a fixed-step solver the loss does not change the states: they are what the solve without loss returns
    (same times, same exceptions). *)
Theorem C137_same_states :
  forall fuel s rows b d k l g F y0 t0 t1 ts atol rtol interp all save_at semi,
  erk_solver s rows b -> augmented d k l g F -> length y0 = (k * S d)%nat ->
  snd (@odeint ROps fuel g (states d k y0) (@TTensor ROps (t0 :: t1 :: ts)) s atol rtol interp all save_at semi) =
  rmap (fun r => (fst r, map (states d k) (snd r)))
    (snd (@odeint ROps fuel F y0 (@TTensor ROps (t0 :: t1 :: ts)) s atol rtol interp all save_at semi)).
Proof. exact C137_same_states_pf. Qed.
Print Assumptions C137_same_states.

Theorem C137_constant :
  forall s rows b, builtin_method s rows b ->
  exists beta, Rabs (beta - 1) <= 1 / 10 ^ 80 /\ (s <> Tsitouras45 ROps -> beta = 1) /\
  forall l g t0 x a t y c i v, quadrature rows b l g t0 x a t y c -> (i < length a)%nat -> (forall t y, nth i (l t y) 0 = v) ->
  nth i c 0 = nth i a 0 + beta * v * (t - t0).
Proof. exact C137_constant_pf. Qed.
Print Assumptions C137_constant.

(** C137.  The field of a NeuralODE with an integral loss (order 1, sensitivity 'autograd') is such an augmented field:
    for every vector field of an accepted signature and every loss with one value per sample, a batch of k rows
    (loss, state) is mapped to the rows (loss of the states, field of the states). *)
Theorem C137_neuralode :
  forall (A : Type) (empty : A) (c : @callable ROps A) (il : R -> list (list R) -> @loss_val ROps)
    (G : R -> list (list R) -> list (list R)) (L : R -> list (list R) -> list R) d k,
  (forall t X, shaped d k X -> exists env, @evaluates ROps A empty c t X env /\ @c_body ROps A c (Some t) env = Ok (G t X)) ->
  (forall t X, shaped d k X -> shaped d k (G t X)) ->
  (forall t X, shaped d k X -> il t X = @Loss1 ROps (L t X) /\ length (L t X) = k) ->
  exists v, @neuralode_vf ROps A c 1 (Some il) "autograd" = Ok v /\
    (forall t Y, shaped (S d) k Y -> exists Z, @solver_call ROps A empty v t Y = Ok Z /\ shaped (S d) k Z) /\
    augmented d k (fun t x => L t (batch_rows d k x)) (fun t x => concat (G t (batch_rows d k x)))
      (fun t y => match @solver_call ROps A empty v t (batch_rows (S d) k y) with Ok Z => concat Z | _ => [] end).
Proof. exact C137_neuralode_pf. Qed.
Print Assumptions C137_neuralode.

(** C137, refuted for the adaptive solvers: the loss takes part in the error control.  The state 1 of the field 0 with the
    loss 1/t (0 at t <= 0): dopri5 returns on [0; 1] without the loss, and never returns with it. *)
Theorem C137_adaptive_refuted :
  exists l g F ts, augmented 1 1 l g F /\ increasing ts /\
  let solve f x fuel := snd (@odeint ROps fuel f x (@TTensor ROps ts) (DormandPrince45 ROps) (1/1000) (1/1000)
       false false [] None) in
  (exists fuel r, solve g [1] fuel = Ok r) /\ states 1 1 [0; 1] = [1] /\ (forall fuel, solve F [0; 1] fuel = OutOfFuel).
Proof. exact C137_adaptive_refuted_pf. Qed.
Print Assumptions C137_adaptive_refuted.

(** Concrete case: the states (x, v) of a batch of two samples, the loss x v and a rotation. *)
Example C137_ex :
  let l t y := match y with [a; b; c; d] => [a * b; c * d] | _ => [] end in
  let g t y := match y with [a; b; c; d] => [b; - a; d; - c] | _ => y end in
  let F t y := match y with [_; a; b; _; c; d] => [a * b; b; - a; c * d; d; - c] | _ => y end in
  augmented 2 2 l g F /\ losses 2 2 [0; 1; 2; 0; 3; 4] = [0; 0] /\ states 2 2 [0; 1; 2; 0; 3; 4] = [1; 2; 3; 4].
Proof. exact C137_ex_pf. Qed.

