(** Property theorems (generated by tools/genprop.py from Pf_Tol.v, which holds the proofs). *)
From Coq Require Import ZArith QArith Qreals Reals Lra Lia List Bool.
From Verif Require Import Num Py Tensor M_Constants M_SolversOde M_Utils M_Interp M_Odeint M_Autograd.
From Verif Require Import Spec_Ode Spec_RK Spec_Conv Spec_Order Spec_Norm Spec_Adaptive L_Base L_Fixed L_Vec L_Steps L_Utils L_Conv L_Reach L_Rel Pf_Fixed Pf_Values Pf_Autograd L_Order Pf_Order Pf_AdGrad Pf_Cross L_Adaptive2.
From Verif Require Pf_Jump.
Import ListNotations.
Local Notation length := List.length.
From Verif Require Import Pf_Tol.
Import ListNotations.
Local Open Scope R_scope.

(** Fixed-step solves do not depend on the tolerances at all (every arithmetic, field, state and grid). *)
Theorem C185_fixed_partial :
  forall (K : NumOps) fuel f x ts (s : solver K (vec K)) atol rtol atol' rtol' interp all save_at semi,
  s_fixed s = true ->
  odeint fuel f x ts s atol rtol interp all save_at semi = odeint fuel f x ts s atol' rtol' interp all save_at semi.
Proof. exact C185_fixed_partial_pf. Qed.
Print Assumptions C185_fixed_partial.

(** The number against which a step is accepted can only grow when the tolerances are tightened: the trial step is the same and every
    step accepted under the tight tolerances is accepted under the loose ones. *)
Theorem C185_acceptance_partial :
  forall atol rtol atol' rtol' semi x x' e, 0 < atol <= atol' -> 0 <= rtol <= rtol' ->
  @error_ratio ROps atol' rtol' semi x x' e <= @error_ratio ROps atol rtol semi x x' e.
Proof. exact C185_acceptance_partial_pf. Qed.
Print Assumptions C185_acceptance_partial.

(** Dividing both tolerances by a factor multiplies that number by the factor. *)
Theorem C185_scaling_partial :
  forall c atol rtol semi x x' e, 0 < c -> 0 < atol -> 0 <= rtol ->
  @error_ratio ROps (atol / c) (rtol / c) semi x x' e = c * @error_ratio ROps atol rtol semi x x' e.
Proof. exact C185_scaling_partial_pf. Qed.
Print Assumptions C185_scaling_partial.

(** The result can get worse all the same.  There is a continuous field that does not depend on the state for which dopri5 with both tolerances
    10^-3 returns the exact value at T, and with both tolerances 999/1000 * 10^-3 a state that is off by more than 1/10, a hundred times the
    tolerances (relative error above 1/110): the tighter solve rejects the step of the looser one and takes two steps that miss part of the field. *)
Theorem C185_adaptive_refuted :
  exists (F : R -> list R -> list R) T x (y : R -> R) u, 0 < T /\ field_on 1 F /\ lipschitz 1 0 F /\ (exists g, continuity g /\ forall t z, F t z = [g t]) /\
  solves 1 0 T F (fun t => [y t]) /\ y 0 = x /\ 1 / 10 < Rabs (u - y T) /\ Rabs (y T) / 110 < Rabs (u - y T) /\
  forall fuel, (3 <= fuel)%nat ->
    snd (@odeint ROps fuel F [x] (@TTensor ROps [0; T]) (DormandPrince45 ROps) (1 / 1000) (1 / 1000) false false [] None) = Ok ([0; T], [[x]; [y T]]) /\
    snd (@odeint ROps fuel F [x] (@TTensor ROps [0; T]) (DormandPrince45 ROps) (999 / 1000000) (999 / 1000000) false false [] None) = Ok ([0; T], [[x]; [u]]).
Proof. exact C185_adaptive_refuted_pf. Qed.
Print Assumptions C185_adaptive_refuted.

(** The hypotheses are met: euler is a fixed-step solver; an error of 2 at the states 1 and 3 counts 1/2 under the tolerances (1, 1) and 2/5 under (2, 1). *)
Example C185_ex :
  s_fixed (Euler ROps) = true /\ @error_ratio ROps 1 1 None [1] [3] [2] = 1 / 2 /\ @error_ratio ROps 2 1 None [1] [3] [2] = 2 / 5.
Proof. exact C185_ex_pf. Qed.

