(** Property theorems (generated by tools/genprop.py from Pf_ShootInv.v, which holds the proofs). *)
From Coq Require Import ZArith QArith Qreals Reals Lra Lia List Bool Sorted.
From Verif Require Import Num Py Tensor M_SolversOde M_Odeint M_MS Spec_Ode Spec_MS Spec_RK Spec_Inv Spec_Trees.
From Verif Require Import L_Base L_Fixed L_Fixed2 L_Vec L_Steps L_Steps2 L_Jagged L_Conv L_Reach L_Inv L_MS Pf_Fixed.
From Verif Require Pf_Inv.
From Verif Require Import Pf_MS.
Import ListNotations.
Local Notation length := List.length.
From Verif Require Import Pf_ShootInv.
Import ListNotations.
Local Open Scope R_scope.

(** Parareal without initial guess, euler, midpoint or rk4 as coarse and fine method, every field, state and number of passes: every quantity w . y
    with w . f = 0 has in all returned states its value at the initial state, and from an equilibrium all returned states are the equilibrium. *)
Theorem C195_parareal_partial :
  forall fuel coarse fine rc bc rf bf n f x t0 t1 ts fine_steps maxiter, builtin_fixed coarse rc bc -> builtin_fixed fine rf bf -> field_on n f -> length x = n ->
  (2 <= fine_steps)%nat -> separated (@linspace0 ROps (t1 - t0) fine_steps) -> separated (t0 :: t1 :: ts) -> t0 <= t1 -> (maxiter < Z.of_nat (length (t0 :: t1 :: ts)))%Z ->
  exists B, @odeint_mszero ROps fuel f x (t0 :: t1 :: ts) coarse fine None fine_steps maxiter = Ok (t0 :: t1 :: ts, B) /\ (length B = length (t0 :: t1 :: ts))%nat /\
    (forall w, (forall t y, length y = n -> inner w (f t y) = 0) -> forall y, In y B -> inner w y = inner w x) /\
    ((forall t, f t x = repeat 0 n) -> forall y, In y B -> y = x).
Proof. exact C195_parareal_partial_pf. Qed.
Print Assumptions C195_parareal_partial.

(** The backward variant breaks linear invariants: for x' = y, y' = 0, whose y is constant, and a guess with y = 0 in all rows, one pass returns a
    state with y = -1. The products with the Jacobian are the true gradients of the fine flow. *)
Theorem C195_msbackward_refuted :
  let F := flow (euler_one shear) (@linspace0 ROps (1 - 0) 2) in
  (forall sub b v w, length b = 2%nat -> length v = 2%nat -> length w = 2%nat -> dot (shear_vjp sub b v) w = dot v (sub_list (F (add_list b w)) (F b))) /\
  (forall t y, length y = 2%nat -> inner [0; 1] (shear t y) = 0) /\
  exists fuel, @odeint_msbackward ROps fuel shear [0; 0] [0; 1; 2] eul eul shear_vjp (Some [[0; 0]; [1; 0]; [0; 0]]) 2 0 = Ok ([0; 1; 2], [[0; 0]; [0; 0]; [0; -1]]).
Proof. exact C195_msbackward_refuted_pf. Qed.
Print Assumptions C195_msbackward_refuted.

(** The hypotheses are met: x' = y, y' = 0 with Euler as coarse and rk4 as fine method. *)
Example C195_ex :
  builtin_fixed (Euler ROps) (to_R_rows q_euler) (to_R qb_euler) /\ builtin_fixed (RungeKutta4 ROps) (to_R_rows q_rk4_code) (to_R qb_rk4) /\
  (forall t y, length y = 2%nat -> length (shear t y) = 2%nat) /\ (forall t y, length y = 2%nat -> inner [0; 1] (shear t y) = 0) /\
  separated (@linspace0 ROps (1 - 0) 2) /\ (0 < 3)%Z.
Proof. exact C195_ex_pf. Qed.

