(** Property theorems (generated by tools/genprop.py from Pf_Super.v, which holds the proofs). *)
From Coq Require Import ZArith QArith Qreals Reals Lra Lia List Bool.
From Verif Require Import Num Py Tensor M_Constants M_SolversOde M_Utils M_Interp M_Odeint M_Autograd.
From Verif Require Import Spec_Ode Spec_RK Spec_Conv Spec_Order L_Base L_Fixed L_Vec L_Steps L_Utils L_Conv L_Reach L_Rel Pf_Fixed Pf_Values Pf_Autograd L_Order Pf_Order Pf_AdGrad Pf_Cross.
From Verif Require Pf_Jump.
Import ListNotations.
Local Notation length := List.length.
From Verif Require Import Pf_Super.
Import ListNotations.
Local Open Scope R_scope.

(** Superposition for fixed-step solvers: if q(t, a u + b v) = a f(t, u) + b g(t, v) (a linear field with sources), the states of q from
    a x + b z are the combinations of the states of f from x and of g from z. *)
Theorem C187_superposition_fixed_partial :
  forall s rows w n a b f g q x z t0 t1 ts fuel atol rtol interp all semi,
  builtin_fixed s rows w -> field_on n f -> field_on n g -> field_on n q ->
  (forall t u v, length u = n -> length v = n -> q t (lin a b u v) = lin a b (f t u) (g t v)) ->
  length x = n -> length z = n -> separated (t0 :: t1 :: ts) -> t0 <= t1 ->
  exists sf sg,
    snd (@odeint ROps fuel f x (@TTensor ROps (t0 :: t1 :: ts)) s atol rtol interp all [] semi) = Ok (t0 :: t1 :: ts, sf) /\
    snd (@odeint ROps fuel g z (@TTensor ROps (t0 :: t1 :: ts)) s atol rtol interp all [] semi) = Ok (t0 :: t1 :: ts, sg) /\
    snd (@odeint ROps fuel q (lin a b x z) (@TTensor ROps (t0 :: t1 :: ts)) s atol rtol interp all [] semi)
      = Ok (t0 :: t1 :: ts, map (fun p => lin a b (fst p) (snd p)) (combine sf sg)) /\
    length sf = length (t0 :: t1 :: ts) /\ length sg = length (t0 :: t1 :: ts).
Proof. exact C187_superposition_fixed_partial_pf. Qed.
Print Assumptions C187_superposition_fixed_partial.

(** Not for dopri5: the field does not depend on the state, so that every mean of two solutions is a solution; the mean of the solves from
    two states differs from the solve from the mean of the states by more than 1/100. *)
Theorem C187_superposition_refuted :
  exists (F : R -> list R -> list R) (T x z u v m : R), 0 < T /\ field_on 1 F /\ lipschitz 1 0 F /\
  (forall t y y', length y = 1%nat -> length y' = 1%nat -> F t (lin (1 / 2) (1 / 2) y y') = lin (1 / 2) (1 / 2) (F t y) (F t y')) /\
  1 / 100 < Rabs (m - (1 / 2 * u + 1 / 2 * v)) /\ forall fuel, (3 <= fuel)%nat ->
    snd (@odeint ROps fuel F [x] (@TTensor ROps [0; T]) (DormandPrince45 ROps) (1 / 1000) (1 / 1000) false false [] None) = Ok ([0; T], [[x]; [u]]) /\
    snd (@odeint ROps fuel F [z] (@TTensor ROps [0; T]) (DormandPrince45 ROps) (1 / 1000) (1 / 1000) false false [] None) = Ok ([0; T], [[z]; [v]]) /\
    snd (@odeint ROps fuel F (lin (1 / 2) (1 / 2) [x] [z]) (@TTensor ROps [0; T]) (DormandPrince45 ROps) (1 / 1000) (1 / 1000) false false [] None)
      = Ok ([0; T], [lin (1 / 2) (1 / 2) [x] [z]; [m]]).
Proof. exact C187_superposition_refuted_pf. Qed.
Print Assumptions C187_superposition_refuted.

(** The hypotheses are met: y' = -y + 3t as the combination 2 (y' = -y) + 3 (y' = -y + t), by rk4. *)
Example C187_ex :
  let f := fun (_ : R) (y : list R) => map Ropp y in let g := fun (t : R) (y : list R) => map (fun a => - a + t) y in
  let q := fun (t : R) (y : list R) => map (fun a => - a + 3 * t) y in
  builtin_fixed (RungeKutta4 ROps) (to_R_rows q_rk4_code) (to_R qb_rk4) /\ field_on 2 f /\ field_on 2 g /\ field_on 2 q /\ separated [0; 1/2] /\
  (forall t u v, length u = 2%nat -> length v = 2%nat -> q t (lin 2 3 u v) = lin 2 3 (f t u) (g t v)) /\ lin 2 3 [1; 0] [0; 1] = [2; 3].
Proof. exact C187_ex_pf. Qed.

