(** Property theorems (generated by tools/genprop.py from Pf_LeapAff.v, which holds the proofs). *)
From Coq Require Import ZArith QArith Reals Lra Lia List Bool.
From Verif Require Import Num Py Tensor M_SolversOde M_Utils M_Odeint Spec_Ode Spec_RK Spec_Conv Spec_Leap Spec_Inv.
From Verif Require Import L_Base L_Fixed L_Inv L_Leap Pf_Leap Pf_Fixed Pf_LeapInv.
Import ListNotations.
Local Notation length := List.length.
From Verif Require Import Pf_LeapAff.
Import ListNotations.
Local Open Scope R_scope.

(** For every matrix M (square or not, invertible or not) and vector c: if g at M y + c is M times f at y, the leapfrog solve of g from (M x + c, M v)
    returns the positions and velocities of the solve of f from (x, v), mapped in the same way. Increasing and decreasing grids. *)
Theorem C202_affine :
  forall n f g o o' M c x v t0 t1 ts fuel fuel' atol rtol atol' rtol' all all', field_on n f -> field_on (length M) g -> length c = length M -> length x = n -> length v = n ->
  o <> 2%nat -> o' <> 2%nat -> separated (t0 :: t1 :: ts) -> (forall t y, length y = n -> g t (affine_map M c y) = apply_matrix M (f t y)) ->
  exists ps, length ps = length (t0 :: t1 :: ts) /\
  rmap snd (snd (@odeint_symplectic ROps fuel f (Some o) (x ++ v) (@TTensor ROps (t0 :: t1 :: ts)) (AsynchronousLeapfrog ROps false) true atol rtol all []))
    = Ok (map (fun p => fst p ++ snd p) ps) /\
  rmap snd (snd (@odeint_symplectic ROps fuel' g (Some o') (affine_map M c x ++ apply_matrix M v) (@TTensor ROps (t0 :: t1 :: ts)) (AsynchronousLeapfrog ROps false) true atol' rtol' all' []))
    = Ok (map (fun p => affine_map M c (fst p) ++ apply_matrix M (snd p)) ps) /\
  forall p, In p ps -> length (fst p) = n /\ length (snd p) = n.
Proof. exact C202_affine_pf. Qed.
Print Assumptions C202_affine.

(** The hypotheses are met: y' = y in two components, of which the map keeps the sum, shifted by one. *)
Example C202_ex :
  let f := fun (_ : R) (y : list R) => y in let g := fun (_ : R) (y : list R) => map (fun a => a - 1) y in
  field_on 2 f /\ field_on 1 g /\ (forall t y, length y = 2%nat -> g t (affine_map [[1; 1]] [1] y) = apply_matrix [[1; 1]] (f t y)) /\ separated [0; 1; 2] /\
  affine_map [[1; 1]] [1] [2; 3] = [6].
Proof. exact C202_ex_pf. Qed.

