(** Property theorems (generated by tools/genprop.py from Pf_LeapInv.v, which holds the proofs). *)
From Coq Require Import ZArith QArith Reals Lra Lia List Bool.
From Verif Require Import Num Py Tensor M_SolversOde M_Utils M_Odeint Spec_Ode Spec_RK Spec_Conv Spec_Leap Spec_Inv.
From Verif Require Import L_Base L_Fixed L_Inv L_Leap Pf_Leap Pf_Fixed.
Import ListNotations.
Local Notation length := List.length.
From Verif Require Import Pf_LeapInv.
Import ListNotations.
Local Open Scope R_scope.

(** If the field leaves w . y unchanged, every recorded position of a leapfrog solve has the value w . x of the start, whatever the initial
    velocity; the rate w . v of the recorded velocities only alternates in sign. Increasing and decreasing grids. *)
Theorem C201_invariant :
  forall n f o w x v t0 t1 ts fuel atol rtol all, field_on n f -> length x = n -> length v = n -> o <> 2%nat -> separated (t0 :: t1 :: ts) ->
  (forall t y, length y = n -> inner w (f t y) = 0) ->
  exists ps, rmap snd (snd (@odeint_symplectic ROps fuel f (Some o) (x ++ v) (@TTensor ROps (t0 :: t1 :: ts)) (AsynchronousLeapfrog ROps false) true atol rtol all []))
    = Ok (map (fun p => fst p ++ snd p) ps) /\ length ps = length (t0 :: t1 :: ts) /\
  forall k y u, nth_error ps k = Some (y, u) -> length y = n /\ length u = n /\ inner w y = inner w x /\ inner w u = (-1) ^ k * inner w v.
Proof. exact C201_invariant_pf. Qed.
Print Assumptions C201_invariant.

(** A leapfrog solve started at rest in an equilibrium stays there. *)
Theorem C201_equilibrium :
  forall n f o x t0 t1 ts fuel atol rtol all, field_on n f -> length x = n -> o <> 2%nat -> separated (t0 :: t1 :: ts) -> (forall t, f t x = repeat 0 n) ->
  rmap snd (snd (@odeint_symplectic ROps fuel f (Some o) (x ++ repeat 0 n) (@TTensor ROps (t0 :: t1 :: ts)) (AsynchronousLeapfrog ROps false) true atol rtol all []))
    = Ok (map (fun _ => x ++ repeat 0 n) (t0 :: t1 :: ts)).
Proof. exact C201_equilibrium_pf. Qed.
Print Assumptions C201_equilibrium.

(** The hypotheses are met: a field that exchanges between two components, with an initial velocity that does not fit the field. *)
Example C201_ex :
  let f := fun (_ : R) (y : list R) => match y with [a; c] => [c - a; a - c] | _ => y end in
  field_on 2 f /\ separated [0; 1; 2] /\ (forall t y, length y = 2%nat -> inner [1; 1] (f t y) = 0) /\ (forall t, f t [3; 3] = repeat 0 2) /\
  inner [1; 1] [1; 1] <> 0 /\ one_step_traj (leap f) ([1; 0], [1; 1]) [0; 1] = [([1; 0], [1; 1]); ([0; 1], [-3; 1])].
Proof. exact C201_ex_pf. Qed.

