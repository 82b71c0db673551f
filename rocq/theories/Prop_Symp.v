(** Property theorems (generated by tools/genprop.py from Pf_Symp.v, which holds the proofs). *)
From Coq Require Import ZArith QArith Reals Lra Lia List Bool.
From Verif Require Import Num Py Tensor M_SolversOde M_Odeint Spec_Ode Spec_RK Spec_Conv Spec_Order Spec_Leap.
From Verif Require Import L_Base L_Fixed L_Vec L_Steps L_Steps2 L_Fixed2 L_Jagged L_Conv L_Sens L_Leap Pf_Fixed Pf_Leap.
Import ListNotations.
Local Notation length := List.length.
From Verif Require Import Pf_Symp.
Import ListNotations.
Local Open Scope R_scope.

(** For fields with symmetric Jacobian (gradients), on every grid: whenever two curves of initial states (position, velocity) start from the
    same state in the directions p and q, the states recorded at the k-th time are differentiable along them and the symplectic form of
    the derivatives is (-1)^k times that of p and q.  So an even number of steps, of any sizes, is symplectic. *)
Theorem C186_form_partial :
  forall n f A o c1 c2 p q t0 t1 ts fuel atol rtol all,
  field_on n f -> field_derivative n f A -> symmetric n A -> o <> 2%nat -> separated (t0 :: t1 :: ts) -> t0 <= t1 ->
  derivative_at0 (2 * n) c1 p -> derivative_at0 (2 * n) c2 q -> c1 0 = c2 0 ->
  exists s1 s2 : R -> list (list R),
    (forall e, snd (@odeint_symplectic ROps fuel f (Some o) (c1 e) (@TTensor ROps (t0 :: t1 :: ts)) (AsynchronousLeapfrog ROps false) true atol rtol all []) = Ok (t0 :: t1 :: ts, s1 e)) /\
    (forall e, snd (@odeint_symplectic ROps fuel f (Some o) (c2 e) (@TTensor ROps (t0 :: t1 :: ts)) (AsynchronousLeapfrog ROps false) true atol rtol all []) = Ok (t0 :: t1 :: ts, s2 e)) /\
    forall k, (k < length (t0 :: t1 :: ts))%nat -> exists pk qk,
      derivative_at0 (2 * n) (fun e => nth k (s1 e) []) pk /\ derivative_at0 (2 * n) (fun e => nth k (s2 e) []) qk /\
      omega n pk qk = (-1) ^ k * omega n p q.
Proof. exact C186_form_partial_pf. Qed.
Print Assumptions C186_form_partial.

(** Solves with an odd number of steps are not symplectic: in one dimension the map from the initial state to the state at any odd
    index reverses the sign of every area, for every differentiable field.  The derivatives exist and are unique. *)
Theorem C186_symplectic_refuted :
  forall f A o x v t0 t1 ts k fuel atol rtol all,
  field_on 1 f -> field_derivative 1 f A -> o <> 2%nat -> separated (t0 :: t1 :: ts) -> t0 <= t1 -> (k < length (t0 :: t1 :: ts))%nat -> Nat.Odd k ->
  exists sx sv : R -> list (list R), exists a b c d,
    (forall e, snd (@odeint_symplectic ROps fuel f (Some o) [x + e; v] (@TTensor ROps (t0 :: t1 :: ts)) (AsynchronousLeapfrog ROps false) true atol rtol all []) = Ok (t0 :: t1 :: ts, sx e)) /\
    (forall e, snd (@odeint_symplectic ROps fuel f (Some o) [x; v + e] (@TTensor ROps (t0 :: t1 :: ts)) (AsynchronousLeapfrog ROps false) true atol rtol all []) = Ok (t0 :: t1 :: ts, sv e)) /\
    derivable_pt_lim (fun e => nth 0 (nth k (sx e) []) 0) 0 a /\ derivable_pt_lim (fun e => nth 1 (nth k (sx e) []) 0) 0 b /\
    derivable_pt_lim (fun e => nth 0 (nth k (sv e) []) 0) 0 c /\ derivable_pt_lim (fun e => nth 1 (nth k (sv e) []) 0) 0 d /\
    a * d - b * c = -1.
Proof. exact C186_symplectic_refuted_pf. Qed.
Print Assumptions C186_symplectic_refuted.

(** The hypotheses are met by the gradient of x^2 + xy + y^2 in two dimensions. *)
Example C186_ex :
  let f := fun (_ : R) (x : list R) => [2 * nth 0 x 0 + nth 1 x 0; nth 0 x 0 + 2 * nth 1 x 0] in
  let A := fun (_ : R) (_ : list R) i j => if (i =? j)%nat then 2 else 1 in
  field_on 2 f /\ field_derivative 2 f A /\ symmetric 2 A /\ separated [0; 1; 2] /\
  derivative_at0 4 (fun e => [e; 0; 0; 0]) (fun i => if (i =? 0)%nat then 1 else 0) /\ omega 2 (fun i => if (i =? 0)%nat then 1 else 0) (fun i => if (i =? 2)%nat then 1 else 0) = 1.
Proof. exact C186_ex_pf. Qed.

