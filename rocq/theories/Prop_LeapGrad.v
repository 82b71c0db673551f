(** Property theorems (generated by tools/genprop.py from Pf_LeapGrad.v, which holds the proofs). *)
From Coq Require Import ZArith QArith Qreals Reals Lra Lia List Bool.
From Verif Require Import Num Py Tensor M_Constants M_SolversOde M_Utils M_Interp M_Odeint M_Autograd.
From Verif Require Import Spec_Autograd.
From Verif Require Import L_Base L_Nan Pf_Autograd.
Import ListNotations.
Local Notation length := List.length.
From Verif Require Import Pf_LeapGrad.
Import ListNotations.
Local Open Scope R_scope.

(** C162.  odeint_symplectic with the leapfrog solver, any order attribute of the field, any grid, any save_at: if autograd
    differentiates the field correctly in position and parameter, and the initial position and velocity are given with their
    derivatives, the derivatives of the returned states that autograd computes are the derivatives of the returned states; if the
    call raises, it raises the same exception with and without derivatives. *)
Theorem C162_symplectic :
  forall fuel fuel' n (order : option nat) F f X x ts save_at atol rtol atol' rtol' all,
  tracks_field n F f -> tracks_vec (n + n) X x ->
  tracks_solve (n + n)
    (snd (@odeint_symplectic DR fuel F order X (@TTensor DR (map (fun t => (t, 0)) ts)) (AsynchronousLeapfrog DR false) true atol' rtol' all
       (map (fun t => (t, 0)) save_at)))
    (fun e => snd (@odeint_symplectic ROps fuel' (f e) order (x e) (@TTensor ROps ts) (AsynchronousLeapfrog ROps false) true atol rtol all save_at)).
Proof. exact C162_symplectic_pf. Qed.
Print Assumptions C162_symplectic.

(** C162 for odeint with the leapfrog solver, called with the augmented state. *)
Theorem C162_odeint :
  forall fuel fuel' n F f X x ts save_at atol rtol atol' rtol' interp all semi,
  tracks_field n F f -> tracks_vec (n + n) X x ->
  tracks_solve (n + n)
    (snd (@odeint_autograd ROps fuel F X (@TTensor DR (map (fun t => (t, 0)) ts)) (AsynchronousLeapfrog DR false) atol' rtol' interp all
       (map (fun t => (t, 0)) save_at) semi))
    (fun e => snd (@odeint ROps fuel' (f e) (x e) (@TTensor ROps ts) (AsynchronousLeapfrog ROps false) atol rtol interp all save_at semi)).
Proof. exact C162_odeint_pf. Qed.
Print Assumptions C162_odeint.

(** C162, the usual start: the velocity is the field at the initial position.  Position and velocity with their derivatives then meet
    the hypothesis of C162. *)
Theorem C162_start :
  forall n F f X x t, tracks_field n F f -> tracks_vec n X x -> tracks_vec (n + n) (X ++ F (t, 0) X) (fun e => x e ++ f e t (x e)).
Proof. exact C162_start_pf. Qed.
Print Assumptions C162_start.

(** The field (1 + e) x from position 2 + e *)
Example C162_ex :
  let F := fun (_ : R * R) (Y : list (R * R)) => map (@nmul DR (1, 1)) Y in
  let f := fun (e _ : R) (y : list R) => map (Rmult (1 + e)) y in
  tracks_field 1 F f /\ tracks_vec (1 + 1) [(2, 1); (2, 3)] (fun e => [2 + e; (1 + e) * (2 + e)]).
Proof. exact C162_ex_pf. Qed.

