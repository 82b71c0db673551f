(** Property theorems (generated by tools/genprop.py from Pf_TimeGrad.v, which holds the proofs). *)
From Coq Require Import ZArith QArith Qreals Reals Lra Lia List Bool.
From Verif Require Import Num Py Tensor M_Constants M_SolversOde M_Utils M_Interp M_Odeint M_Autograd.
From Verif Require Import Spec_Ode Spec_Autograd L_Base L_Nan L_Fixed L_Vec L_Steps L_Utils L_Rel Pf_Fixed Pf_Values Pf_Autograd Pf_AdGrad.
Import ListNotations.
Local Notation length := List.length.
From Verif Require Import Pf_TimeGrad.
Import ListNotations.
Local Open Scope R_scope.

(** C157.  Increasing grids: if autograd differentiates the field correctly in time, state and parameter, and initial state and times of the grid are given with
    their derivatives, then the derivatives of the returned states that autograd computes through a fixed-step solve are the derivatives of the states the solve returns. *)
Theorem C157_forward :
  forall fuel fuel' n m sd sr F f X x T ts atol rtol atol' rtol' interp all semi,
  smooth_family n sd sr -> smooth_field n F f -> tracks_vec n X x -> tracks_vec (S (S m)) T ts ->
  separated (ts 0) -> nth 0 (ts 0) 0 <= nth 1 (ts 0) 0 ->
  exists S s,
    snd (@odeint_autograd ROps fuel F X (@TTensor DR T) sd atol' rtol' interp all [] semi) = Ok (T, S) /\
    (exists d, 0 < d /\ forall e, Rabs e < d ->
       snd (@odeint ROps fuel' (f e) (x e) (@TTensor ROps (ts e)) (sr e) atol rtol interp all [] semi) = Ok (ts e, s e)) /\
    length S = Datatypes.S (Datatypes.S m) /\ tracks_states n S s.
Proof. exact C157_forward_pf. Qed.
Print Assumptions C157_forward.

(** C157, decreasing grids: the times are returned with the opposite sign, the derivatives of the states are right. *)
Theorem C157_backward :
  forall fuel fuel' n m sd sr F f X x T ts atol rtol atol' rtol' interp all semi,
  smooth_family n sd sr -> smooth_field n F f -> tracks_vec n X x -> tracks_vec (S (S m)) T ts ->
  separated (ts 0) -> nth 1 (ts 0) 0 < nth 0 (ts 0) 0 ->
  exists S s,
    snd (@odeint_autograd ROps fuel F X (@TTensor DR T) sd atol' rtol' interp all [] semi) = Ok (map (fun t => (- fst t, - snd t)) T, S) /\
    (exists d, 0 < d /\ forall e, Rabs e < d ->
       snd (@odeint ROps fuel' (f e) (x e) (@TTensor ROps (ts e)) (sr e) atol rtol interp all [] semi) = Ok (map Ropp (ts e), s e)) /\
    length S = Datatypes.S (Datatypes.S m) /\ tracks_states n S s.
Proof. exact C157_backward_pf. Qed.
Print Assumptions C157_backward.

(** The gradient with respect to the last time of x' = x, euler over [0, 1, 2 + e] from 1: the last state is 2 (2 + e), the gradient 2; the hypotheses of C157 are met. *)
Example C157_ex : forall fuel,
  smooth_family 1 (Euler DR) (fun _ => Euler ROps) /\ smooth_field 1 (fun _ Y => Y) (fun _ _ y => y) /\
  tracks_vec 1 [(1, 0)] (fun _ => [1]) /\ tracks_vec 3 [(0, 0); (1, 0); (2, 1)] (fun e => [0; 1; 2 + e]) /\
  separated [0; 1; 2 + 0] /\
  exists u v w, snd (@odeint_autograd ROps fuel (fun _ Y => Y) [(1, 0)] (@TTensor DR [(0, 0); (1, 0); (2, 1)]) (Euler DR) (1, 0) (1, 0) false false [] None)
    = Ok ([(0, 0); (1, 0); (2, 1)], [u; v; [w]]) /\ w = (4, 2).
Proof. exact C157_ex_pf. Qed.

