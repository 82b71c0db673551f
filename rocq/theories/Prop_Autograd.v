(** Property theorems (generated by tools/genprop.py from Pf_Autograd.v, which holds the proofs). *)
From Coq Require Import ZArith QArith Qreals Reals Lra Lia List Bool.
From Verif Require Import Num Py Tensor M_Constants M_SolversOde M_Utils M_Interp M_Odeint M_Autograd.
From Verif Require Import Spec_Ode Spec_Trees Spec_RK Spec_Autograd.
From Verif Require Import L_Base L_Fixed L_Vec L_Steps L_Steps2 L_Tables L_Fixed2 L_Nan L_Utils Pf_Fixed.
Import ListNotations.
Local Notation length := List.length.
From Verif Require Import Pf_Autograd.
Import ListNotations.
Local Open Scope R_scope.

(** C143.  The derivatives are those of calculus: for every operation, where it is differentiable.  Comparisons only look at values. *)
Theorem C143_rules : forall (a b : R * R) (c d : R -> R), tracks a c -> tracks b d ->
  (forall q, tracks (@nQ DR q) (fun _ => Q2R q)) /\
  tracks (@nadd DR a b) (fun e => c e + d e) /\ tracks (@nsub DR a b) (fun e => c e - d e) /\
  tracks (@nmul DR a b) (fun e => c e * d e) /\ tracks (@nopp DR a) (fun e => - c e) /\
  (d 0 <> 0 -> tracks (@ndiv DR a b) (fun e => c e / d e)) /\
  (0 < c 0 -> tracks (@nsqrt DR a) (fun e => sqrt (c e))) /\
  (0 < c 0 -> forall q, tracks (@npowr DR a (@nQ DR q)) (fun e => Rpower (c e) (Q2R q))) /\
  (c 0 <> 0 -> tracks (@nabs DR a) (fun e => Rabs (c e))) /\
  (c 0 <> d 0 -> tracks (@nmax DR a b) (fun e => Rmax (c e) (d e)) /\ tracks (@nmin DR a b) (fun e => Rmin (c e) (d e))) /\
  (@nltb DR a b = true <-> c 0 < d 0) /\ (@nleb DR a b = true <-> c 0 <= d 0) /\ (@neqb DR a b = true <-> c 0 = d 0).
Proof. exact C143_rules_pf. Qed.
Print Assumptions C143_rules.

(** C143.  Fixed-step solvers, any grid, any save_at: if autograd differentiates the vector field (and the network of the
    hypersolver) correctly in state and parameter, and the initial state is given with its derivative, then the derivatives of
    the returned states that autograd computes through the solve are the derivatives of the returned states. *)
Theorem C143_fixed_step :
  forall fuel fuel' n sd sr F f X x ts save_at atol rtol atol' rtol' interp all semi,
  fixed_family n sd sr -> tracks_field n F f -> tracks_vec n X x ->
  tracks_solve n
    (snd (@odeint_autograd ROps fuel F X (@TTensor DR (map (fun t => (t, 0)) ts)) sd atol' rtol' interp all (map (fun t => (t, 0)) save_at) semi))
    (fun e => snd (@odeint ROps fuel' (f e) (x e) (@TTensor ROps ts) (sr e) atol rtol interp all save_at semi)).
Proof. exact C143_fixed_step_pf. Qed.
Print Assumptions C143_fixed_step.

(** C143 for a separated, increasing grid: the solves return, with one state per time. *)
Theorem C143_gradient :
  forall fuel fuel' n sd sr F f X x t0 t1 ts atol rtol atol' rtol' interp all semi,
  fixed_family n sd sr -> tracks_field n F f -> tracks_vec n X x -> separated (t0 :: t1 :: ts) -> t0 <= t1 ->
  exists S s,
    snd (@odeint_autograd ROps fuel F X (@TTensor DR (map (fun t => (t, 0)) (t0 :: t1 :: ts))) sd atol' rtol' interp all [] semi)
      = Ok (map (fun t => (t, 0)) (t0 :: t1 :: ts), S) /\
    (forall e, snd (@odeint ROps fuel' (f e) (x e) (@TTensor ROps (t0 :: t1 :: ts)) (sr e) atol rtol interp all [] semi)
      = Ok (t0 :: t1 :: ts, s e)) /\
    length S = length (t0 :: t1 :: ts) /\ tracks_states n S s.
Proof. exact C143_gradient_pf. Qed.
Print Assumptions C143_gradient.

(** The field (1 + e) x with initial state 2 + e and the hypersolver with the network e x meet the hypotheses of C143. *)
Example C143_ex :
  let F := fun (_ : R * R) (Y : list (R * R)) => map (@nmul DR (1, 1)) Y in
  let f := fun (e _ : R) (y : list R) => map (Rmult (1 + e)) y in
  let G := fun (_ : R * R) (Y : list (R * R)) => map (@nmul DR (0, 1)) Y in
  let g := fun (e _ : R) (y : list R) => map (Rmult e) y in
  tracks_field 1 F f /\ tracks_vec 1 [(2, 1)] (fun e => [2 + e]) /\ fixed_family 1 (@HyperEuler DR G) (fun e => @HyperEuler ROps (g e)).
Proof. exact C143_ex_pf. Qed.

