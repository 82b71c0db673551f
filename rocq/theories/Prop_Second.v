(** Property theorems (generated by tools/genprop.py from Pf_Second.v, which holds the proofs). *)
From Coq Require Import ZArith QArith Qreals Reals Lra Lia List Bool.
From Verif Require Import Num Py Tensor M_Constants M_SolversOde M_Utils M_Interp M_Odeint M_Autograd M_Sens M_Double.
From Verif Require Import Spec_Autograd Spec_Second L_Base L_Nan L_Vec Pf_Autograd Pf_TimeGrad L_Second Spec_Ode L_Fixed L_Fixed2.
Import ListNotations.
Local Notation length := List.length.
Local Notation D2 := (DualOps (DualOps ROps)).
From Verif Require Import Pf_Second.
Import ListNotations.
Local Open Scope R_scope.

(** C165.  sensitivity='autograd' and the fixed-step solvers, any grid, any save_at: if autograd differentiates the vector field twice
    correctly, then differentiating the gradient of a solve gives the second derivatives of the returned states. *)
Theorem C165_autograd_partial :
  forall fuel fuel' n sd sr F f X x ts save_at atol rtol atol' rtol' interp all semi,
  second_family n sd sr -> second_field n F f -> second_vec n X x ->
  second_solve n
    (snd (@odeint_autograd (DualOps ROps) fuel F X (@TTensor D2 (map plain ts)) sd atol' rtol' interp all (map plain save_at) semi))
    (fun p => snd (@odeint ROps fuel' (f p) (x p) (@TTensor ROps ts) (sr p) atol rtol interp all save_at semi)).
Proof. exact C165_autograd_partial_pf. Qed.
Print Assumptions C165_autograd_partial.

(** x' = (1 + a) x from 2 + b meets the hypotheses *)
Example C165_ex :
  let one : (R * R) * (R * R) := ((1, 1), (0, 0)) in
  second one (fun p => 1 + fst p) /\ second_field 1 (fun _ Y => map (@nmul D2 one) Y) (fun p _ y => map (Rmult (1 + fst p)) y) /\
  second_vec 1 [((2, 0), (1, 0))] (fun p => [2 + snd p]).
Proof. exact C165_ex_pf. Qed.

(** C165.  Interpolated adjoint with create_graph=True: whatever the field, the derivative of the gradient of the initial state is the sum of
    the derivatives of the incoming gradients, and the gradient of the parameters has derivative zero. *)
Theorem C165_interpolated :
  forall fuel n nmu (F : @adj_field DR) path s atol rtol ts gx mu lam,
  (0 < nmu)%nat -> s = Euler DR \/ s = Midpoint DR \/ s = RungeKutta4 DR ->
  (forall t x w, length w = n -> length (af_vjp_x F t x w) = n) ->
  (forall t x w, length w = n -> length (cat_params (af_vjp_p F t x w)) = nmu) ->
  (forall dg t x, af_dg F = Some dg -> length (dg t x) = n) ->
  length gx = length ts -> Forall (fun g => length g = n) gx ->
  @interp_backward_graph ROps fuel F path nmu s atol rtol (map (fun t => (t, 0)) ts) gx = Ok (mu, lam) ->
  map snd lam = total n gx /\ map snd mu = repeat 0 nmu.
Proof. exact C165_interpolated_pf. Qed.
Print Assumptions C165_interpolated.

(** x' = p x with p = 1, one Euler step from x0, loss x(1)^2 / 2: the gradient 4 x0 is returned for every x0, and its derivative in x0 is 4,
    but differentiating the returned gradient gives 2. *)
Theorem C165_interpolated_refuted :
  let F : @adj_field DR := MkAF (fun _ x => x) (fun _ _ w => w) (fun _ _ _ => None) (fun _ x w => [Some (map2 (@nmul DR) w x)]) None in
  forall x0,
  snd (@odeint ROps 0 (fun _ x => x) [x0] (@TTensor ROps [0; 1]) (Euler ROps) 0 0 false false [] None) = Ok ([0; 1], [[x0]; [2 * x0]]) /\
  derivable_pt_lim (fun x => Rsqr (2 * x) / 2) x0 (4 * x0) /\ derivable_pt_lim (fun x => 4 * x) x0 4 /\
  exists mu, @interp_backward_graph ROps 0 F (fun _ => [(x0, 1)]) 1 (Euler DR) (0, 0) (0, 0) [(0, 0); (1, 0)] [[(0, 0)]; [(2 * x0, 2)]]
    = Ok (mu, [(4 * x0, 2)]).
Proof. exact C165_interpolated_refuted_pf. Qed.
Print Assumptions C165_interpolated_refuted.

