(** Property theorems (generated by tools/genprop.py from Pf_ShootGrad.v, which holds the proofs). *)
From Coq Require Import ZArith QArith Qreals Reals Lra Lia List Bool.
From Verif Require Import Num Py Tensor M_Constants M_SolversOde M_Utils M_Interp M_Odeint M_MS M_Autograd M_ShootGrad.
From Verif Require Import Spec_Ode Spec_Autograd L_Base L_Fixed L_Vec L_Steps L_Rel L_MS Pf_Fixed Pf_Values Pf_Autograd Pf_Implicit.
Import ListNotations.
Local Notation length := List.length.
From Verif Require Import Pf_ShootGrad.
Import ListNotations.
Local Open Scope R_scope.

(** C154: gradients through parareal.  For all solvers, vector fields with correct derivatives, initial states and grids: the states returned by odeint_mshooting with MSZero
    have the values and the derivatives of the states that the solve returns as the parameter varies, or the solves all raise the same exception. *)
Theorem C154_parareal :
  forall fuel fuel' n cd cr fd fr F f X x ts fine_steps maxiter,
  fixed_family n cd cr -> fixed_family n fd fr -> tracks_field n F f -> tracks_vec n X x ->
  tracks_solve n (@odeint_mszero DR fuel F X (map (fun t => (t, 0)) ts) cd fd None fine_steps maxiter)
    (fun e => @odeint_mszero ROps fuel' (f e) (x e) ts (cr e) (fr e) None fine_steps maxiter).
Proof. exact C154_parareal_pf. Qed.
Print Assumptions C154_parareal.

(** The same for a given first guess, differentiable in the parameter. *)
Theorem C154_parareal_guess :
  forall fuel fuel' n cd cr fd fr F f X x ts B b fine_steps maxiter,
  fixed_family n cd cr -> fixed_family n fd fr -> tracks_field n F f -> tracks_states n B b ->
  tracks_solve n (@odeint_mszero DR fuel F X (map (fun t => (t, 0)) ts) cd fd (Some B) fine_steps maxiter)
    (fun e => @odeint_mszero ROps fuel' (f e) (x e) ts (cr e) (fr e) (Some (b e)) fine_steps maxiter).
Proof. exact C154_parareal_guess_pf. Qed.
Print Assumptions C154_parareal_guess.

(** C154 (partial): the values.  In any arithmetic: odeint_mshooting with MSBackward (coarse fixed-step solver) returns the same states, or raises the same exception,
    with and without gradients. *)
Theorem C154_backward_values_partial : forall (K : NumOps) fuel (F : DualOps K -> vec (DualOps K) -> vec (DualOps K)) (f : K -> vec K -> vec K) X ts cd c fd s vjp fine_steps maxiter,
  values_of F f -> same_solver cd c -> s_fixed c = true -> same_solver fd s ->
  plain_res (odeint_msbackward_autograd fuel F X ts cd fd vjp None fine_steps maxiter) =
  odeint_msbackward fuel f (plain_vec X) (plain_vec ts) c s vjp None fine_steps maxiter.
Proof. exact C154_backward_values_partial_pf. Qed.
Print Assumptions C154_backward_values_partial.

(** C154 fails for MSBackward.  x' = x from x = a over [0, 1, 2], euler as coarse and fine method, fine_steps = 3, one pass (maxiter = 0), [vjp] the product with the Jacobian
    9/4 of the fine flow: the solve returns 81/16 a at time 2, for every a; its derivative in a is 81/16; autograd returns 9/2. *)
Theorem C154_backward_refuted : forall fuel (vjp : list R -> list R -> list R -> list R) a,
  (forall b v, vjp [0; 1 / 2; 1] [b] [v] = [9 / 4 * v]) ->
  (forall b, @ms_flow ROps (fun _ x => x) (Euler ROps) [0; 1 / 2; 1] [b] = Ok [9 / 4 * b]) /\
  (forall e, @odeint_msbackward ROps fuel (fun _ x => x) [a + e] [0; 1; 2] (Euler ROps) (Euler ROps) vjp None 3 0
     = Ok ([0; 1; 2], [[a + e]; [9 / 4 * (a + e)]; [81 / 16 * (a + e)]])) /\
  @odeint_msbackward_autograd ROps fuel (fun _ x => x) [(a, 1)] [(0, 0); (1, 0); (2, 0)] (Euler DR) (Euler DR) vjp None 3 0
     = Ok ([(0, 0); (1, 0); (2, 0)], [[(a, 1)]; [(9 / 4 * a, 9 / 4)]; [(81 / 16 * a, 9 / 2)]]) /\
  derivable_pt_lim (fun e => 81 / 16 * (a + e)) 0 (81 / 16).
Proof. exact C154_backward_refuted_pf. Qed.
Print Assumptions C154_backward_refuted.

(** A first guess with fewer than two states raises IndexError in the residual, in any arithmetic and whatever the optimiser, with and without derivatives. *)
Theorem C154_implicit_short_guess : forall (K : NumOps) minimize fuel f F x X ts cs Ts cd B0 B0',
  (length B0 <= 1)%nat -> (length B0' <= 1)%nat ->
  @odeint_pie K minimize fuel f x ts cs (Some B0) = Err IndexError /\ @odeint_pie_autograd K minimize fuel F X Ts cd (Some B0') = Err IndexError.
Proof. exact C154_implicit_short_guess_pf. Qed.
Print Assumptions C154_implicit_short_guess.

(** C154: in any arithmetic, for any optimiser, field, grid, initial state and first guess, no state returned with ParallelImplicitEuler carries a derivative. *)
Theorem C154_implicit_leaf : forall (K : NumOps) minimize fuel (F : DualOps K -> vec (DualOps K) -> vec (DualOps K)) X ts cd B0 times sol,
  odeint_pie_autograd minimize fuel F X ts cd B0 = Ok (times, sol) -> Forall no_gradient sol.
Proof. exact C154_implicit_leaf_pf. Qed.
Print Assumptions C154_implicit_leaf.

(** C154 fails for ParallelImplicitEuler.  x' = x from x = a over [0, 1, 2], any optimiser that leaves unused variables alone: the first returned state is the initial
    state a, for every a; its derivative in a is 1; autograd returns 0. *)
Theorem C154_implicit_refuted : forall fuel (minimize : (list (list R) -> R) -> list (list R) -> list (list R)) a, @keeps_first ROps minimize ->
  (forall e, exists rest, @odeint_pie ROps minimize fuel (fun _ x => x) [a + e] [0; 1; 2] (Euler ROps) None = Ok ([0; 1; 2], [a + e] :: rest)) /\
  (exists rest, @odeint_pie_autograd ROps minimize fuel (fun _ x => x) [(a, 1)] [(0, 0); (1, 0); (2, 0)] (Euler DR) None = Ok ([(0, 0); (1, 0); (2, 0)], [(a, 0)] :: rest)) /\
  derivable_pt_lim (fun e => a + e) 0 1.
Proof. exact C154_implicit_refuted_pf. Qed.
Print Assumptions C154_implicit_refuted.

(** The hypotheses of C154 are met: x' = (1 + e) x with initial state 2 + e, hypersolver and euler; a Jacobian product; an optimiser. *)
Example C154_ex :
  let F := fun (_ : R * R) (Y : list (R * R)) => map (@nmul DR (1, 1)) Y in
  let f := fun (e _ : R) (y : list R) => map (Rmult (1 + e)) y in
  tracks_field 1 F f /\ tracks_vec 1 [(2, 1)] (fun e => [2 + e]) /\ fixed_family 1 (@HyperEuler DR F) (fun e => @HyperEuler ROps (f e)) /\
  (forall b v, (fun (_ _ w : list R) => map (Rmult (9 / 4)) w) [0; 1 / 2; 1] [b] [v] = [9 / 4 * v]) /\
  @keeps_first ROps (fun _ B => match B with b :: rest => b :: map (map (Rmult 2)) rest | [] => [] end) /\
  same_solver (Euler DR) (Euler ROps) /\ s_fixed (Euler ROps) = true.
Proof. exact C154_ex_pf. Qed.

