(** Property theorems (generated by tools/genprop.py from Pf_Calls.v, which holds the proofs). *)
From Coq Require Import ZArith QArith Qreals Reals Lra Lia List Bool.
From Verif Require Import Num Py Tensor M_SolversOde M_Utils M_Odeint M_Root M_Sens M_Calls Spec_Ode Spec_Trees Spec_RK Spec_Root Spec_Sens.
From Verif Require Import M_Constants M_Autograd Spec_Autograd.
From Verif Require Import L_Base L_Fixed L_Vec L_Steps L_Steps2 L_Fixed2 L_Root L_Sens Pf_Fixed Pf_Sens Pf_Autograd.
Import ListNotations.
Local Notation length := List.length.
From Verif Require Import Pf_Calls.
Import ListNotations.
Local Open Scope R_scope.

(** C158.  Whatever was called before, and if only harmless calls come between a forward call and its backward pass, the backward pass returns the gradients
    that a fresh module returns.  Missing: other calls in between, for which this is false. *)
Theorem C158_own_partial :
  forall (K : NumOps) fuel (nd : @cnode K) p u ops1 x ts ops2 gt gx,
  Forall (harmless nd x) ops2 ->
  exists outs,
  run_ops fuel nd (MkCS p u []) (ops1 ++ OForward x ts :: ops2 ++ [OBackward (forwards ops1) gt gx]) =
  outs ++ fresh_gradients fuel nd (params_after p ops1) x ts gt gx.
Proof. exact C158_own_partial_pf. Qed.
Print Assumptions C158_own_partial.

(** A module without data control: only updates of the parameters matter. *)
Theorem C158_uncontrolled_partial :
  forall (K : NumOps) fuel (nd : @cnode K) p u ops1 x ts ops2 gt gx,
  (forall p y z, cn_field nd p y = cn_field nd p z) -> (forall q, ~ In (OUpdate q) ops2) ->
  exists outs,
  run_ops fuel nd (MkCS p u []) (ops1 ++ OForward x ts :: ops2 ++ [OBackward (forwards ops1) gt gx]) =
  outs ++ fresh_gradients fuel nd (params_after p ops1) x ts gt gx.
Proof. exact C158_uncontrolled_partial_pf. Qed.
Print Assumptions C158_uncontrolled_partial.

(** C158 is violated for both adjoints: after node([1]) and node([2]) the backward pass of the first call returns 3 for the initial state, the control of the second call
    having replaced that of the first; a fresh module returns 2. *)
Theorem C158_control_refuted : forall fuel path,
  let nd := pux_node path in
  exists mu mu' r r',
    run_ops fuel nd (@MkCS ROps [1] [] []) [@OForward ROps [1] [0; 1]; @OForward ROps [2] [0; 1]; @OBackward ROps 0 [0; 0] [[0]; [1]]] = [r; r'; @Gradients ROps (Ok (mu, [3]))] /\
    fresh_gradients fuel nd [1] [1] [0; 1] [0; 0] [[0]; [1]] = [@Gradients ROps (Ok (mu', [2]))].
Proof. exact C158_control_refuted_pf. Qed.
Print Assumptions C158_control_refuted.

(** The same for a change of the parameters between forward and backward, which autograd would reject: parameter 1 in the forward call, 3 in the backward pass *)
Theorem C158_update_refuted : forall fuel path,
  let nd := pux_node path in
  exists mu mu' r,
    run_ops fuel nd (@MkCS ROps [1] [] []) [@OForward ROps [1] [0; 1]; @OUpdate ROps [3]; @OBackward ROps 0 [0; 0] [[0]; [1]]] = [r; @Updated ROps; @Gradients ROps (Ok (mu, [4]))] /\
    fresh_gradients fuel nd [1] [1] [0; 1] [0; 0] [[0]; [1]] = [@Gradients ROps (Ok (mu', [2]))].
Proof. exact C158_update_refuted_pf. Qed.
Print Assumptions C158_update_refuted.

(** The same for a plot of another trajectory between forward and backward: node.trajectory([2], t_span) replaces the control. *)
Theorem C158_trajectory_refuted : forall fuel path,
  let nd := pux_node path in
  exists mu mu' r r',
    run_ops fuel nd (@MkCS ROps [1] [] []) [@OForward ROps [1] [0; 1]; @OTrajectory ROps [2] [0; 1]; @OBackward ROps 0 [0; 0] [[0]; [1]]] = [r; r'; @Gradients ROps (Ok (mu, [3]))] /\
    fresh_gradients fuel nd [1] [1] [0; 1] [0; 0] [[0]; [1]] = [@Gradients ROps (Ok (mu', [2]))].
Proof. exact C158_trajectory_refuted_pf. Qed.
Print Assumptions C158_trajectory_refuted.

(** Forward calls and trajectories are not affected: whatever was called before, they return the solve with the parameters of that moment and their own input as
    control; the interpolated adjoint asks for the states of all steps, trajectory never interpolates. *)
Theorem C158_results_partial :
  forall (K : NumOps) fuel (nd : @cnode K) p u ops x ts,
  let solve interp all := snd (odeint fuel (af_f (cn_field nd (params_after p ops) x)) x (TTensor ts) (cn_solver nd) (cn_atol nd) (cn_rtol nd) interp all [] None) in
  exists outs,
  run_ops fuel nd (MkCS p u []) (ops ++ [OForward x ts; OTrajectory x ts]) =
  outs ++ [Solved (solve (cn_interp nd) (match cn_path nd with None => false | Some _ => true end)); Solved (solve false false)].
Proof. exact C158_results_partial_pf. Qed.
Print Assumptions C158_results_partial.

(** Harmless calls: a backward pass of another forward call, a trajectory from the same state *)
Example C158_ex : Forall (harmless (pux_node None) [1]) [@OBackward ROps 0 [0; 0] [[0]; [1]]; @OTrajectory ROps [1] [0; 2]] /\
  ~ harmless (pux_node None) [1] (@OForward ROps [2] [0; 1]).
Proof. exact C158_ex_pf. Qed.

(** The gradients a fresh module returns are right when the control is held fixed: fields M x + c(t) with M and c depending on parameters and control, fixed-step
    solvers.  (The control is detached: how the solution depends on the initial state through the control is not differentiated, see C159.) *)
Theorem C158_fresh_partial :
  forall fuel s rows b n nmu (fld : list R -> list R -> adj_field (K := ROps)) M p x t0 t1 ts gt gx atol rtol atol' rtol' interp,
  let F := fld p x in
  erk_solver s rows b -> constant_jacobian n M (af_f F) -> transposed_product n M (af_vjp_x F) -> af_dg F = None ->
  (forall t y w, length w = n -> length (cat_params (af_vjp_p F t y w)) = nmu) ->
  separated (t0 :: t1 :: ts) -> t0 <= t1 -> length x = n ->
  length gx = length (t0 :: t1 :: ts) -> length gt = length (t0 :: t1 :: ts) -> Forall (fun g => length g = n) gx ->
  let nd := @MkNode ROps fld nmu s atol rtol interp s atol' rtol' None in
  let solve y := snd (@odeint ROps fuel (af_f F) y (@TTensor ROps (t0 :: t1 :: ts)) s atol rtol interp false [] None) in
  exists mu lam sol, fresh_gradients fuel nd p x (t0 :: t1 :: ts) gt gx = [@Gradients ROps (Ok (mu, lam))] /\ length lam = n /\
    solve x = Ok (t0 :: t1 :: ts, sol) /\
    forall x', length x' = n -> exists sol', solve x' = Ok (t0 :: t1 :: ts, sol') /\ pairing gx sol' - pairing gx sol = dot lam (minus_vec x' x).
Proof. exact C158_fresh_partial_pf. Qed.
Print Assumptions C158_fresh_partial.

(** C159 when the control is held fixed: the gradients are those of the solution of the field with the control fixed at the initial state.  Missing: the dependence
    of the solution on the initial state through the control. *)
Theorem C159_fixed_control_partial :
  forall fuel fuel' n sd sr (F : list (R * R) -> R * R -> list (R * R) -> list (R * R)) f X x ts atol rtol atol' rtol',
  fixed_family n sd sr -> tracks_vec n X x -> tracks_field n (F (@detv ROps X)) (fun e => f e (x 0)) ->
  tracks_solve n (controlled_autograd fuel F X ts sd atol' rtol')
    (fun e => snd (@odeint ROps fuel' (f e (x 0)) (x e) (@TTensor ROps ts) (sr e) atol rtol false false [] None)).
Proof. exact C159_fixed_control_partial_pf. Qed.
Print Assumptions C159_fixed_control_partial.

(** C159 is violated: x' = u with control u = x(0), euler over [0, 1]: node(x) = 2 x, but the gradient is 1. *)
Theorem C159_control_refuted : forall fuel atol rtol atol' rtol',
  (forall x, exists ts, controlled_solve fuel (fun u _ _ => u) [x] [0; 1] (Euler ROps) atol rtol = Ok (ts, [[x]; [2 * x]])) /\
  (forall x, exists ts, controlled_autograd fuel (fun U _ _ => U) [(x, 1)] [0; 1] (Euler DR) atol' rtol' = Ok (ts, [[(x, 1)]; [(2 * x, 1)]])).
Proof. exact C159_control_refuted_pf. Qed.
Print Assumptions C159_control_refuted.

(** The field u x with control u, started at x + e, meets the hypotheses of C159. *)
Example C159_ex : tracks_vec 1 [(2, 1)] (fun e => [2 + e]) /\
  tracks_field 1 ((fun U (_ : R * R) Y => map2 (@nmul DR) U Y) (@detv ROps [(2, 1)])) (fun e => (fun _ u _ y => map2 Rmult u y) e [2 + 0]).
Proof. exact C159_ex_pf. Qed.

