(** Model of what autograd computes through the multiple-shooting solvers (ode.py lines 222-317, odeint.py lines 153-180).

    MSZero.root_solve (lines 233-249) runs on numbers with derivatives unchanged: [odeint_mszero (DualOps K)] of M_MS.v.
    MSBackward.root_solve (lines 262-281) calls torch.autograd.grad without create_graph (line 276): the product with the Jacobian
    is computed from values and has no derivative itself.
    ParallelImplicitEuler.root_solve (lines 302-317) returns [B], an nn.Parameter (line 304), i.e. a leaf of the graph of autograd.
    [minimize r B] is what LBFGS makes of the start [B] for the objective [r]: any function; it works on numbers without
    derivatives. *)
From Coq Require Import ZArith QArith List Bool.
From Verif Require Import Num Py Tensor M_SolversOde M_Utils M_Interp M_Odeint M_MS M_Autograd.
Import ListNotations.
Local Open Scope nat_scope.

Section ShootGrad.
Context {K : NumOps}.
Notation D := (DualOps K).

(** [vjp sub b v] as in M_MS.v, on values *)
Definition detached_vjp (vjp : list K -> vec K -> vec K -> vec K) (sub : list D) (b v : vec D) : vec D :=
  map cst (vjp (map fst sub) (map fst b) (map fst v)).
Definition odeint_msbackward_autograd (fuel : nat) (f : D -> vec D -> vec D) (x : vec D) (t_span : list D)
  (coarse fine : solver D (vec D)) (vjp : list K -> vec K -> vec K -> vec K)
  (B0 : option (list (vec D))) (fine_steps : nat) (maxiter : Z) : res (list D * list (vec D)) :=
  odeint_msbackward fuel f x t_span coarse fine (detached_vjp vjp) B0 fine_steps maxiter.

(** odeint_mshooting with ParallelImplicitEuler, without and with derivatives; [residual] of the closure (line 311) may raise *)
Definition objective_of (r : res K) : K := match r with Ok a => a | _ => n0 end.
Definition dual_objective_of (r : res D) : K := objective_of (rmap fst r).
Definition odeint_pie (minimize : (list (vec K) -> K) -> list (vec K) -> list (vec K))
  (fuel : nat) (f : K -> vec K -> vec K) (x : vec K) (t_span : list K) (coarse : solver K (vec K))
  (B0 : option (list (vec K))) : res (list K * list (vec K)) :=
  rbind (ms_first_guess fuel f x t_span coarse B0) (fun B =>
  rbind (pie_residual f x B t_span) (fun _ =>
  Ok (t_span, minimize (fun B => objective_of (pie_residual f x B t_span)) B))).
Definition odeint_pie_autograd (minimize : (list (vec K) -> K) -> list (vec K) -> list (vec K))
  (fuel : nat) (f : D -> vec D -> vec D) (x : vec D) (t_span : list D) (coarse : solver D (vec D))
  (B0 : option (list (vec D))) : res (list D * list (vec D)) :=
  rbind (ms_first_guess fuel f x t_span coarse B0) (fun B =>
  rbind (pie_residual f x B t_span) (fun _ =>
  Ok (t_span, map (map cst) (minimize (fun B => dual_objective_of (pie_residual f x (map (map cst) B) t_span)) (map (map fst) B))))).
End ShootGrad.
