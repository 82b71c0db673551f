(** Model of ImplicitEuler.step (ode.py lines 181-205) with its optimiser.

    [minimize r x] is what LBFGS makes of the start [x] for the objective [r] (lines 197-204): any function.  It works on numbers
    without derivatives; the step returns [x_sol], an nn.Parameter (line 196), i.e. a leaf of the graph of autograd: the state
    returned has no derivative with respect to anything but itself.  The calls of the field made by the closure are not logged. *)
From Coq Require Import ZArith QArith List Bool.
From Verif Require Import Num Py Tensor M_Constants M_SolversOde M_Autograd.
Import ListNotations.
Local Open Scope nat_scope.

Section Implicit.
Context {K : NumOps}.
Variable minimize : (vec K -> K) -> vec K -> vec K.

Definition implicit_step : @step_fun K (vec K) := fun f x t dt _ =>
  mret (Ret3 None (minimize (implicit_euler_residual f x t dt) x) None).
Definition ImplicitEuler : solver K (vec K) := @mk_solver K 1 true false implicit_step.

(** The same step for numbers with derivatives *)
Notation D := (DualOps K).
Definition implicit_step_autograd : @step_fun D (vec D) := fun F X t dt _ =>
  let objective y := fst (implicit_euler_residual F X t dt (map cst y)) in
  mret (Ret3 None (map cst (minimize objective (map fst X))) None).
Definition ImplicitEuler_autograd : solver D (vec D) := @mk_solver D 1 true false implicit_step_autograd.
End Implicit.
