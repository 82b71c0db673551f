(** Model of what autograd records while the interpolated adjoint runs its backward pass under create_graph=True
    (torchdyn/numerics/sensitivity.py lines 115-159).

    Numbers carry a derivative in one direction ([DualOps]).  The calls of [grad] in lines 138-139 and 142 do not pass create_graph:
    the vector-Jacobian products they return carry no derivative.  The spline goes through [sol.detach()] (line 126).  Everything else
    is the code of M_Sens.v. *)
From Coq Require Import ZArith QArith List Bool.
From Verif Require Import Num Py Tensor M_SolversOde M_Utils M_Interp M_Odeint M_Autograd M_Sens.
Import ListNotations.

Section Double.
Context {K : NumOps}.
Notation V := (vec (DualOps K)).

(** lines 138-142 *)
Definition no_graph (F : @adj_field (DualOps K)) : @adj_field (DualOps K) :=
  MkAF (af_f F) (fun t x w => detv (af_vjp_x F t x w)) (fun t x w => option_map det (af_vjp_t F t x w))
    (fun t x w => map (option_map detv) (af_vjp_p F t x w))
    (option_map (fun dg t x => detv (dg t x)) (af_dg F)).

(** backward with create_graph=True; [path]: the spline through the stored solution *)
Definition interp_backward_graph (fuel : nat) (F : @adj_field (DualOps K)) (path : DualOps K -> V) (nmu : nat) (s : solver (DualOps K) V)
  (atol rtol : DualOps K) (t_span : list (DualOps K)) (gx : list V) : res (V * V) :=
  interp_adjoint_backward fuel (no_graph F) (fun t => detv (path t)) nmu s atol rtol t_span gx.
End Double.
