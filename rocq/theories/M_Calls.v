(** Model of sequences of calls of one NeuralODE with an adjoint sensitivity: what the module remembers between calls.

    The vector field is a module with state: [_prep_integration] (neuralde.py lines 95-123) assigns the initial state, detached, to the
    attribute _control of every DataControl module (line 121), in [forward] (line 132) and in [trajectory] (line 140); parameters
    are changed in place by optimizers.  The autograd Functions of sensitivity.py save the solution, not the state of the module
    (lines 41 and 112): their backward passes (lines 45-98 and 117-160) call [vf] and read [vf.parameters()] as they are at that time.

    Simplifications: all DataControl modules hold the same control, the whole state (no columns of losses or divergences in front of it,
    for these see M_Core.v); states and controls are flat vectors. *)
From Coq Require Import ZArith QArith List Bool.
From Verif Require Import Num Py Tensor M_SolversOde M_Utils M_Interp M_Odeint M_Sens.
Import ListNotations.
Local Open Scope nat_scope.

Section Calls.
Context {K : NumOps}.
Notation V := (vec K).

(** A NeuralODE: its field as a function of parameters and control, solvers and tolerances; [cn_path]: None for sensitivity='adjoint', the spline through
    times and states for 'interpolated_adjoint' *)
Record cnode : Type := MkNode {
  cn_field : V -> V -> @adj_field K;
  cn_nparams : nat;
  cn_solver : solver K V; cn_atol : K; cn_rtol : K; cn_interp : bool;
  cn_adj_solver : solver K V; cn_adj_atol : K; cn_adj_rtol : K;
  cn_path : option (list K -> list V -> K -> V) }.

(** What calls leave behind: parameters, control, and for every forward call what its autograd Function saved (t_span, times and states) *)
Record cstate : Type := MkCS { cs_params : V; cs_control : V; cs_saved : list (list K * res (list K * list V)) }.

Inductive call_op : Type :=
| OForward (x : V) (ts : list K)                             (* node(x, t_span) *)
| OTrajectory (x : V) (ts : list K)                          (* node.trajectory(x, t_span) *)
| OUpdate (p : V)                                            (* optimizer.step() *)
| OBackward (i : nat) (gt : list K) (gx : list V).           (* backward from the results of the i-th forward call *)

Inductive call_out : Type :=
| Solved (r : res (list K * list V))
| Updated
| Gradients (r : res (V * V)).                               (* parameters, initial state *)

(** forward, sensitivity.py lines 38-42 and 109-113; 'interpolated_adjoint' asks for all evaluations *)
Definition call_forward (fuel : nat) (nd : cnode) (st : cstate) (x : V) (ts : list K) : res (list K * list V) :=
  snd (odeint fuel (af_f (cn_field nd (cs_params st) x)) x (TTensor ts) (cn_solver nd) (cn_atol nd) (cn_rtol nd) (cn_interp nd)
    (match cn_path nd with None => false | Some _ => true end) [] None).

(** trajectory, neuralde.py lines 139-144: tolerances and solver only *)
Definition call_trajectory (fuel : nat) (nd : cnode) (st : cstate) (x : V) (ts : list K) : res (list K * list V) :=
  snd (odeint fuel (af_f (cn_field nd (cs_params st) x)) x (TTensor ts) (cn_solver nd) (cn_atol nd) (cn_rtol nd) false false [] None).

(** backward, with the field as it is now *)
Definition call_backward (fuel : nat) (nd : cnode) (st : cstate) (i : nat) (gt : list K) (gx : list V) : res (V * V) :=
  rbind (pyget (cs_saved st) i) (fun c => rbind (snd c) (fun s =>
  let F := cn_field nd (cs_params st) (cs_control st) in
  match cn_path nd with
  | None => rmap (fun o => (ao_params o, ao_x o))
      (adjoint_backward fuel F (cn_nparams nd) (cn_adj_solver nd) (cn_adj_atol nd) (cn_adj_rtol nd) (fst s) (snd s) gt gx)
  | Some path => interp_adjoint_backward fuel F (path (fst s) (snd s)) (cn_nparams nd) (cn_solver nd) (cn_atol nd) (cn_rtol nd) (fst c) gx
  end)).

Definition run_op (fuel : nat) (nd : cnode) (st : cstate) (o : call_op) : cstate * call_out :=
  match o with
  | OForward x ts =>
      let r := call_forward fuel nd st x ts in
      (MkCS (cs_params st) x (cs_saved st ++ [(ts, r)]), Solved r)
  | OTrajectory x ts => (MkCS (cs_params st) x (cs_saved st), Solved (call_trajectory fuel nd st x ts))
  | OUpdate p => (MkCS p (cs_control st) (cs_saved st), Updated)
  | OBackward i gt gx => (st, Gradients (call_backward fuel nd st i gt gx))
  end.

Fixpoint run_ops (fuel : nat) (nd : cnode) (st : cstate) (ops : list call_op) : list call_out :=
  match ops with
  | [] => []
  | o :: ops => let (st', r) := run_op fuel nd st o in r :: run_ops fuel nd st' ops
  end.

End Calls.
