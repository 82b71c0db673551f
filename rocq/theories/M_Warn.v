(** Model of the warnings issued by odeint (torchdyn/numerics/odeint.py lines 29-91), odeint_symplectic (lines
    95-150), sdeint (sdeint.py lines 33-84), ODEProblem.odeint (core/problems.py lines 140-155) and the backward
    pass of the adjoint (sensitivity.py lines 81-84), next to the options that produce them.

    A warning here is one call of [warn]; Python's default filter prints the repetitions of one place only once. *)
From Coq Require Import ZArith QArith String List Bool.
From Verif Require Import Num Py Tensor M_SolversOde M_Utils M_Interp M_Odeint M_Sde M_Core.
Import ListNotations.
Local Open Scope nat_scope.

Inductive warning : Type :=
| WReversed          (* You are integrating on a reversed time domain, ... *)
| WTsit5             (* Running interpolation not yet implemented for `tsit5` *)
| WTol               (* Setting tolerances has no effect on fixed-step methods *)
| WSave.             (* Setting save_at has no effect on adaptive-step methods *)

Section Warn.
Context {K : NumOps}.
Notation V := (vec K).

(** the keyword arguments of odeint, lines 29-31; args: the number of its entries *)
Record options : Type := MkOpt {
  o_atol : K; o_rtol : K; o_stops : option (list K); o_verbose : bool; o_interp : bool; o_all : bool;
  o_save : list K; o_args : nat; o_semi : option nat }.

(** odeint.__defaults__ *)
Definition milli : K := nQ (1 # 1000)%Q.
Definition odeint_defaults : options := MkOpt milli milli None false false false [] 0 None.

Definition tol_warn (atol rtol : K) : list warning :=
  if negb (atol =? milli)%N || negb (rtol =? milli)%N then [WTol] else [].

(** lines 54-90; [nsave] is len(save_at).  A list of reversed times makes [-t_span] raise after the first warning *)
Definition odeint_warn (ts : tspan K) (s : solver K V) (atol rtol : K) (verbose : bool) (nsave : nat) : list warning :=
  match rbind (pyget (ts_list ts) 1) (fun t1 => rbind (pyget (ts_list ts) 0) (fun t0 => Ok (t1 <? t0)%N)) with
  | Err _ | OutOfFuel => []
  | Ok r =>
      (if r && verbose then [WReversed] else []) ++
      match r, ts with
      | true, TList _ => []
      | _, _ =>
          (if s_is_tsit5 s && verbose then [WTsit5] else []) ++
          (if s_fixed s then tol_warn atol rtol else if 0 <? nsave then [WSave] else [])
      end
  end.

(** odeint with all its keyword arguments: the warnings, the calls of f and the outcome.  t_stops is not used in the
    body, args is handed to solver.step, which does not use it (solvers/ode.py) *)
Definition odeint_call (fuel : nat) (f : K -> V -> V) (x : V) (ts : tspan K) (s : solver K V) (o : options)
  : list warning * M (K * V) (list K * list V) :=
  (odeint_warn ts s (o_atol o) (o_rtol o) (o_verbose o) (length (o_save o)),
   odeint fuel f x ts s (o_atol o) (o_rtol o) (o_interp o) (o_all o) (o_save o) (o_semi o)).

(** odeint_symplectic: no warning about save_at *)
Definition symplectic_warn (f_order : option nat) (is_alf : bool) (ts : tspan K) (s : solver K V) (atol rtol : K)
  (verbose : bool) : list warning :=
  match rbind (pyget (ts_list ts) 1) (fun t1 => rbind (pyget (ts_list ts) 0) (fun t0 => Ok (t1 <? t0)%N)) with
  | Err _ | OutOfFuel => []
  | Ok r =>
      (if r && verbose then [WReversed] else []) ++
      match r, ts, f_order with
      | true, TList _, _ => []
      | _, _, None => []
      | _, _, Some o =>
          if is_alf && (o =? 2) then [] else if s_fixed s then tol_warn atol rtol else []
      end
  end.

(** sdeint, lines 50-84 *)
Definition sdeint_warn (sde : sde_func K) (name : string) (bm : brownian K) (atol rtol : K) : list warning :=
  match sde_str_to_solver name sde bm with
  | Ok s => if ss_fixed s then tol_warn atol rtol else []
  | Err _ | OutOfFuel => []
  end.

(** ** ODEProblem and NeuralODE *)

(** tolerances of the forward and of the backward pass: problems.py lines 25-30, neuralde.py lines 35-40 *)
Record tolerances : Type := MkTol { tl_atol : K; tl_rtol : K; tl_atol_adj : K; tl_rtol_adj : K }.
Definition problem_tol : tolerances := MkTol (nQ (1 # 10000)%Q) (nQ (1 # 10000)%Q) (nQ (1 # 1000000)%Q) (nQ (1 # 1000000)%Q).
Definition neuralode_tol : tolerances := MkTol milli milli (nQ (1 # 10000)%Q) (nQ (1 # 10000)%Q).

(** ODEProblem.odeint: for the adjoint methods the dictionary args arrives as save_at (see [problem_odeint]) *)
Definition problem_warn (sens : string) (ts : tspan K) (s : solver K V) (tl : tolerances) (nsave nargs : nat) : list warning :=
  match sens_of sens with
  | Autograd => odeint_warn ts s (tl_atol tl) (tl_rtol tl) false nsave
  | OtherSens => []
  | _ => odeint_warn ts s (tl_atol tl) (tl_rtol tl) false nargs
  end.

(** the backward pass of the adjoint, sensitivity.py lines 81-84, if it runs to its end: one solve for each interval
    of the reversed times *)
Fixpoint adjoint_warn (s : solver K V) (tl : tolerances) (rts : list K) : list warning :=
  match rts with
  | t_i :: ((t_prev :: _) as rts') =>
      odeint_warn (TTensor [t_i; t_prev]) s (tl_atol_adj tl) (tl_rtol_adj tl) false 0 ++ adjoint_warn s tl rts'
  | _ => []
  end.

End Warn.
Arguments options : clear implicits.
Arguments tolerances : clear implicits.
