(** Model of torchdyn/numerics/solvers/{ode,templates,hyper}.py: one-step methods.

    A solver step receives the vector field, the state, the time, the step size and the
    optional first stage [k1].  Vector field calls are logged.  [args] is not modelled as a
    parameter: no built-in step passes it to the vector field (ode.py lines 68, 82, 97, 122,
    145, 167, 194: [args] is accepted and never used). *)
From Coq Require Import ZArith QArith String List.
From Verif Require Import Num Py Tensor M_Constants.
Import ListNotations.
Local Open Scope nat_scope.

Section Solvers.
Context {K : NumOps}.
Notation V := (vec K).

(** What a [step] returns: a 3-tuple (fixed-step solvers) or a 4-tuple (adaptive). *)
Inductive step_ret (X : Type) : Type :=
| Ret3 (fnew : option X) (xsol : X) (xerr : option X)
| Ret4 (fnew xsol xerr : X) (stages : list X).
Arguments Ret3 {X}. Arguments Ret4 {X}.

Definition step_fun (X : Type) : Type :=
  (K -> X -> X) -> X -> K -> K -> option X -> M (K * X) (step_ret X).

(** [if k1 == None: k1 = f(t, x)] *)
Definition first_stage {X} (f : K -> X -> X) (x : X) (t : K) (k1 : option X) : M (K * X) X :=
  match k1 with Some k => mret k | None => call f t x end.

(** Tableau entries; all indices used below are in range of the constructed tableaux. *)
Definition tget (l : list K) (i : nat) : K := nth i l n0.
Definition aget (l : list (list K)) (i j : nat) : K := tget (nth i l []) j.

(** Euler.step, ode.py lines 68-71 *)
Definition euler_step : step_fun V := fun f x t dt k1 =>
  k1 <- first_stage f x t k1 ;;
  mret (Ret3 None (x + dt * k1)%V None).

(** Midpoint.step, ode.py lines 82-86 *)
Definition midpoint_step : step_fun V := fun f x t dt k1 =>
  k1 <- first_stage f x t k1 ;;
  let x_mid := (x + (nhalf * dt)%N * k1)%V in
  k2 <- call f (t + nhalf * dt)%N x_mid ;;
  mret (Ret3 None (x + dt * k2)%V None).

(** RungeKutta4.step, ode.py lines 97-104; note the node indices c[0], c[1], c[2]. *)
Definition rk4_step : step_fun V := fun f x t dt k1 =>
  let tab := construct_rk4 K in
  let c := tget (tc tab) in
  let a := aget (ta tab) in
  let b := tget (tb tab) in
  k1 <- first_stage f x t k1 ;;
  k2 <- call f (t + c 0%nat * dt)%N (x + dt * (a 0 0 * k1))%V ;;
  k3 <- call f (t + c 1%nat * dt)%N (x + dt * (a 1 0 * k1 + a 1 1 * k2))%V ;;
  k4 <- call f (t + c 2%nat * dt)%N (x + dt * (a 2 0 * k1 + a 2 1 * k2 + a 2 2 * k3))%V ;;
  mret (Ret3 None
    (x + dt * (b 0%nat * k1 + b 1%nat * k2 + b 2%nat * k3 + b 3%nat * k4))%V None).

(** AsynchronousLeapfrog.step, ode.py lines 122-135, for a one-dimensional (unbatched) state
    [xv]; [self.const] is 1 (line 115).  [adaptive] is [stepping_class == 'adaptive']. *)
Definition alf_step (adaptive : bool) : step_fun V := fun f xv t dt k1 =>
  let half := Nat.div (length xv) 2 in
  let x := firstn half xv in
  let v := skipn half xv in
  _ <- first_stage f x t k1 ;;
  let x1 := (x + (nhalf * dt)%N * v)%V in
  vt1 <- call f (t + nhalf * dt)%N x1 ;;
  let v1 := ((nQ 2 * n1)%N * (vt1 - v) + v)%V in
  let x2 := (x1 + (nhalf * dt)%N * v1)%V in
  let x_sol := x2 ++ v1 in
  let xv_err := if adaptive then Some (vzeros (length x) ++ v) else None in
  mret (Ret3 None x_sol xv_err).

(** Body shared (textually identical up to [a[0] * k1] / [a[0][0] * k1]) by
    DormandPrince45.step, ode.py lines 145-156, and Tsitouras45.step, lines 167-178. *)
Definition erk7_step (tab : tableau K) : step_fun V := fun f x t dt k1 =>
  let c := tget (tc tab) in
  let a := aget (ta tab) in
  let b := tget (tb tab) in
  let e := tget (te tab) in
  let da i j := (dt * a i j)%N in
  k1 <- first_stage f x t k1 ;;
  k2 <- call f (t + c 0%nat * dt)%N (x + da 0%nat 0%nat * k1)%V ;;
  k3 <- call f (t + c 1%nat * dt)%N (x + dt * (a 1%nat 0%nat * k1 + a 1%nat 1%nat * k2))%V ;;
  k4 <- call f (t + c 2%nat * dt)%N
     (x + da 2%nat 0%nat * k1 + da 2%nat 1%nat * k2 + da 2%nat 2%nat * k3)%V ;;
  k5 <- call f (t + c 3%nat * dt)%N
     (x + da 3%nat 0%nat * k1 + da 3%nat 1%nat * k2 + da 3%nat 2%nat * k3
        + da 3%nat 3%nat * k4)%V ;;
  k6 <- call f (t + c 4%nat * dt)%N
     (x + da 4%nat 0%nat * k1 + da 4%nat 1%nat * k2 + da 4%nat 2%nat * k3
        + da 4%nat 3%nat * k4 + da 4%nat 4%nat * k5)%V ;;
  k7 <- call f (t + c 5%nat * dt)%N
     (x + da 5%nat 0%nat * k1 + da 5%nat 1%nat * k2 + da 5%nat 2%nat * k3
        + da 5%nat 3%nat * k4 + da 5%nat 4%nat * k5 + da 5%nat 5%nat * k6)%V ;;
  let x_sol := (x + dt * (b 0%nat * k1 + b 1%nat * k2 + b 2%nat * k3
                          + b 3%nat * k4 + b 4%nat * k5 + b 5%nat * k6))%V in
  let err := (dt * (e 0%nat * k1 + e 1%nat * k2 + e 2%nat * k3 + e 3%nat * k4
                    + e 4%nat * k5 + e 5%nat * k6 + e 6%nat * k7))%V in
  mret (Ret4 k7 x_sol err [k1; k2; k3; k4; k5; k6; k7]).

Definition dopri5_step : step_fun V := erk7_step (construct_dopri5 K).
Definition tsit5_step : step_fun V := erk7_step (construct_tsit5 K).

(** ImplicitEuler._residual, ode.py lines 189-192.  The minimisation itself (LBFGS, lines
    194-205) is not modelled. *)
Definition implicit_euler_residual (f : K -> V -> V) (x : V) (t dt : K) (x_sol : V) : K :=
  let f_sol := f t x_sol in
  let d := (x_sol - x - dt * f_sol)%V in
  vsum (vmul d d).

(** HyperEuler / HyperMidpoint / HyperRungeKutta4 .step, hyper.py lines 24-26, 35-37, 45-47:
    [op1 = order + 1] (lines 22, 33, 43). *)
Definition hyper_step (base : step_fun V) (order : nat) (hypernet : K -> V -> V) : step_fun V :=
  fun f x t dt k1 =>
  r <- base f x t dt k1 ;;
  match r with
  | Ret3 _ x_sol _ =>
      mret (Ret3 None (x_sol + npow dt (order + 1) * hypernet t x)%V None)
  | Ret4 _ _ _ _ => mraise ValueError
  end.

(** Solver objects: the attributes the integration routines read
    (SolverTemplate.__init__ ode.py 28-34, DiffEqSolver.__init__ templates.py 13-28). *)
Record solver (X : Type) : Type := MkSolver {
  s_order : nat;
  s_fixed : bool;              (* stepping_class == 'fixed' (else 'adaptive') *)
  s_is_tsit5 : bool;           (* isinstance(solver, Tsitouras45) *)
  s_min_factor : K;
  s_max_factor : K;
  s_safety : K;
  s_step : step_fun X }.

Definition mk_solver (order : nat) (fixed tsit : bool) (step : step_fun V) : solver V :=
  {| s_order := order; s_fixed := fixed; s_is_tsit5 := tsit;
     s_min_factor := nQ (1 # 5); s_max_factor := nQ 10; s_safety := nQ (9 # 10);
     s_step := step |}.

(** Constructors: ode.py lines 62-66, 76-80, 90-95, 108-119, 139-143, 161-165 *)
Definition Euler : solver V := mk_solver 1 true false euler_step.
Definition Midpoint : solver V := mk_solver 2 true false midpoint_step.
Definition RungeKutta4 : solver V := mk_solver 4 true false rk4_step.
Definition AsynchronousLeapfrog (adaptive : bool) : solver V :=
  mk_solver 2 (negb adaptive) false (alf_step adaptive).
Definition DormandPrince45 : solver V := mk_solver 5 false false dopri5_step.
Definition Tsitouras45 : solver V := mk_solver 5 false true tsit5_step.
(** hyper.py lines 17-47 *)
Definition HyperEuler (h : K -> V -> V) : solver V :=
  mk_solver 1 true false (hyper_step euler_step 1 h).
Definition HyperMidpoint (h : K -> V -> V) : solver V :=
  mk_solver 2 true false (hyper_step midpoint_step 2 h).
Definition HyperRungeKutta4 (h : K -> V -> V) : solver V :=
  mk_solver 4 true false (hyper_step rk4_step 4 h).

End Solvers.
Arguments step_ret : clear implicits.
Arguments Ret3 {X}. Arguments Ret4 {X}.
Arguments solver : clear implicits.
Arguments s_order {K X}. Arguments s_fixed {K X}. Arguments s_is_tsit5 {K X}.
Arguments s_min_factor {K X}. Arguments s_max_factor {K X}. Arguments s_safety {K X}.
Arguments s_step {K X}.
Arguments Euler : clear implicits. Arguments Midpoint : clear implicits.
Arguments RungeKutta4 : clear implicits. Arguments AsynchronousLeapfrog : clear implicits.
Arguments DormandPrince45 : clear implicits. Arguments Tsitouras45 : clear implicits.

(** Which class a solver name denotes: SOLVER_DICT (ode.py lines 320-325). *)
Inductive solver_name :=
| NEuler | NMidpoint | NRungeKutta4 | NDormandPrince45 | NTsitouras45 | NImplicitEuler | NALF.

Definition SOLVER_DICT : list (string * solver_name) :=
  [("euler", NEuler); ("midpoint", NMidpoint);
   ("rk4", NRungeKutta4); ("rk-4", NRungeKutta4); ("RungeKutta4", NRungeKutta4);
   ("dopri5", NDormandPrince45); ("DormandPrince45", NDormandPrince45);
   ("DormandPrince5", NDormandPrince45);
   ("tsit5", NTsitouras45); ("Tsitouras45", NTsitouras45); ("Tsitouras5", NTsitouras45);
   ("ieuler", NImplicitEuler); ("implicit_euler", NImplicitEuler);
   ("alf", NALF); ("AsynchronousLeapfrog", NALF)]%string.

(** [d[key]] on a Python dict: KeyError when missing. *)
Fixpoint dict_get {A} (d : list (string * A)) (key : string) : res A :=
  match d with
  | [] => Err KeyError
  | (k, v) :: d' => if String.eqb k key then Ok v else dict_get d' key
  end.

(** Class attributes (order, stepping class) of each solver class. *)
Definition name_order (n : solver_name) : nat :=
  match n with
  | NEuler => 1 | NMidpoint => 2 | NRungeKutta4 => 4 | NDormandPrince45 => 5
  | NTsitouras45 => 5 | NImplicitEuler => 1 | NALF => 2
  end.
Definition name_fixed (n : solver_name) : bool :=
  match n with NDormandPrince45 | NTsitouras45 => false | _ => true end.

(** str_to_solver, ode.py lines 333-336: [solver(dtype)].  The argument is bound to the FIRST
    parameter of the class constructor, which is [dtype] for every class but
    AsynchronousLeapfrog, whose first parameter is [channel_index] (line 108). *)
Inductive dtype := float32 | float64 | float16.
Record named_solver := {
  ns_class : solver_name;
  ns_dtype : dtype;                       (* self.dtype *)
  ns_channel_index : option (Z + dtype)   (* ALF only: an int, or whatever was passed *)
}.
Definition str_to_solver (name : string) (d : dtype) : res named_solver :=
  rbind (dict_get SOLVER_DICT name) (fun c =>
  match c with
  | NALF => Ok {| ns_class := NALF; ns_dtype := float32; ns_channel_index := Some (inr d) |}
  | c => Ok {| ns_class := c; ns_dtype := d; ns_channel_index := None |}
  end).

(** The explicit solvers by class; ImplicitEuler needs an optimiser and is excluded. *)
Definition solver_of_class (K : NumOps) (c : solver_name) : option (solver K (vec K)) :=
  match c with
  | NEuler => Some (Euler K)
  | NMidpoint => Some (Midpoint K)
  | NRungeKutta4 => Some (RungeKutta4 K)
  | NDormandPrince45 => Some (DormandPrince45 K)
  | NTsitouras45 => Some (Tsitouras45 K)
  | NALF => Some (AsynchronousLeapfrog K false)
  | NImplicitEuler => None
  end.

(** MS_SOLVER_DICT, ode.py lines 328-330, str_to_ms_solver lines 339-342 *)
Inductive ms_name := MSZeroN | MSBackwardN | ParallelImplicitEulerN.
Definition MS_SOLVER_DICT : list (string * ms_name) :=
  [("mszero", MSZeroN); ("zero", MSZeroN); ("parareal", MSZeroN);
   ("msbackward", MSBackwardN); ("backward", MSBackwardN); ("discrete-adjoint", MSBackwardN);
   ("ieuler", ParallelImplicitEulerN); ("parallel-implicit-euler", ParallelImplicitEulerN)]%string.
Definition str_to_ms_solver (name : string) : res ms_name := dict_get MS_SOLVER_DICT name.
