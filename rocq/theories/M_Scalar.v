(** Model of solves whose state is a tensor without axes ([x = torch.tensor(1.)]).

    The numbers of M_Prom.v say which values have axes.  A state without axes is a list with one entry of kind [NoAxes].  Stacking
    the states of a solve (odeint.py lines 408 and 441) needs tensors of one shape; [stacked] raises RuntimeError otherwise.  The rows
    of tableaux are tensors with one axis (_constants.py lines 22-25 and 33-40): [a[0]], used as a whole by rk4 (ode.py line 100)
    and dopri5 (line 148), has an axis; its entry [a[0][0]], used by tsit5 (line 170), has none. *)
From Coq Require Import ZArith QArith List Bool.
From Verif Require Import Num Py Tensor M_Constants M_SolversOde M_Utils M_Interp M_Odeint M_Dtype M_Cast M_Prom.
Import ListNotations.
Local Open Scope nat_scope.

Section Scalar.
Context {K : NumOps}.
Notation T := (TypedOps K).
Notation V := (vec T).

(** a tensor without axes, of dtype d *)
Definition scalar_of (d : dtype) (a : K) : V := [with_kind (NoAxes d) a].

Definition is_axes (a : T) : bool := match snd a with Axes _ => true | _ => false end.
Definition same_shape (u v : V) : bool := Bool.eqb (existsb is_axes u) (existsb is_axes v).
(** torch.stack *)
Definition stack (sol : list V) : res (list V) :=
  match sol with
  | [] => Err RuntimeError
  | u :: rest => if forallb (same_shape u) rest then Ok sol else Err RuntimeError
  end.
Definition stacked (m : M (T * V) (list T * list V)) : M (T * V) (list T * list V) :=
  r <- m ;;
  let '(times, sol) := r in
  sol <- mlift (stack sol) ;;
  mret (times, sol).

(** The tableau whose row a[0] is used with its axis; d is the dtype of the state *)
Definition row_axis (d : dtype) (tab : tableau T) : tableau T :=
  {| tc := tc tab;
     ta := match ta tab with [] => [] | row :: rest => map (fun a : T => (fst a, Axes d)) row :: rest end;
     tb := tb tab; te := te tab |}.

(** RungeKutta4.step, ode.py lines 97-104, for any tableau: rk4_step of M_SolversOde.v is the one with construct_rk4 *)
Definition rk4_tab_step (tab : tableau T) : step_fun V := fun f x t dt k1 =>
  let c := tget (tc tab) in
  let a := aget (ta tab) in
  let b := tget (tb tab) in
  k1 <- first_stage f x t k1 ;;
  k2 <- call f (t + c 0%nat * dt)%N (x + dt * (a 0 0 * k1))%V ;;
  k3 <- call f (t + c 1%nat * dt)%N (x + dt * (a 1 0 * k1 + a 1 1 * k2))%V ;;
  k4 <- call f (t + c 2%nat * dt)%N (x + dt * (a 2 0 * k1 + a 2 1 * k2 + a 2 2 * k3))%V ;;
  mret (Ret3 None
    (x + dt * (b 0%nat * k1 + b 1%nat * k2 + b 2%nat * k3 + b 3%nat * k4))%V None).
Lemma rk4_tab_rk4 : rk4_tab_step (construct_rk4 T) = rk4_step.
Proof. reflexivity. Qed.

Definition with_step (s : solver T V) (st : step_fun V) : solver T V :=
  {| s_order := s_order s; s_fixed := s_fixed s; s_is_tsit5 := s_is_tsit5 s;
     s_min_factor := s_min_factor s; s_max_factor := s_max_factor s; s_safety := s_safety s; s_step := st |}.
Definition rk4_rows (d : dtype) : solver T V := with_step (RungeKutta4 T) (rk4_tab_step (row_axis d (construct_rk4 T))).
Definition dopri5_rows (d : dtype) : solver T V := with_step (DormandPrince45 T) (erk7_step (row_axis d (construct_dopri5 T))).
End Scalar.
