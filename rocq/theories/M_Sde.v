(** Model of torchdyn/numerics/solvers/sde.py, torchdyn/numerics/sdeint.py and SDEFunc
    (torchdyn/core/defunc.py lines 96-142).

    The Brownian motion is a function [bm ta tb] giving the increment over [ta, tb]; a torchsde
    Brownian object returns the same increment when the same interval is queried again. *)
From Coq Require Import ZArith QArith String List Bool.
From Verif Require Import Num Py Tensor M_Odeint.
Import ListNotations.
Local Open Scope nat_scope.

Section Sde.
Context {K : NumOps}.
Notation V := (vec K).

(** SDEFunc: drift, diffusion and the two type strings (None if not given) *)
Record sde_func : Type := MkSde {
  sde_f : K -> V -> V;
  sde_g : K -> V -> V;
  sde_noise : option string;
  sde_type : option string
}.
Definition brownian : Type := K -> K -> V.

Record sde_solver : Type := MkSdeSolver {
  ss_step : V -> K -> K -> V;          (* the second component of (None, x_sol, None) *)
  ss_fixed : bool;
  ss_order : nat
}.

(** _check_types, lines 8-16 *)
Definition opt_eqb (a : option string) (b : string) : bool :=
  match a with Some s => String.eqb s b | None => false end.
Definition check_types (sde : sde_func) (solver_sde : string) (noises : list string) : res unit :=
  if negb (opt_eqb (sde_type sde) solver_sde) then Err ValueError
  else if negb (existsb (opt_eqb (sde_noise sde)) noises) then Err ValueError
  else Ok tt.
Definition all_noises : list string := ["general"; "diagonal"; "scalar"; "additive"]%string.

(** EulerMaruyama, lines 19-35 *)
Definition em_step (sde : sde_func) (bm : brownian) (x : V) (t dt : K) : V :=
  let next_t := (t + dt)%N in
  vadd (vadd x (vscale dt (sde_f sde t x))) (vmul (sde_g sde t x) (bm t next_t)).
Definition EulerMaruyama (sde : sde_func) (bm : brownian) : res sde_solver :=
  rbind (check_types sde "ito" all_noises) (fun _ => Ok (MkSdeSolver (em_step sde bm) true 1)).

(** EulerHeun, lines 38-60 *)
Definition heun_step (sde : sde_func) (bm : brownian) (x : V) (t dt : K) : V :=
  let next_t := (t + dt)%N in
  let f := sde_f sde t x in
  let g := sde_g sde t x in
  let x_prime := vadd x (vmul g (bm t next_t)) in
  vadd (vadd x (vscale dt f))
       (vmul (vscale nhalf (vadd g (sde_g sde next_t x_prime))) (bm t next_t)).
Definition EulerHeun (sde : sde_func) (bm : brownian) : res sde_solver :=
  rbind (check_types sde "stratonovich" all_noises) (fun _ => Ok (MkSdeSolver (heun_step sde bm) true 1)).

(** MilsteinBase.step, lines 78-90; no type check *)
Definition milstein_step (v_term : V -> K -> V) (sde : sde_func) (bm : brownian) (x : V) (t dt : K) : V :=
  let next_t := (t + dt)%N in
  let bm_ := bm t next_t in
  let v := v_term bm_ dt in
  let f := sde_f sde t x in
  let g := sde_g sde t x in
  let sqrt_dt := nsqrt dt in
  let x_prime := vadd (vadd x (vscale dt f)) (vscale sqrt_dt g) in
  let g_x_prime := sde_g sde t x_prime in
  let gdg := vsub g_x_prime g in
  vadd (vadd (vadd x (vscale dt f)) (vmul g bm_))
       (vmul (map (fun a => (a * n1 / (nQ 2 * sqrt_dt))%N) gdg) v).

(** MilesteinIto.v_term line 98, MilesteinStratonovich.v_term line 107 *)
Definition v_ito (bm_ : V) (dt : K) : V := map (fun b => (b * b - dt)%N) bm_.
Definition v_strat (bm_ : V) (dt : K) : V := map (fun b => (b * b)%N) bm_.
Definition MilsteinIto (sde : sde_func) (bm : brownian) : res sde_solver :=
  Ok (MkSdeSolver (milstein_step v_ito sde bm) true 1).
Definition MilsteinStratonovich (sde : sde_func) (bm : brownian) : res sde_solver :=
  Ok (MkSdeSolver (milstein_step v_strat sde bm) true 1).

(** sde_str_to_solver, lines 117-129; Midpoint.__init__ takes (bm, dtype) and is called with
    (sde, bm, dtype), one positional argument too many *)
Definition sde_str_to_solver (name : string) (sde : sde_func) (bm : brownian) : res sde_solver :=
  (if name =? "euler" then EulerMaruyama sde bm
   else if name =? "eulerHeun" then EulerHeun sde bm
   else if name =? "midpoint" then Err TypeError
   else if name =? "milstein_ito" then MilsteinIto sde bm
   else if name =? "milstein_stratonovich" then MilsteinStratonovich sde bm
   else Err KeyError)%string.

(** _fixed_sdeint, sdeint.py lines 92-118; [n] = number of iterations left *)
Fixpoint sde_loop (step : V -> K -> K -> V) (t_span save_at : list K)
  (n steps : nat) (x : V) (t dt : K) (sol : list V) {struct n} : res (list V) :=
  match n with
  | O => Ok sol
  | S n' =>
      let x := step x t dt in
      let t := (t + dt)%N in
      let sol := if (isclose_count t save_at =? 0)%nat then sol else sol ++ [x] in
      rbind (if (steps <? List.length t_span - 1)%nat
             then rbind (pyget t_span (steps + 1)) (fun tn => Ok (tn - t)%N)
             else Ok dt) (fun dt =>
      sde_loop step t_span save_at n' (steps + 1) x t dt sol)
  end.

Definition fixed_sdeint (x : V) (t_span : list K) (step : V -> K -> K -> V) (save_at : list K)
  : res (list K * list V) :=
  rbind (pyget t_span 0) (fun t0 =>
  rbind (pylast t_span) (fun _ =>
  rbind (pyget t_span 1) (fun t1 =>
  let sol := if (isclose_count t0 save_at =? 0)%nat then [] else [x] in
  rbind (sde_loop step t_span save_at (List.length t_span - 1) 1 x t0 (t1 - t0)%N sol) (fun sol =>
  match sol with [] => Err IndexError | _ => Ok (save_at, sol) end)))).

(** sdeint, lines 34-83, for a one-dimensional tensor t_span and a solver name; every solver that
    can be built has a fixed step size *)
Definition sdeint (sde : sde_func) (x : V) (t_span : list K) (name : string) (bm : brownian)
  (save_at : list K) : res (list K * list V) :=
  rbind (sde_str_to_solver name sde bm) (fun s =>
  let save_at := match save_at with [] => t_span | _ => save_at end in
  if ss_fixed s then fixed_sdeint x t_span (ss_step s) save_at else Err NotImplementedError).

End Sde.
Arguments sde_func : clear implicits.
Arguments brownian : clear implicits.
Arguments sde_solver : clear implicits.

(** ** Shapes of the Euler-Maruyama update under torch broadcasting.
    Shapes are compared from the last dimension; a missing or unit dimension is stretched. *)
Fixpoint bcast_rev (a b : list nat) : res (list nat) :=
  match a, b with
  | [], _ => Ok b
  | _, [] => Ok a
  | p :: a', q :: b' =>
      rbind (if p =? q then Ok p else if p =? 1 then Ok q else if q =? 1 then Ok p else Err RuntimeError) (fun d =>
      rbind (bcast_rev a' b') (fun ds => Ok (d :: ds)))
  end.
Definition bcast (a b : list nat) : res (list nat) := rmap (@rev nat) (bcast_rev (rev a) (rev b)).

(** shape of [x + f * dt + g * bm], dt a scalar tensor *)
Definition em_shape (sx sf sg sb : list nat) : res (list nat) :=
  rbind (bcast sf []) (fun s1 => rbind (bcast sx s1) (fun s2 => rbind (bcast sg sb) (fun s3 => bcast s2 s3))).
