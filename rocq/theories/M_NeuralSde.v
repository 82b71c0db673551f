(** Model of SDEFunc (torchdyn/core/defunc.py lines 96-142), SDEProblem (torchdyn/core/problems.py lines
    263-321) and NeuralSDE (torchdyn/core/neuralde.py lines 155-252).

    Unlike M_Sde.v, drift and diffusion may raise exceptions and the Brownian motion may be missing (None).
    States are flat vectors; [w] is the number of columns of the batch that the user's callables see. *)
From Coq Require Import ZArith QArith String List Bool.
From Verif Require Import Num Py Tensor M_Odeint M_Core M_Sde.
Import ListNotations.
Local Open Scope nat_scope.
Local Notation length := List.length.

Section NeuralSde.
Context {K : NumOps} {A : Type}.
Notation V := (vec K).
Notation batch := (list (vec K)).

(** SDEFunc.f and SDEFunc.g, defunc.py lines 117-142; the attribute t of submodules is never set *)
Definition sdefunc_call (c : @callable K A) (t : K) (x : batch) : res batch :=
  match c_sig c with
  | None => Err TypeError                                  (* getfullargspec *)
  | Some sg => if mem "t" (sg_params sg) then call_callable c None [VTime t; VState x] []
               else call_callable c None [VState x] []
  end.

(** rows of w columns *)
Fixpoint chunks (w k : nat) (v : V) : batch :=
  match k with O => [] | S k' => firstn w v :: chunks w k' (skipn w v) end.
Definition on_flat (w k : nat) (c : @callable K A) (t : K) (v : V) : res V :=
  rmap (@concat K) (sdefunc_call c t (chunks w k v)).

(** self.bm(ta, tb); None is not callable *)
Definition call_bm (bm : option (brownian K)) (ta tb : K) : res V :=
  match bm with Some b => Ok (b ta tb) | None => Err TypeError end.

Section Steps.
Variables (f g : K -> V -> res V) (bm : option (brownian K)).

(** EulerMaruyama.step, solvers/sde.py lines 30-35 *)
Definition em_step_r (x : V) (t dt : K) : res V :=
  rbind (f t x) (fun fx =>
  rbind (g t x) (fun gx =>
  rbind (call_bm bm t (t + dt)%N) (fun w =>
  Ok (vadd (vadd x (vscale dt fx)) (vmul gx w))))).

(** EulerHeun.step, lines 49-60 *)
Definition heun_step_r (x : V) (t dt : K) : res V :=
  let next_t := (t + dt)%N in
  rbind (f t x) (fun fx =>
  rbind (g t x) (fun gx =>
  rbind (call_bm bm t next_t) (fun w =>
  rbind (g next_t (vadd x (vmul gx w))) (fun gx' =>
  Ok (vadd (vadd x (vscale dt fx)) (vmul (vscale nhalf (vadd gx gx')) w)))))).

(** MilsteinBase.step, lines 77-90 *)
Definition milstein_step_r (v_term : V -> K -> V) (x : V) (t dt : K) : res V :=
  let next_t := (t + dt)%N in
  rbind (call_bm bm t next_t) (fun w =>
  let v := v_term w dt in
  rbind (f t x) (fun fx =>
  rbind (g t x) (fun gx =>
  let sqrt_dt := nsqrt dt in
  rbind (g t (vadd (vadd x (vscale dt fx)) (vscale sqrt_dt gx))) (fun gx' =>
  let gdg := vsub gx' gx in
  Ok (vadd (vadd (vadd x (vscale dt fx)) (vmul gx w))
       (vmul (map (fun a => (a * n1 / (nQ 2 * sqrt_dt))%N) gdg) v)))))).

(** sde_str_to_solver, lines 117-129, with the type checks of the constructors *)
Definition types_ok (noise type : option string) (solver_sde : string) : res unit :=
  if negb (opt_eqb type solver_sde) then Err ValueError
  else if negb (existsb (opt_eqb noise) all_noises) then Err ValueError else Ok tt.
Definition sde_step_r (name : string) (noise type : option string) : res (V -> K -> K -> res V) :=
  (if name =? "euler" then rbind (types_ok noise type "ito") (fun _ => Ok em_step_r)
   else if name =? "eulerHeun" then rbind (types_ok noise type "stratonovich") (fun _ => Ok heun_step_r)
   else if name =? "midpoint" then Err TypeError
   else if name =? "milstein_ito" then Ok (milstein_step_r v_ito)
   else if name =? "milstein_stratonovich" then Ok (milstein_step_r v_strat)
   else Err KeyError)%string.
End Steps.

(** _fixed_sdeint, sdeint.py lines 91-116 *)
Fixpoint sde_loop_r (step : V -> K -> K -> res V) (t_span save_at : list K)
  (n steps : nat) (x : V) (t dt : K) (sol : list V) {struct n} : res (list V) :=
  match n with
  | O => Ok sol
  | S n' =>
      rbind (step x t dt) (fun x =>
      let t := (t + dt)%N in
      let sol := if (isclose_count t save_at =? 0)%nat then sol else sol ++ [x] in
      rbind (if (steps <? length t_span - 1)%nat
             then rbind (pyget t_span (steps + 1)) (fun tn => Ok (tn - t)%N)
             else Ok dt) (fun dt =>
      sde_loop_r step t_span save_at n' (steps + 1) x t dt sol))
  end.
Definition fixed_sdeint_r (x : V) (t_span : list K) (step : V -> K -> K -> res V) (save_at : list K)
  : res (list K * list V) :=
  rbind (pyget t_span 0) (fun t0 =>
  rbind (pylast t_span) (fun _ =>
  rbind (pyget t_span 1) (fun t1 =>
  let sol := if (isclose_count t0 save_at =? 0)%nat then [] else [x] in
  rbind (sde_loop_r step t_span save_at (length t_span - 1) 1 x t0 (t1 - t0)%N sol) (fun sol =>
  match sol with [] => Err IndexError | _ => Ok (save_at, sol) end)))).

(** NeuralSDE(drift, diffusion, ...): the arguments of __init__ that matter, lines 156-173 *)
Record neural_sde : Type := MkNsde {
  ns_drift : @callable K A; ns_diffusion : @callable K A; ns_order : nat; ns_solver : string;
  ns_noise : string; ns_type : string; ns_span : option (list K); ns_sens : string;
  ns_bm : option (brownian K); ns_return_t : bool }.

(** the defaults *)
Definition default_nsde (drift diffusion : @callable K A) : neural_sde :=
  MkNsde drift diffusion 1 "euler" "diagonal" "ito" (Some [n0; n1]) "autograd" None true.

(** NeuralSDE.forward, lines 219-252, with the check of the constructor (lines 207-208) and SDEProblem.sdeint
    (problems.py lines 286-309) *)
Definition neuralsde_forward (w : nat) (m : neural_sde) (x : batch) (t_span : option (list K)) (save_at : list K)
  : res (option (list K) * list V) :=
  if negb (ns_order m =? 1) then Err NotImplementedError else
  let t_span := match t_span, ns_span m with
                | Some l, _ => l | None, Some l => l | None, None => [n0; n1] end in
  if negb (String.eqb (ns_sens m) "autograd") then Err NotImplementedError else
  let k := length x in
  rbind (sde_step_r (on_flat w k (ns_drift m)) (on_flat w k (ns_diffusion m)) (ns_bm m) (ns_solver m)
           (Some (ns_noise m)) (Some (ns_type m))) (fun step =>
  let save_at := match save_at with [] => t_span | _ => save_at end in
  rbind (fixed_sdeint_r (concat x) t_span step save_at) (fun r =>
  Ok (if ns_return_t m then Some (fst r) else None, snd r))).

(** the controls given to DataControl modules, lines 226-230 *)
Definition sde_controls (has_control : list bool) (x : batch) : list (option batch) :=
  map (fun b : bool => if b then Some (cols_from 0 x) else None) has_control.

End NeuralSde.
