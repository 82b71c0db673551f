(** Model of torchdyn/numerics/sensitivity.py: the backward passes of the adjoint methods
    (problem_type 'standard').

    Tensors of states are flat vectors.  The vector-Jacobian products that autograd computes are
    parameters: [af_vjp_x t x w] is w^T df/dx, [af_vjp_t] is w^T df/dt (None if f does not use t) and
    [af_vjp_p] has one entry per parameter tensor of the vector field (None if it is not used).
    Simplification: f is assumed to use x (otherwise grad returns None and dλ.flatten() raises). *)
From Coq Require Import ZArith QArith List Bool.
From Verif Require Import Num Py Tensor M_SolversOde M_Utils M_Interp M_Odeint.
Import ListNotations.
Local Open Scope nat_scope.

Section Sens.
Context {K : NumOps}.
Notation V := (vec K).

Record adj_field : Type := MkAF {
  af_f : K -> V -> V;
  af_vjp_x : K -> V -> V -> V;
  af_vjp_t : K -> V -> V -> option K;
  af_vjp_p : K -> V -> V -> list (option V);
  af_dg : option (K -> V -> V) }.           (* gradient of integral_loss(t, x).sum() wrt x *)

(** dμ, lines 71-72 and 145-146: an unused parameter contributes torch.zeros(1) *)
Definition cat_params (l : list (option V)) : V := concat (map (fun o => match o with Some v => v | None => [n0] end) l).

(** dλ, lines 64-69 *)
Definition dlam (F : adj_field) (t : K) (x lam : V) : V :=
  let d := af_vjp_x F t x (vopp lam) in
  match af_dg F with None => d | Some dg => vsub d (dg t x) end.

(** ** Adjoint, lines 32-100 *)

(** adjoint_dynamics, lines 57-75.  A = x ++ λ ++ μ ++ [λt]; x and λ have n elements *)
Definition adjoint_dynamics (F : adj_field) (n : nat) (t : K) (A : V) : V :=
  let x := firstn n A in
  let lam := firstn n (skipn n A) in
  af_f F t x ++ dlam F t x lam ++ cat_params (af_vjp_p F t x (vopp lam))
    ++ [match af_vjp_t F t x (vopp lam) with Some d => d | None => n0 end].

(** one pass of the loop of lines 81-93, for the interval between [t_prev] and [t_i];
    [g_prev], [gt_prev]: grad_output[-1][i-1] and grad_output[0][i-1].  A field whose value has another
    size than A makes the first solver step raise. *)
Definition adj_interval (fuel : nat) (F : adj_field) (n nmu : nat) (s : solver K V) (atol rtol : K)
  (t_prev t_i : K) (g_prev : V) (gt_prev : K) (A : V) : res (V * K) :=
  let dyn := adjoint_dynamics F n in
  if negb (length (dyn t_i A) =? length A) then Err RuntimeError else
  rbind (snd (odeint fuel dyn A (TTensor [t_i; t_prev]) s atol rtol false false [] (Some (n + n)))) (fun r =>
  rbind (pylast (snd r)) (fun A =>
  let xt := firstn n A in
  let lam := firstn n (skipn n A) in
  let dL := vdot lam (af_f F t_i xt) in
  let mu := pyslice (Some (- Z.of_nat nmu - 1)%Z) (Some (-1)%Z) A in
  rbind (pylast A) (fun lt =>
  Ok (xt ++ vadd lam g_prev ++ mu ++ [(lt - gt_prev)%N], dL)))).

(** the loop from i = len(t_sol) - 1 down to 1; the lists are reversed, their heads belong to i *)
Fixpoint adj_loop (fuel : nat) (F : adj_field) (n nmu : nat) (s : solver K V) (atol rtol : K)
  (rts : list K) (rgs : list V) (rgts : list K) (A : V) (dL : K) : res (V * K) :=
  match rts, rgs, rgts with
  | t_i :: ((t_prev :: _) as rts'), _ :: ((g_prev :: _) as rgs'), _ :: ((gt_prev :: _) as rgts') =>
      rbind (adj_interval fuel F n nmu s atol rtol t_prev t_i g_prev gt_prev A) (fun '(A, dL) =>
      adj_loop fuel F n nmu s atol rtol rts' rgs' rgts' A dL)
  | _, _, _ => Ok (A, dL)
  end.

Record adj_out : Type := MkAdj { ao_params : V; ao_x : V; ao_tspan : V }.

(** backward, lines 44-98; [gt], [gx]: the gradients of the loss with respect to t_sol and sol *)
Definition adjoint_backward (fuel : nat) (F : adj_field) (nmu : nat) (s : solver K V) (atol rtol : K)
  (t_sol : list K) (sol : list V) (gt : list K) (gx : list V) : res adj_out :=
  rbind (pylast sol) (fun xT =>
  rbind (pylast gx) (fun lamT =>
  rbind (pylast t_sol) (fun tT =>
  let n := length xT in
  let ltT := vdot lamT (af_f F tT xT) in
  let A := xT ++ lamT ++ vzeros nmu ++ [ltT] in
  rbind (adj_loop fuel F n nmu s atol rtol (rev t_sol) (rev gx) (rev gt) A ltT) (fun '(A, dL0) =>
  let lam := firstn n (skipn n A) in
  let mu := pyslice (Some (- Z.of_nat nmu - 1)%Z) (Some (-1)%Z) A in
  Ok (MkAdj mu lam [dL0; ltT]))))).

(** ** Interpolated adjoint, lines 104-161; [path] is the spline through the stored solution *)

(** adjoint_dynamics, lines 130-147 *)
Definition interp_dynamics (F : adj_field) (path : K -> V) (n : nat) (t : K) (A : V) : V :=
  let x := path t in
  let lam := firstn n A in
  dlam F t x lam ++ cat_params (af_vjp_p F t x (vopp lam)).

(** one pass of the loop of lines 151-155 *)
Definition interp_interval (fuel : nat) (F : adj_field) (path : K -> V) (n nmu : nat) (s : solver K V) (atol rtol : K)
  (t_prev t_i : K) (g_prev : V) (A : V) : res V :=
  let dyn := interp_dynamics F path n in
  if negb (length (dyn t_i A) =? length A) then Err RuntimeError else
  rbind (snd (odeint fuel dyn A (TTensor [t_i; t_prev]) s atol rtol false false [] None)) (fun r =>
  rbind (pylast (snd r)) (fun A =>
  Ok (vadd (firstn n A) g_prev ++ pyslice (Some (- Z.of_nat nmu)%Z) None A))).

(** i runs over the indices of t_span; [k] = i *)
Fixpoint interp_loop_adj (fuel : nat) (F : adj_field) (path : K -> V) (n nmu : nat) (s : solver K V) (atol rtol : K)
  (t_span : list K) (gx : list V) (k : nat) (A : V) : res V :=
  match k with
  | O => Ok A
  | S j =>
      rbind (pyget t_span k) (fun t_i => rbind (pyget t_span j) (fun t_prev => rbind (pyget gx j) (fun g =>
      rbind (interp_interval fuel F path n nmu s atol rtol t_prev t_i g A) (fun A =>
      interp_loop_adj fuel F path n nmu s atol rtol t_span gx j A))))
  end.

(** backward, lines 116-159; it uses the solver and the tolerances of the forward pass *)
Definition interp_adjoint_backward (fuel : nat) (F : adj_field) (path : K -> V) (nmu : nat) (s : solver K V) (atol rtol : K)
  (t_span : list K) (gx : list V) : res (V * V) :=
  rbind (pylast gx) (fun lamT =>
  let n := length lamT in
  rbind (interp_loop_adj fuel F path n nmu s atol rtol t_span gx (length t_span - 1) (lamT ++ vzeros nmu)) (fun A =>
  Ok (pyslice (Some (- Z.of_nat nmu)%Z) None A, firstn n A))).

End Sens.
