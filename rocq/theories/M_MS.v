(** Model of the multiple shooting solvers: torchdyn/numerics/solvers/ode.py lines 222-317 and
    odeint_mshooting, torchdyn/numerics/odeint.py lines 153-180.

    A shooting tensor B is the list of its rows (one state per time of t_span).
    Simplification: a solve of the stacked rows [odeint_func(f, B[i-1:], ...)] is modelled as one
    solve per row; this is what torch computes when the vector field treats the leading dimension as
    a batch dimension (the solver steps themselves are elementwise). *)
From Coq Require Import ZArith QArith List Bool.
From Verif Require Import Num Py Tensor M_SolversOde M_Utils M_Interp M_Odeint.
Import ListNotations.
Local Open Scope nat_scope.

Section MS.
Context {K : NumOps}.
Notation V := (vec K).

(** torch.linspace(0, dt, k) *)
Definition linspace0 (dt : K) (k : nat) : list K :=
  match k with
  | 1 => [n0]
  | _ => map (fun j => (dt * nnat j / nnat (k - 1))%N) (seq 0 k)
  end.

(** odeint_func(f, b, sub_t_span, solver)[1][-1] for one row b; odeint_func is _fixed_odeint *)
Definition ms_flow (f : K -> V -> V) (s : solver K V) (sub : list K) (b : V) : res V :=
  rbind (snd (fixed_odeint f b sub (s_step s) [])) (fun r => pylast (snd r)).

Fixpoint traverse {A B} (g : A -> res B) (l : list A) : res (list B) :=
  match l with
  | [] => Ok []
  | a :: l' => rbind (g a) (fun b => rbind (traverse g l') (fun bs => Ok (b :: bs)))
  end.

(** B_out[m] = v on a tensor of [len] rows *)
Definition in_range (m len : nat) : res unit := if m <? len then Ok tt else Err IndexError.

(** ** MSZero.root_solve, lines 233-249 *)

(** the for loop over m, lines 244-247; [k] iterations left, returns the rows written *)
Fixpoint zero_inner (coarse : V -> res V) (Bc Bf : list V) (len i : nat) (k m : nat) (b : V) : res (list V) :=
  match k with
  | O => Ok []
  | S k' =>
      rbind (coarse b) (fun b =>
      rbind (pyget Bc (m - i)) (fun c =>
      rbind (pyget Bf (m - i)) (fun fi =>
      let b := ((b - c) + fi)%V in
      rbind (in_range m len) (fun _ =>
      rbind (zero_inner coarse Bc Bf len i k' (m + 1) b) (fun rows => Ok (b :: rows))))))
  end.

(** zeros_like(B), then B_out[:i] = B[:i], then rows i, i+1, ... *)
Definition ms_out (B : list V) (i : nat) (rows : list V) : list V :=
  firstn i B ++ rows ++ map (fun b => vzeros (length b)) (skipn (i + length rows) B).

(** one pass of the while loop, lines 238-248, after i += 1 *)
Definition zero_sweep (coarse fine : V -> res V) (n_sub i : nat) (B : list V) : res (list V) :=
  rbind (traverse coarse (skipn (i - 1) B)) (fun Bc =>
  rbind (traverse fine (skipn (i - 1) B)) (fun Bf =>
  rbind (pyget B (i - 1)) (fun b =>
  rbind (zero_inner coarse Bc Bf (length B) i (n_sub - i) i b) (fun rows =>
  Ok (ms_out B i rows))))).

(** [k] passes left, the next one is pass number i *)
Fixpoint sweeps (sweep : nat -> list V -> res (list V)) (k i : nat) (B : list V) : res (list V) :=
  match k with
  | O => Ok B
  | S k' => rbind (sweep i B) (fun B => sweeps sweep k' (i + 1) B)
  end.

(** [while i <= maxiter]: maxiter + 1 passes (none if maxiter is negative) *)
Definition mszero_root_solve (coarse fine : solver K V) (f : K -> V -> V) (t_span : list K)
  (B : list V) (fine_steps : nat) (maxiter : Z) : res (list V) :=
  rbind (pyget t_span 1) (fun t1 =>
  rbind (pyget t_span 0) (fun t0 =>
  let sub := linspace0 (t1 - t0)%N fine_steps in
  sweeps (zero_sweep (ms_flow f coarse sub) (ms_flow f fine sub) (length t_span))
    (Z.to_nat (maxiter + 1)) 1 B)).

(** ** MSBackward.root_solve, lines 262-281

    [vjp b v]: the vector-Jacobian product (v^T J) of the fine flow at row b, as torch.autograd.grad
    computes it.  B_fine[m-1] is the fine flow of row B[i-1+m-1]; its gradient with respect to
    row m-1 of B is [vjp] if that is the same row (i = 1) and zero otherwise. *)
Fixpoint back_inner (vjp : V -> V -> V) (B Bf : list V) (len i : nat) (k m : nat) (b : V) : res (list V) :=
  match k with
  | O => Ok []
  | S k' =>
      rbind (pyget Bf (m - 1)) (fun fi =>
      rbind (pyget B (m - 1)) (fun old =>
      let J_blk := if i =? 1 then vjp old (b - old)%V else vzeros (length old) in
      let b := (fi + J_blk)%V in
      rbind (in_range m len) (fun _ =>
      rbind (back_inner vjp B Bf len i k' (m + 1) b) (fun rows => Ok (b :: rows)))))
  end.

Definition back_sweep (fine : V -> res V) (vjp : V -> V -> V) (n_sub i : nat) (B : list V) : res (list V) :=
  rbind (traverse fine (skipn (i - 1) B)) (fun Bf =>
  rbind (pyget B (i - 1)) (fun b =>
  rbind (back_inner vjp B Bf (length B) i (n_sub - i) i b) (fun rows =>
  Ok (ms_out B i rows)))).

Definition msbackward_root_solve (fine : solver K V) (vjp : list K -> V -> V -> V) (f : K -> V -> V) (t_span : list K)
  (B : list V) (fine_steps : nat) (maxiter : Z) : res (list V) :=
  rbind (pyget t_span 1) (fun t1 =>
  rbind (pyget t_span 0) (fun t0 =>
  let sub := linspace0 (t1 - t0)%N fine_steps in
  sweeps (back_sweep (ms_flow f fine sub) (vjp sub) (length t_span)) (Z.to_nat (maxiter + 1)) 1 B)).

(** ** ParallelImplicitEuler._residual, lines 295-300; rows of B[1:], so f is called at time 0.
    The minimisation (LBFGS, lines 303-317) is not modelled.
    torch broadcasting of [B[2:] - B[1:-1] - dt[1:] * F[1:]] needs len(B) = len(t_span). *)
Definition pie_residual (f : K -> V -> V) (x : V) (B : list V) (t_span : list K) : res K :=
  let dt := map2 nsub (skipn 1 t_span) (removelast t_span) in
  let F := map (f n0) (skipn 1 B) in
  let sq d := vsum (vmul d d) in
  let rest := fold_left nadd
    (map sq (map2 vsub (map2 vsub (skipn 2 B) (removelast (skipn 1 B)))
                       (map2 vscale (skipn 1 dt) (skipn 1 F)))) n0 in
  rbind (pyget B 1) (fun b1 =>
  rbind (pyget dt 0) (fun d0 =>
  rbind (pyget F 0) (fun F0 =>
  Ok (rest + sq (b1 - x - d0 * F0)%V)%N))).

(** ** odeint_mshooting, odeint.py lines 153-180, B0 = None or given *)
Definition ms_first_guess (fuel : nat) (f : K -> V -> V) (x : V) (t_span : list K) (coarse : solver K V)
  (B0 : option (list V)) : res (list V) :=
  match B0 with
  | Some B => Ok B
  | None => rmap snd (snd (odeint fuel f x (TTensor t_span) coarse (nQ (1 # 1000)) (nQ (1 # 1000)) false false [] None))
  end.

Definition odeint_mszero (fuel : nat) (f : K -> V -> V) (x : V) (t_span : list K) (coarse fine : solver K V)
  (B0 : option (list V)) (fine_steps : nat) (maxiter : Z) : res (list K * list V) :=
  rbind (ms_first_guess fuel f x t_span coarse B0) (fun B =>
  rbind (mszero_root_solve coarse fine f t_span B fine_steps maxiter) (fun B => Ok (t_span, B))).

Definition odeint_msbackward (fuel : nat) (f : K -> V -> V) (x : V) (t_span : list K) (coarse fine : solver K V)
  (vjp : list K -> V -> V -> V)
  (B0 : option (list V)) (fine_steps : nat) (maxiter : Z) : res (list K * list V) :=
  rbind (ms_first_guess fuel f x t_span coarse B0) (fun B =>
  rbind (msbackward_root_solve fine vjp f t_span B fine_steps maxiter) (fun B => Ok (t_span, B))).

End MS.
