(** Model of the dtype of times: integer time spans in adaptive solves, and the dtype of [save_at] in fixed-step solves.

    [init_step] (utils.py lines 37-54) converts to the dtype of [t0] in three places: the constants of lines 42 and 50
    ([torch.tensor(1e-6, dtype=t0.dtype)]) and the result (line 53, [.to(t0)]).  [cast] is that conversion: the identity for
    floating point time spans (up to rounding, which is not modelled here), truncation towards zero for integer ones.
    Everything else is the code of M_Odeint.v: sums and products of integer and floating point tensors are floating point. *)
From Coq Require Import ZArith QArith List Bool.
From Verif Require Import Num Py Tensor M_Constants M_SolversOde M_Utils M_Interp M_Odeint M_Dtype.
Import ListNotations.
Local Open Scope nat_scope.

Section Cast.
Context {K : NumOps}.
Notation V := (vec K).
Variable cast : K -> K.

Definition init_step_cast (f : K -> V -> V) (f0 x0 : V) (t0 : K) (order : nat) (atol rtol : K)
  : M (K * V) K :=
  let scale := map (fun a => (atol + nabs a * rtol)%N) x0 in
  let d0 := hairer_norm (vdiv x0 scale) in
  let d1 := hairer_norm (vdiv f0 scale) in
  let h0 := if ((d0 <? nQ (1 # 100000)) || (d1 <? nQ (1 # 100000)))%N
            then cast (nQ (1 # 1000000)) else (nQ (1 # 100) * d0 / d1)%N in
  let x_new := (x0 + h0 * f0)%V in
  f_new <- call f (t0 + h0)%N x_new ;;
  let d2 := (hairer_norm (vdiv (vsub f_new f0) scale) / h0)%N in
  let h1 := if ((d1 <=? nQ (1 # 1000000000000000)) && (d2 <=? nQ (1 # 1000000000000000)))%N
            then nmax (cast (nQ (1 # 1000000))) (h0 * nQ (1 # 1000))%N
            else npowr (nQ (1 # 100) / pymax d1 d2)%N (n1 / nnat (order + 1))%N in
  mret (cast (nmin (nQ 100 * h0)%N h1)).

(** odeint, lines 54-91 *)
Definition odeint_cast (fuel : nat) (f : K -> V -> V) (x : V) (ts : @tspan K) (s : solver K V)
  (atol rtol : K) (interp : bool) (all : bool) (save_at : list K) (semi : option nat)
  : M (K * V) (list K * list V) :=
  ft <- mlift (prep_time f ts) ;;
  let '(f_, t_span) := ft in
  let interp := if s_is_tsit5 s then None
                else if interp then Some (construct_4th K) else None in
  if s_fixed s then fixed_odeint f_ x t_span (s_step s) save_at
  else
    t <- mlift (pyget t_span 0) ;;
    k1 <- call f_ t x ;;
    dt <- init_step_cast f k1 x t (s_order s) atol rtol ;;
    adaptive_odeint fuel f_ k1 x dt t_span s atol rtol interp all semi.

(** odeint_hybrid, lines 201-229, 323 *)
Definition odeint_hybrid_cast (fuel : nat) (f : K -> V -> V) (x : V) (t_span : list K) (j_span : nat)
  (s : solver K V) (cbs : list (@callback K)) (atol rtol etol : K) (jump_first : bool)
  (semi : option nat) : M (K * V) (list K * list V) :=
  t <- mlift (pyget t_span 0) ;;
  T <- mlift (pylast t_span) ;;
  let event_states := map (fun _ => false) cbs in
  xj <- (if jump_first then
           let flags := event_flags cbs t x in
           if triggered flags event_states then
             i <- mlift (first_true flags) ;;
             cb <- mlift (pyget cbs i) ;;
             mret (jump_map cb t x, 1)
           else mret (x, 0)
         else mret (x, 0)) ;;
  let '(x, jnum) := xj in
  k1 <- call f t x ;;
  dt <- init_step_cast f k1 x t (s_order s) atol rtol ;;
  hybrid_loop fuel (MkHP f s cbs T (skipn 1 t_span) atol rtol etol semi) jnum j_span
    (MkH t dt x (Some k1) 0 None [t] [x]).
End Cast.

(** Without conversion these are the functions of M_Odeint.v. *)
Lemma odeint_cast_id {K : NumOps} : @odeint_cast K (fun a => a) = @odeint K.
Proof. reflexivity. Qed.
Lemma odeint_hybrid_cast_id {K : NumOps} : @odeint_hybrid_cast K (fun a => a) = @odeint_hybrid K.
Proof. reflexivity. Qed.

(** ** The argument [save_at] of _fixed_odeint, odeint.py lines 413-424

    A tensor, or a Python list, which line 415 turns into a tensor of the default dtype (float32 for a list with a float,
    int64 for a list of integers).  [torch.isclose] raises RuntimeError for arguments of different dtypes: line 423 compares
    with the time, whose dtype is that of [t_span].  Rounding of the entries to the dtype is not modelled. *)
Inductive tdtype : Type := FloatT (d : dtype) | Int64T.
Definition tdtype_eqb (a b : tdtype) : bool :=
  match a, b with
  | FloatT Bfloat16, FloatT Bfloat16 | FloatT Half, FloatT Half | FloatT Float, FloatT Float
  | FloatT Double, FloatT Double | Int64T, Int64T => true
  | _, _ => false
  end.

Section SaveAt.
Context {K : NumOps} {X : Type}.
Inductive save_arg : Type := SaveTensor (d : tdtype) (l : list K) | SaveFloats (l : list K) | SaveInts (l : list K).
Definition save_values (s : save_arg) : list K := match s with SaveTensor _ l => l | SaveFloats l => l | SaveInts l => l end.
Definition save_dtype (s : save_arg) : tdtype :=
  match s with SaveTensor d _ => d | SaveFloats _ => FloatT default_dtype | SaveInts _ => Int64T end.

Definition fixed_odeint_save (f : K -> X -> X) (x : X) (td : tdtype) (t_span : list K) (step : @step_fun K X)
  (save_at : save_arg) : M (K * X) (list K * list X) :=
  let l := save_values save_at in
  if match l with [] => true | _ => tdtype_eqb (save_dtype save_at) td end
  then fixed_odeint f x t_span step l
  else
    if negb (forallb (fun t => (isclose_count t l =? 1)%nat) l) then mraise AssertionError else
    _ <- mlift (pyget t_span 0) ;;
    _ <- mlift (pylast t_span) ;;
    _ <- mlift (pyget t_span 1) ;;
    mraise RuntimeError.
End SaveAt.
Arguments save_arg : clear implicits.

(** odeint with a fixed-step solver *)
Definition odeint_save {K : NumOps} (f : K -> vec K -> vec K) (x : vec K) (td : tdtype) (ts : @tspan K) (s : solver K (vec K))
  (save_at : save_arg K) : M (K * vec K) (list K * list (vec K)) :=
  ft <- mlift (prep_time f ts) ;;
  let '(f_, t_span) := ft in
  fixed_odeint_save f_ x td t_span (s_step s) save_at.
