(** Model of the dtypes of states and times during a solve (type promotion of torch).

    [TypedOps K]: numbers together with what they are in the code: a Python number, a tensor without axes or (an entry of) a tensor with
    axes, of some floating point dtype.  Binary operations promote as torch does: tensors with axes decide over tensors without, these
    over Python numbers; among equals the smallest dtype that holds both.  Rounding is not modelled here: the values are those
    of [K].

    [t_span[i]] has no axes, [t_span[:1]] (odeint.py lines 206 and 348) has one; this is [first_entry].  The factors of the step size
    control are tensors with one axis and dtype float32 (templates.py lines 24-26; [sync_device_dtype] moves them to the device of x
    only); this is [tensor_factors].  [init_step] returns a tensor without axes of the dtype of t0 (utils.py line 53); this
    is the conversion of M_Cast.v.  The square root is taken of means only (hairer_norm): its result has no axes.  Entries of tableaux
    have the dtype of x after [sync_device_dtype] and are always multiplied with entries of stages, so that treating them as Python
    numbers gives the same dtypes of states. *)
From Coq Require Import ZArith QArith List Bool.
From Verif Require Import Num Py Tensor M_Constants M_SolversOde M_Utils M_Interp M_Odeint M_Dtype M_Cast.
Import ListNotations.
Local Open Scope nat_scope.

(** torch.promote_types for floating point dtypes *)
Definition promote (a b : dtype) : dtype :=
  match a, b with
  | Double, _ | _, Double => Double
  | Half, Half => Half
  | Bfloat16, Bfloat16 => Bfloat16
  | _, _ => Float
  end.

Inductive kind : Type := PyNumber | NoAxes (d : dtype) | Axes (d : dtype).
Definition join (a b : kind) : kind :=
  match a, b with
  | Axes d, Axes e => Axes (promote d e)
  | Axes d, _ | _, Axes d => Axes d
  | NoAxes d, NoAxes e => NoAxes (promote d e)
  | NoAxes d, _ | _, NoAxes d => NoAxes d
  | PyNumber, PyNumber => PyNumber
  end.
(** the result of a reduction over all axes *)
Definition reduced (a : kind) : kind := match a with Axes d => NoAxes d | k => k end.

Definition TypedOps (K : NumOps) : NumOps := {|
  num := (K * kind)%type;
  nQ := fun q => (nQ q, PyNumber);
  nadd := fun a b => (nadd (fst a) (fst b), join (snd a) (snd b));
  nsub := fun a b => (nsub (fst a) (fst b), join (snd a) (snd b));
  nmul := fun a b => (nmul (fst a) (fst b), join (snd a) (snd b));
  ndiv := fun a b => (ndiv (fst a) (fst b), join (snd a) (snd b));
  nopp := fun a => (nopp (fst a), snd a);
  nabs := fun a => (nabs (fst a), snd a);
  nsqrt := fun a => (nsqrt (fst a), reduced (snd a));
  npowr := fun a b => (npowr (fst a) (fst b), join (snd a) (snd b));
  nmax := fun a b => (nmax (fst a) (fst b), join (snd a) (snd b));
  nmin := fun a b => (nmin (fst a) (fst b), join (snd a) (snd b));
  nltb := fun a b => nltb (fst a) (fst b);
  nleb := fun a b => nleb (fst a) (fst b);
  neqb := fun a b => neqb (fst a) (fst b) |}.

Section Typed.
Context {K : NumOps}.
Notation T := (TypedOps K).
Notation V := (vec T).

Definition with_kind (k : kind) (a : K) : T := (a, k).
(** tensors of dtype d: a state, the entries of t_span *)
Definition state_of (d : dtype) (l : list K) : V := map (with_kind (Axes d)) l.
Definition times_of (d : dtype) (l : list K) : list T := map (with_kind (NoAxes d)) l.

(** [t_span[:1]] *)
Definition first_entry (t : T) : T := (fst t, match snd t with NoAxes d => Axes d | k => k end).
(** [.to(t0)], [torch.tensor(.., dtype=t0.dtype)] for t0 of dtype d *)
Definition to_dtype (d : dtype) (a : T) : T := (fst a, NoAxes d).
(** templates.py lines 24-26 *)
Definition tensor_factors (s : solver T V) : solver T V :=
  let t (a : T) : T := (fst a, Axes default_dtype) in
  {| s_order := s_order s; s_fixed := s_fixed s; s_is_tsit5 := s_is_tsit5 s;
     s_min_factor := t (s_min_factor s); s_max_factor := t (s_max_factor s); s_safety := t (s_safety s); s_step := s_step s |}.

(** odeint, lines 54-91 (M_Odeint.v) with the conversions; [td] is the dtype of t_span *)
Definition odeint_typed (fuel : nat) (td : dtype) (f : T -> V -> V) (x : V) (ts : @tspan T) (s : solver T V)
  (atol rtol : T) (interp : bool) (all : bool) (save_at : list T) (semi : option nat) : M (T * V) (list T * list V) :=
  ft <- mlift (prep_time f ts) ;;
  let '(f_, t_span) := ft in
  let interp := if s_is_tsit5 s then None
                else if interp then Some (construct_4th T) else None in
  if s_fixed s then fixed_odeint f_ x t_span (s_step s) save_at
  else
    t <- mlift (pyget t_span 0) ;;
    k1 <- call f_ t x ;;
    dt <- init_step_cast (to_dtype td) f k1 x t (s_order s) atol rtol ;;
    (* _adaptive_odeint, lines 348-350, 408 *)
    t0 <- mlift (pyget t_span 0) ;;
    T <- mlift (pylast t_span) ;;
    let p := MkP f_ (tensor_factors s) T (skipn 1 t_span) atol rtol interp all semi in
    adaptive_loop fuel p (MkA (first_entry t0) dt x k1 0 [first_entry t0] [x]).

(** odeint_hybrid, lines 201-229, 323 *)
Definition odeint_hybrid_typed (fuel : nat) (td : dtype) (f : T -> V -> V) (x : V) (t_span : list T) (j_span : nat)
  (s : solver T V) (cbs : list (@callback T)) (atol rtol etol : T) (jump_first : bool)
  (semi : option nat) : M (T * V) (list T * list V) :=
  t <- mlift (pyget t_span 0) ;;
  let t := first_entry t in
  T <- mlift (pylast t_span) ;;
  let event_states := map (fun _ => false) cbs in
  xj <- (if jump_first then
           let flags := event_flags cbs t x in
           if triggered flags event_states then
             i <- mlift (first_true flags) ;;
             cb <- mlift (pyget cbs i) ;;
             mret (jump_map cb t x, 1)
           else mret (x, 0)
         else mret (x, 0)) ;;
  let '(x, jnum) := xj in
  k1 <- call f t x ;;
  dt <- init_step_cast (to_dtype td) f k1 x t (s_order s) atol rtol ;;
  hybrid_loop fuel (MkHP f (tensor_factors s) cbs T (skipn 1 t_span) atol rtol etol semi) jnum j_span
    (MkH t dt x (Some k1) 0 None [t] [x]).
End Typed.
