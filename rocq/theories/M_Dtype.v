(** Model of the dtype of solver coefficients: _constants.py (the [dtype] argument of the constructors of
    tableaux), ode.py lines 89-95, 138-143, 160-165 (solver constructors), templates.py lines 22-42
    (factors of the step size, [sync_device_dtype]), numerics/solvers/ode.py [str_to_solver] and its callers
    core/problems.py lines 56-61, templates.py lines 72-73, numerics/odeint.py line 63.

    A tensor entry of a floating point dtype is modelled by its rational value.  Only the dtype of the
    coefficients is modelled here; states and times are those of the number system [K].  Exponent ranges are
    not modelled: all coefficients and their differences are normal numbers of the dtypes considered. *)
From Coq Require Import ZArith QArith String List Bool.
From Verif Require Import Num Py Tensor M_Constants M_SolversOde.
Import ListNotations.
Local Open Scope Z_scope.

(** ** Rounding to [p] significant bits, to nearest, ties to even *)

(** the integer nearest to [n / d], [d > 0] *)
Definition nearest_even (n d : Z) : Z :=
  let q := n / d in
  match 2 * (n mod d) ?= d with
  | Lt => q
  | Gt => q + 1
  | Eq => if Z.even q then q else q + 1
  end.

(** [n * 2^(-e) / d] as a fraction *)
Definition scaled (n d e : Z) : Z * Z := (n * 2 ^ Z.max 0 (- e), d * 2 ^ Z.max 0 e).

(** exponent [e] with [2^(p-1) <= |n/d| 2^(-e) < 2^p] *)
Definition exponent (p n d : Z) : Z :=
  let e := Z.log2 (Z.abs n) - Z.log2 d - p in
  let '(a, b) := scaled (Z.abs n) d e in
  if 2 ^ p * b <=? a then e + 1 else e.

Definition round_to (p : Z) (q : Q) : Q :=
  let n := Qnum q in let d := Zpos (Qden q) in
  if n =? 0 then 0%Q else
  let e := exponent p n d in
  let '(a, b) := scaled n d e in
  let m := nearest_even a b in
  Qred (Qmake (m * 2 ^ Z.max 0 e) (Z.to_pos (2 ^ Z.max 0 (- e)))).

(** ** dtypes *)
Inductive dtype : Type := Bfloat16 | Half | Float | Double.
Definition bits (d : dtype) : Z := match d with Bfloat16 => 8 | Half => 11 | Float => 24 | Double => 53 end.

(** [torch.tensor(l, dtype=d)]: the literals and quotients of the source are Python floats (doubles) *)
Definition literal (d : dtype) (q : Q) : Q := round_to (bits d) (round_to 53 q).

(** Enough of the arithmetic of dtype [d] to build a tableau: literals and (line 46, 112) a difference *)
Definition TabOps (d : dtype) : NumOps := {|
  num := Q; nQ := literal d;
  nadd := fun a b => round_to (bits d) (a + b); nsub := fun a b => round_to (bits d) (a - b);
  nmul := fun a b => round_to (bits d) (a * b); ndiv := fun a b => round_to (bits d) (a / b);
  nopp := Qopp; nabs := Qabs.Qabs; nsqrt := fun a => a; npowr := fun a _ => a;
  nmax := fun a b => if Qle_bool a b then b else a; nmin := fun a b => if Qle_bool a b then a else b;
  nltb := fun a b => negb (Qle_bool b a); nleb := Qle_bool; neqb := Qeq_bool |}.

Definition qtableau : Type := (list Q * list (list Q) * list Q * list Q)%type.
Definition values {d : dtype} (t : tableau (TabOps d)) : qtableau := (tc t, ta t, tb t, te t).

(** Solvers with a tableau.  The object holds its tableau, which [sync_device_dtype] replaces. *)
Inductive tabled : Type := Rk4 | Dopri5 | Tsit5.

(** RungeKutta4(dtype), DormandPrince45(dtype), Tsitouras45(dtype) *)
Definition new_tableau (n : tabled) (d : dtype) : qtableau :=
  match n with
  | Rk4 => values (construct_rk4 (TabOps d))
  | Dopri5 => values (construct_dopri5 (TabOps d))
  | Tsit5 => values (construct_tsit5 (TabOps d))
  end.

(** DiffEqSolver.sync_device_dtype, templates.py lines 30-36: [c.to(x)] and so on *)
Definition sync (d : dtype) (t : qtableau) : qtableau :=
  let '(c, a, b, e) := t in
  let to := map (round_to (bits d)) in
  (to c, map to a, to b, to e).

(** [str_to_solver(name)]: the default of the argument [dtype] is torch.float32 (ode.py) *)
Definition default_dtype : dtype := Float.

(** ** Solver objects over [K] *)
Section Over.
Context (K : NumOps).

Definition over (t : qtableau) : tableau K :=
  let '(c, a, b, e) := t in {| tc := map nQ c; ta := map (map nQ) a; tb := map nQ b; te := map nQ e |}.

(** RungeKutta4.step, ode.py lines 97-104, with the tableau of the object ([M_SolversOde.rk4_step] is the case of
    the exact tableau) *)
Definition rk4_tab_step (tab : tableau K) : @step_fun K (vec K) := fun f x t dt k1 =>
  let c := tget (tc tab) in
  let a := aget (ta tab) in
  let b := tget (tb tab) in
  k1 <- first_stage f x t k1 ;;
  k2 <- call f (t + c 0%nat * dt)%N (x + dt * (a 0%nat 0%nat * k1))%V ;;
  k3 <- call f (t + c 1%nat * dt)%N (x + dt * (a 1%nat 0%nat * k1 + a 1%nat 1%nat * k2))%V ;;
  k4 <- call f (t + c 2%nat * dt)%N (x + dt * (a 2%nat 0%nat * k1 + a 2%nat 1%nat * k2 + a 2%nat 2%nat * k3))%V ;;
  mret (Ret3 None
    (x + dt * (b 0%nat * k1 + b 1%nat * k2 + b 2%nat * k3 + b 3%nat * k4))%V None).

(** The object: orders and stepping classes of ode.py; the three factors are float32 tensors whatever the dtype
    (templates.py lines 24-26) *)
Definition solver_object (n : tabled) (t : qtableau) : solver K (vec K) :=
  let tab := over t in
  {| s_order := match n with Rk4 => 4 | Dopri5 | Tsit5 => 5 end;
     s_fixed := match n with Rk4 => true | _ => false end;
     s_is_tsit5 := match n with Tsit5 => true | _ => false end;
     s_min_factor := nQ (literal Float (1 # 5)); s_max_factor := nQ (literal Float 10);
     s_safety := nQ (literal Float (9 # 10));
     s_step := match n with Rk4 => rk4_tab_step tab | _ => erk7_step tab end |}.

(** [odeint(f, x, t_span, name)]: line 63 of odeint.py builds the solver with [x.dtype], line 64 synchronises it *)
Definition named_solver (n : tabled) (xd : dtype) : solver K (vec K) :=
  solver_object n (sync xd (new_tableau n xd)).

(** [ODEProblem(f, name)] (problems.py lines 56-57) and NeuralODE: built with the default dtype before any data is
    seen, synchronised by odeint when it is called.  [MultipleShootingDiffeqSolver] (templates.py lines 72-73) does
    the same with its fine method. *)
Definition problem_solver (n : tabled) (xd : dtype) : solver K (vec K) :=
  solver_object n (sync xd (new_tableau n default_dtype)).

(** The object of a problem after solves with data of the dtypes [used], in that order, at data of dtype [xd] *)
Definition used_solver (n : tabled) (used : list dtype) (xd : dtype) : solver K (vec K) :=
  solver_object n (sync xd (fold_left (fun t d => sync d t) used (new_tableau n default_dtype))).

End Over.
