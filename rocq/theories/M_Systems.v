(** Model of torchdyn/numerics/systems.py and of the classes of torchdyn/numerics/solvers/templates.py
    that check or store their arguments.

    The vector fields act on the last dimension: a state is a batch (list of rows), each row is handled
    alone.  sin, cos, tanh are parameters; a network is the composition of its layers. *)
From Coq Require Import ZArith QArith String List Bool.
From Verif Require Import Num Py Tensor M_Core M_Nn.
Import ListNotations.
Local Open Scope nat_scope.
Local Notation length := List.length.

Section Systems.
Context {K : NumOps} {A : Type}.
Context (ncos nsin ntanh : K -> K).
Notation V := (vec K).
Notation batch := (list (vec K)).

(** elementwise operation with broadcasting of the last dimension *)
Definition bop (op : K -> K -> K) (a b : V) : res V :=
  if length a =? length b then Ok (map2 op a b)
  else match a, b with
       | [u], _ => Ok (map (op u) b)
       | _, [v] => Ok (map (fun u => op u v) a)
       | _, _ => Err RuntimeError
       end.

(** Lorenz.forward, lines 24-29: x[..., :1], x[..., 1:2], x[..., 2:] *)
Definition lorenz_row (x : V) : res V :=
  let x1 := firstn 1 x in
  let x2 := firstn 1 (skipn 1 x) in
  let x3 := skipn 2 x in
  rbind (bop nsub x2 x1) (fun d =>
  let dx1 := map (fun u => (nQ 10 * u)%N) d in
  rbind (bop nmul x1 (map (fun u => (nQ 28 - u)%N) x3)) (fun a =>
  rbind (bop nsub a x2) (fun dx2 =>
  rbind (bop nmul x1 x2) (fun b =>
  rbind (bop nsub b (map (fun u => (nQ 8 / nQ 3 * u)%N) x3)) (fun dx3 =>
  Ok (dx1 ++ dx2 ++ dx3)))))).

(** VanDerPol.forward, lines 38-41 *)
Definition vdp_row (alpha : K) (x : V) : res V :=
  let x1 := firstn 1 x in
  let x2 := firstn 1 (skipn 1 x) in
  rbind (bop nmul (map (fun u => (alpha * (n1 - u * u))%N) x1) x2) (fun a =>
  rbind (bop nsub a x1) (fun d => Ok (x2 ++ d))).

(** ODEProblem2 and ODEProblem3, lines 48-57 *)
Definition problem2_row (z : V) : res V := Ok (map (fun u => (nhalf * u)%N) z).
Definition problem3_row (z : V) : res V := Ok (map (fun u => (- nQ (1 # 10) * u)%N) z).

(** ODEProblem4.forward (Rabinovich-Fabrikant), lines 66-71: z[..., :1], z[..., 1:2], z[..., -1:] *)
Definition problem4_row (z : V) : res V :=
  let x1 := firstn 1 z in
  let x2 := firstn 1 (skipn 1 z) in
  let x3 := skipn (length z - 1) z in
  rbind (bop nadd (map (fun u => (u - n1)%N) x3) (map (fun u => (u * u)%N) x1)) (fun a =>
  rbind (bop nmul x2 a) (fun b =>
  rbind (bop nadd b (map (fun u => (nQ (87 # 100) * u)%N) x1)) (fun dx1 =>
  rbind (bop nsub (map (fun u => (nQ 3 * u + n1)%N) x3) (map (fun u => (u * u)%N) x1)) (fun c =>
  rbind (bop nmul x1 c) (fun d =>
  rbind (bop nadd d (map (fun u => (nQ (87 # 100) * u)%N) x2)) (fun dx2 =>
  rbind (bop nmul x1 x2) (fun e =>
  rbind (bop nmul (map (fun u => (nQ (-2) * u)%N) x3) (map (fun u => (nQ (11 # 10) + u)%N) e)) (fun dx3 =>
  Ok (dx1 ++ dx2 ++ dx3))))))))).

(** SineSystem.forward, lines 78-80 *)
Definition sine_row (s : K) (z : V) : res V := Ok (map (fun _ => nsin (s * n1)%N) z).

(** nn.Linear: weight rows W, bias b *)
Definition linear_row (W : list V) (b : V) (x : V) : V := map2 (fun r c => (vdot r x + c)%N) W b.

(** LTISystem.forward, lines 90-91 *)
Definition lti_row (W : list V) (b : V) (x : V) : res V := Ok (linear_row W b x).

(** FourierSystem.forward, lines 117-126 (StiffFourierSystem, lines 154-163, is the same code with more
    harmonics).  A, phi, w have the shape (dim, n_harmonics, 2): entry i, k, c. *)
Definition tensor3 : Type := nat -> nat -> nat -> K.
Definition fourier_value (A phi w : tensor3) (dim nh : nat) (s : K) : V :=
  map (fun i => vsum (map (fun k =>
    (A i k 0 * ncos (w i k 0 * s + phi i k 0) + A i k 1 * ncos (w i k 1 * s + phi i k 1))%N) (seq 0 nh))) (seq 0 dim).
Definition fourier_scalar (A phi w : tensor3) (dim nh : nat) (s : K) (x : batch) : batch := [fourier_value A phi w dim nh s].
Definition fourier_vector (A phi w : tensor3) (dim nh : nat) (s : V) (x : batch) : res batch :=
  match s with [] => Err RuntimeError | _ => Ok (concat (map (fun s_ => [fourier_value A phi w dim nh s_]) s)) end.

(** CoupledFourierSystem.forward, lines 192-203 *)
Definition coupled_scalar (W : list V) (b : V) (A phi w : tensor3) (dim nh : nat) (s : K) (x : batch) : batch :=
  map (linear_row W b) [fourier_value A phi w dim nh s].
Definition coupled_vector (W : list V) (b : V) (A phi w : tensor3) (dim nh : nat) (s : V) (x : batch) : res batch :=
  match s with
  | [] => Err RuntimeError
  | _ => let cat := concat (map (fun s_ => [[fourier_value A phi w dim nh s_]]) s) in    (* shape (len s, 1, dim) *)
         Ok (map (fun m => nth 0 (map (linear_row W b) m) []) cat)
  end.

(** MatMulSystem.forward, lines 213-222 and MatMulBoundedSystem.forward, lines 230-240: linear layers
    followed by tanh, except for the last one of MatMulSystem *)
Definition tanh_layer (l : list V * V) (x : V) : V := map ntanh (linear_row (fst l) (snd l) x).
Definition matmul_row (hidden : list (list V * V)) (last : list V * V) (x : V) : res V :=
  Ok (linear_row (fst last) (snd last) (fold_left (fun y l => tanh_layer l y) hidden x)).
Definition matmul_bounded_row (hidden : list (list V * V)) (last : list V * V) (x : V) : res V :=
  Ok (tanh_layer last (fold_left (fun y l => tanh_layer l y) hidden x)).

(** ** The modules as callables: forward(self, t, x, **kwargs) or forward(self, s, z) *)
Definition state_of (p : string) (env : list (string * @pyval K A)) : res batch :=
  match find (fun e => String.eqb (fst e) p) env with Some (_, VState x) => Ok x | _ => Err TypeError end.
Definition time_of (p : string) (env : list (string * @pyval K A)) : res K :=
  match find (fun e => String.eqb (fst e) p) env with Some (_, VTime t) => Ok t | _ => Err TypeError end.

Definition sys_t (row : V -> res V) : @callable K A :=
  MkCall true (Some (MkSig ["t"; "x"] 0 false true)%string) (fun _ env => rbind (state_of "x" env) (mapr row)).
Definition sys_s (st : string) (row : K -> V -> res V) : @callable K A :=
  MkCall true (Some (MkSig ["s"%string; st] 0 false false)) (fun _ env =>
    rbind (time_of "s" env) (fun s => rbind (state_of st env) (mapr (row s)))).

Definition Lorenz := sys_t lorenz_row.
Definition VanDerPol (alpha : K) := sys_t (vdp_row alpha).
Definition ODEProblem2 := sys_s "z" (fun _ => problem2_row).
Definition ODEProblem3 := sys_s "z" (fun _ => problem3_row).
Definition ODEProblem4 := sys_s "z" (fun _ => problem4_row).
Definition SineSystem := sys_s "z" sine_row.
Definition LTISystem W b := sys_s "x" (fun _ => lti_row W b).
Definition MatMulSystem hidden last := sys_s "x" (fun _ => matmul_row hidden last).
Definition MatMulBoundedSystem hidden last := sys_s "x" (fun _ => matmul_bounded_row hidden last).
Definition FourierSystem (a phi w : tensor3) (dim nh : nat) : @callable K A :=
  MkCall true (Some (MkSig ["s"; "x"] 0 false false)%string) (fun _ env =>
    rbind (time_of "s" env) (fun s => rbind (state_of "x" env) (fun x => Ok (fourier_scalar a phi w dim nh s x)))).
Definition CoupledFourierSystem W b (a phi w : tensor3) (dim nh : nat) : @callable K A :=
  MkCall true (Some (MkSig ["s"; "x"] 0 false false)%string) (fun _ env =>
    rbind (time_of "s" env) (fun s => rbind (state_of "x" env) (fun x => Ok (coupled_scalar W b a phi w dim nh s x)))).

End Systems.

(** The networks built by the constructors of MatMulSystem (lines 213-219) and MatMulBoundedSystem
    (lines 230-237), as the flattened list of their layers; the arguments activation and layers are not used *)
Inductive layer : Type := Lin (n m : nat) | Act (name : string).
Definition matmul_net (dim : nat) (activation : string) (layers hdim : nat) : list layer :=
  [Lin dim hdim; Act "Tanh"] ++ concat (map (fun _ => [Lin hdim hdim; Act "Tanh"]) (seq 0 4)) ++ [Lin hdim dim].
Definition matmul_bounded_net (dim : nat) (activation : string) (layers hdim : nat) : list layer :=
  [Lin dim hdim; Act "Tanh"] ++ concat (map (fun _ => [Lin hdim hdim; Act "Tanh"]) (seq 0 4)) ++ [Lin hdim dim; Act "Tanh"].

(** ** templates.py *)

(** super(cls, obj).__init__: obj must be an instance of cls or a subclass of it; classes are given by
    their ancestors (method resolution order, the class itself first) *)
Inductive super_arg : Type := AnInstance (mro : list string) | AClass (mro : list string).
Definition super_call (cls : string) (obj : super_arg) : res unit :=
  match obj with
  | AnInstance mro | AClass mro => if mem cls mro then Ok tt else Err TypeError
  end.

(** DiffEqSolver, lines 12-28, and the templates BaseExplicit (46-51) and BaseImplicit (55-60): their
    __init__ calls super(BaseExplicit, DiffEqSolver).__init__ with the class DiffEqSolver, not self *)
Definition diffeqsolver_mro : list string := ["DiffEqSolver"; "Module"; "object"]%string.
Definition new_diffeqsolver (stepping_class : string) : res string := Ok stepping_class.
Definition new_base (cls : string) (stepping_class : string) : res string :=
  rbind (super_call cls (AClass diffeqsolver_mro)) (fun _ =>
  rbind (new_diffeqsolver stepping_class) (fun sc =>
  if mem sc ["fixed"; "adaptive"]%string then Ok sc else Err AssertionError)).

(** MultipleShootingDiffeqSolver.__init__, lines 67-73, and the first use of the two methods in
    sync_device_dtype, lines 75-79: attributes are stored for strings only *)
Inductive method_arg (S : Type) : Type := MStr (name : string) | MModule (s : S).
Arguments MStr {S}. Arguments MModule {S}.
Definition stored_method {S} (lookup : string -> res S) (m : method_arg S) : res (option S) :=
  match m with MStr n => rmap Some (lookup n) | MModule _ => Ok None end.
Definition use_method {S} (m : option S) : res S := match m with Some s => Ok s | None => Err AttributeError end.
Definition ms_methods {S} (lookup : string -> res S) (coarse fine : method_arg S) : res (S * S) :=
  rbind (stored_method lookup coarse) (fun c =>
  rbind (stored_method lookup fine) (fun f =>
  rbind (use_method c) (fun c => rbind (use_method f) (fun f => Ok (c, f))))).
