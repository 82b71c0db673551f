(** Model of torchdyn/core: utils.py, defunc.py, problems.py, neuralde.py.

    Python callables carry their signature; calling one binds the arguments as Python does.  A state
    is a batch, the list of its rows. *)
From Coq Require Import ZArith QArith String List Bool.
From Verif Require Import Num Py Tensor M_SolversOde M_Utils M_Interp M_Odeint M_MS.
Import ListNotations.
Local Open Scope nat_scope.
Notation length := List.length.

(** ** Calls *)

(** positional-or-keyword parameters in order (without self), how many of the last ones have a default,
    and the presence of a starred and a double-starred parameter *)
Record signature : Type := MkSig { sg_params : list string; sg_ndef : nat; sg_star : bool; sg_starstar : bool }.

Definition mem (s : string) (l : list string) : bool := existsb (String.eqb s) l.

(** Binding of the arguments of a call: the environment of the parameters that got a value *)
Definition bind_args {V} (sg : signature) (pos : list V) (kw : list (string * V)) : res (list (string * V)) :=
  if (length (sg_params sg) <? length pos) && negb (sg_star sg) then Err TypeError else
  let bound := combine (sg_params sg) pos in
  if existsb (fun p => mem (fst p) (map fst bound)) kw then Err TypeError else
  if existsb (fun p => negb (mem (fst p) (sg_params sg))) kw && negb (sg_starstar sg) then Err TypeError else
  let env := bound ++ kw in
  let required := firstn (length (sg_params sg) - sg_ndef sg) (sg_params sg) in
  if forallb (fun n => mem n (map fst env)) required then Ok env else Err TypeError.

Section Core.
Context {K : NumOps} {A : Type}.       (* A: the dictionaries passed as args *)
Variable empty : A.                    (* {} *)
Notation V := (vec K).
Notation batch := (list (vec K)).

Inductive pyval : Type := VTime (t : K) | VState (x : batch) | VArgs (a : A).

(** A user's vector field.  [c_sig = None]: getfullargspec raises TypeError (builtins).
    The body sees the attribute t of its DepthCat-like submodules (None: never set) and the bound arguments. *)
Record callable : Type := MkCall {
  c_module : bool;                     (* instance of nn.Module *)
  c_sig : option signature;
  c_body : option K -> list (string * pyval) -> res batch }.

Definition call_callable (c : callable) (depth : option K) (pos : list pyval) (kw : list (string * pyval)) : res batch :=
  match c_sig c with
  | None => c_body c depth (map (fun v => (""%string, v)) pos ++ kw)
  | Some sg => rbind (bind_args sg pos kw) (c_body c depth)
  end.

(** integral_loss(t, x): a one-dimensional tensor (one value per row) or a two-dimensional one *)
Inductive loss_val : Type := Loss1 (l : V) | Loss2 (l : batch).
Definition loss_cols (l : loss_val) : batch := match l with Loss1 v => map (fun a => [a]) v | Loss2 b => b end.

(** Wrapped vector fields: DEFuncBase (defunc.py lines 19-35) and DEFunc (lines 38-93) *)
Inductive vfield : Type :=
| User (c : callable)
| Base (c : callable) (has_time_arg : bool)
| Def (inner : vfield) (order : nat) (iloss : option (K -> batch -> loss_val)) (sens : string).

(** torch.cat of two-dimensional tensors along dim 1 *)
Definition cat1 (parts : list batch) : res batch :=
  match parts with
  | [] => Err RuntimeError
  | p :: ps =>
      fold_left (fun acc q => rbind acc (fun a => if (length a =? length q) then Ok (map2 (@app K) a q) else Err RuntimeError)) ps (Ok p)
  end.

(** x[:, lo:hi] *)
Definition cols (lo hi : nat) (x : batch) : batch := map (fun row => firstn (hi - lo) (skipn lo row)) x.
Definition cols_from (lo : nat) (x : batch) : batch := map (skipn lo) x.
Definition width (x : batch) : nat := match x with [] => 0 | r :: _ => length r end.

(** the slices of higher_order_forward, lines 88-91 of defunc.py *)
Definition shifted_blocks (order : nat) (x : batch) : list batch :=
  let size_order := width x / order in
  map (fun i => cols (size_order * i) (size_order * (i + 1)) x) (seq 1 (order - 1)).

(** v(t, x) if [args = None], v(t, x, args=a) if [args = Some a] *)
Fixpoint call_vf (v : vfield) (depth : option K) (t : K) (x : batch) (args : option A) : res batch :=
  match v with
  | User c =>
      call_callable c depth [VTime t; VState x] (match args with Some a => [("args"%string, VArgs a)] | None => [] end)
  | Base c has_t =>
      let a := match args with Some a => a | None => empty end in
      if has_t then call_callable c depth [VTime t; VState x] [("args"%string, VArgs a)]
      else call_callable c depth [VState x] []
  | Def inner order iloss sens =>
      let a := match args with Some a => a | None => empty end in
      let depth := Some t in                                  (* lines 63-65: module.t = t *)
      match iloss, (String.eqb sens "autograd") with
      | Some il, true =>                                      (* lines 68-77 *)
          let x_dyn := cols_from 1 x in
          let dlds := loss_cols (il t x_dyn) in
          if 1 <? order then Err AttributeError               (* self.horder_forward does not exist *)
          else rbind (call_vf inner depth t x_dyn None) (fun d => cat1 [dlds; d])
      | _, _ =>                                               (* lines 80-85 *)
          if 1 <? order then                                  (* higher_order_forward, lines 87-93; args is not passed *)
            rbind (call_vf inner depth t x None) (fun d => cat1 (shifted_blocks order x ++ [d]))
          else call_vf inner depth t x (Some a)
      end
  end.

(** standardize_vf_call_signature, core/utils.py lines 19-35, for a user's callable; [wrap = Some order]
    is defunc_wrap=True.  NeuralODE sets integral_loss and sensitivity of the DEFunc afterwards. *)
Definition standardize (c : callable) : res vfield :=
  match c_sig c with
  | None => Err TypeError
  | Some sg =>
      Ok (if c_module c
          then if mem "t" (sg_params sg) then User c else Base c false
          else if mem "t" (sg_params sg) then Base c true else Base c false)
  end.

(** ODEProblem(c).vf *)
Definition odeproblem_vf (c : callable) : res vfield := standardize c.
(** NeuralODE(c, order=..., sensitivity=..., integral_loss=...).vf; the second standardisation in
    ODEProblem.__init__ leaves the DEFunc unchanged (a Module with a parameter t) *)
Definition neuralode_vf (c : callable) (order : nat) (iloss : option (K -> batch -> loss_val)) (sens : string) : res vfield :=
  rbind (standardize c) (fun v => Ok (Def v order iloss sens)).

(** what the solvers compute: f(t, x) *)
Definition solver_call (v : vfield) (t : K) (x : batch) : res batch := call_vf v None t x None.

(** the field as evaluated during a solve started with odeint(..., args=a): odeint hands args to the
    step methods, all of which call f(t, x) (solvers/ode.py) *)
Definition field_during_solve (v : vfield) (a : A) (t : K) (x : batch) : res batch := solver_call v t x.

End Core.

(** ** ODEProblem and NeuralODE, with the vector field already wrapped: a function of (t, x) *)
Section Problem.
Context {K : NumOps}.
Notation V := (vec K).

Inductive sens_alg : Type := Autograd | Adjoint | InterpAdjoint | OtherSens.
Definition sens_of (s : string) : sens_alg :=
  (if s =? "autograd" then Autograd else if s =? "adjoint" then Adjoint
   else if s =? "interpolated_adjoint" then InterpAdjoint else OtherSens)%string.

Record problem : Type := MkProb {
  pr_f : K -> V -> V; pr_solver : solver K V; pr_interp : bool; pr_atol : K; pr_rtol : K; pr_sens : string }.

(** ODEProblem.__init__, lines 55-61: solver_adjoint is None, a string or a Module *)
Inductive adj_arg : Type := AdjNone | AdjStr (s : string) | AdjModule.
Definition adjoint_solver (solver : named_solver) (a : adj_arg) : res named_solver :=
  match a with
  | AdjNone => Ok solver
  | AdjStr s => str_to_solver s float32
  | AdjModule => Err KeyError                  (* str_to_solver(module): SOLVER_DICT[module] *)
  end.

(** ODEProblem.__init__, lines 80-105: [own] are the (flattened) parameters of the wrapped vector field, [opt] the
    argument optimizable_params, all distinct tensors.  The result: the parameters of the vector field
    afterwards (register_parameter changes the module), and self.vf_params. *)
Definition init_params (own opt : list V) : list V * V :=
  match own, opt with
  | _ :: _, _ => (own, concat own)
  | [], _ :: _ => (opt, concat opt)
  | [], [] => ([[n0]], [n0])                   (* dummy_parameter = torch.zeros(1) *)
  end.

(** ODEProblem.odeint, problems.py lines 140-155; [nargs] = number of entries of the dictionary args.
    For the adjoint methods [.apply(vf_params, x, t_span, save_at, args)] binds B=save_at, save_at=args
    (sensitivity.py lines 37-41, 109-113); a non-empty dict as save_at makes torch.tensor raise for fixed
    step solvers. Unknown sensitivities: _autograd_func() returns None. *)
Definition problem_odeint (fuel : nat) (p : problem) (x : V) (ts : tspan K) (save_at : list K) (nargs : nat)
  : M (K * V) (list K * list V) :=
  match sens_of (pr_sens p) with
  | Autograd => odeint fuel (pr_f p) x ts (pr_solver p) (pr_atol p) (pr_rtol p) (pr_interp p) false save_at None
  | OtherSens => mraise TypeError
  | s =>
      let all := match s with InterpAdjoint => true | _ => false end in
      if s_fixed (pr_solver p) && (0 <? nargs)
      then ft <- mlift (prep_time (pr_f p) ts) ;; mraise RuntimeError
      else r <- odeint fuel (pr_f p) x ts (pr_solver p) (pr_atol p) (pr_rtol p) (pr_interp p) all [] None ;;
           match s, ts with
           | InterpAdjoint, TList _ => mraise TypeError       (* save_for_backward(sol, t_span, t_sol) of a list *)
           | _, _ => mret r
           end
  end.

(** torch.linspace(0, 1, 2) *)
Definition unit_span : list K := [n0; n1].

(** _prep_integration, neuralde.py lines 99-103; the attribute t_span is None unless the user sets it *)
Definition prep_span (own : option (list K)) (t_span : option (tspan K)) : tspan K :=
  match t_span, own with
  | None, None => TTensor unit_span
  | None, Some l => TTensor l
  | Some t, _ => t
  end.

Definition neuralode_forward (fuel : nat) (p : problem) (own : option (list K)) (x : V) (t_span : option (tspan K))
  (save_at : list K) (nargs : nat) : M (K * V) (list K * list V) :=
  problem_odeint fuel p x (prep_span own t_span) save_at nargs.

(** return_t_eval *)
Inductive fwd_out : Type := WithTimes (t : list K) (s : list V) | OnlySol (s : list V).
Definition neuralode_call (fuel : nat) (p : problem) (own : option (list K)) (return_t_eval : bool) (x : V)
  (t_span : option (tspan K)) (save_at : list K) (nargs : nat) : M (K * V) fwd_out :=
  r <- neuralode_forward fuel p own x t_span save_at nargs ;;
  mret (if return_t_eval then WithTimes (fst r) (snd r) else OnlySol (snd r)).

(** trajectory, lines 138-143: no interpolator, no save_at, no sensitivity *)
Definition trajectory (fuel : nat) (p : problem) (own : option (list K)) (x : V) (t_span : option (tspan K)) : M (K * V) (list V) :=
  r <- odeint fuel (pr_f p) x (prep_span own t_span) (pr_solver p) (pr_atol p) (pr_rtol p) false false [] None ;;
  mret (snd r).

(** ** Data control, neuralde.py lines 105-122 *)
Record submodule : Type := MkMod { m_trace : bool; m_control : bool }.     (* hasattr trace_estimator, _control *)

(** the controls assigned, in the order of named_modules(): None for modules without _control *)
Fixpoint assign_controls (mods : list submodule) (excess : nat) (x : list V) : list (option (list V)) :=
  match mods with
  | [] => []
  | m :: mods' =>
      let excess := if m_trace m then excess + 1 else excess in
      (if m_control m then Some (cols_from excess x) else None) :: assign_controls mods' excess x
  end.
Definition prep_controls (mods : list submodule) (has_loss : bool) (sens : string) (x : list V) : list (option (list V)) :=
  assign_controls mods (if has_loss && String.eqb sens "autograd" then 1 else 0) x.

(** ** MultipleShootingProblem, problems.py lines 162-260 *)

(** the parameters with which the shooting solver is called *)
Record ms_call : Type := MkMsCall { mc_solver : option string; mc_fine_steps : nat; mc_maxiter : Z }.

(** _gather_odefunc_adjoint(..., problem_type, maxiter=4, fine_steps=4) and generic_odeint: the call of
    odeint_mshooting made by its forward *)
Definition gather_call (solver : option string) (maxiter : Z) (fine_steps : nat) : ms_call :=
  MkMsCall solver fine_steps maxiter.

(** lines 203-256: self.solver is None (line 190), and the two counts are passed in the order
    (fine_steps, maxiter) to the parameters (maxiter, fine_steps) *)
Definition msproblem_call (sens : string) (solver : string) (maxiter : nat) (fine_steps : nat) : res ms_call :=
  match sens_of sens with
  | Autograd => Ok (MkMsCall (Some solver) fine_steps (Z.of_nat maxiter))
  | OtherSens => Err TypeError
  | _ => Ok (gather_call None (Z.of_nat fine_steps) maxiter)
  end.

(** odeint_mshooting on such a call: [None.sync_device_dtype] raises AttributeError *)
Definition msproblem_odeint {R} (run : string -> nat -> Z -> res R) (sens : string) (solver : string) (maxiter fine_steps : nat) : res R :=
  rbind (msproblem_call sens solver maxiter fine_steps) (fun c =>
  match mc_solver c with
  | None => Err AttributeError
  | Some s => run s (mc_fine_steps c) (mc_maxiter c)
  end).

(** ** NeuralSDE.trajectory, neuralde.py lines 254-265: _prep_sdeint(x) misses its argument t_span *)
Definition prep_sdeint_sig : signature := MkSig ["x"; "t_span"]%string 0 false false.
Definition neuralsde_trajectory (x t_span : list V) : res (list V) :=
  rbind (bind_args prep_sdeint_sig [x] []) (fun _ => Ok x).

End Problem.
