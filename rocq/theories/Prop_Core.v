(** Property theorems (generated by tools/genprop.py from Pf_Core.v, which holds the proofs). *)
From Coq Require Import ZArith QArith Reals Lra Lia String List Bool Floats.
From Verif Require Import Num Py Tensor M_SolversOde M_Odeint M_Core Spec_Core L_Base.
Import ListNotations.
From Verif Require Import Pf_Core.
Import ListNotations.
Local Open Scope nat_scope.

(** C44.  A NeuralODE of any order n >= 2 around any of the vector fields of [evaluates], without an
    integral loss in the state: on a batch whose rows are n blocks of equal width (the derivatives of
    order 0 to n - 1), if the user's field, called once at (t, x), returns one row per row of x, then the
    value seen by the solver has in each row the blocks 1 to n - 1 followed by the field's row. *)
Theorem C44_higher_order_partial :
  forall (K : NumOps) (A : Type) (empty : A) (c : @callable K A) n w iloss sens t (x : list (list (vec K))) env d,
  2 <= n -> stacked n w x -> iloss = None \/ sens <> "autograd"%string ->
  evaluates empty c t (map (@concat K) x) env -> c_body c (Some t) env = Ok d -> length d = length x ->
  exists v, neuralode_vf c n iloss sens = Ok v /\
    solver_call empty v t (map (@concat K) x) = Ok (map (fun q => concat (tl (fst q)) ++ snd q) (combine x d)).
Proof. exact C44_higher_order_partial_pf. Qed.
Print Assumptions C44_higher_order_partial.

(** C44 fails with an integral loss: for every vector field, state and order above 1, evaluating a
    NeuralODE with sensitivity 'autograd' and an integral loss raises AttributeError
    ([self.horder_forward]). *)
Theorem C44_integral_loss_refuted :
  forall (K : NumOps) (A : Type) (empty : A) (c : @callable K A) n il t x v, 2 <= n ->
  neuralode_vf c n (Some il) "autograd" = Ok v ->
  solver_call empty v t x = Err AttributeError.
Proof. exact C44_integral_loss_refuted_pf. Qed.
Print Assumptions C44_integral_loss_refuted.

(** C44, order 1 with an integral loss (one value l_i per row): the loss is the first column, the field
    is evaluated on the other columns. *)
Theorem C44_integral_loss_order1 :
  forall (K : NumOps) (A : Type) (empty : A) (c : @callable K A) il t (a : vec K) (x : list (vec K)) l env d,
  length a = length x -> il t x = Loss1 l -> length l = length d ->
  evaluates empty c t x env -> c_body c (Some t) env = Ok d ->
  exists v, neuralode_vf c 1 (Some il) "autograd" = Ok v /\
    solver_call empty v t (map (fun q => fst q :: snd q) (combine a x)) = Ok (map (fun q => fst q :: snd q) (combine l d)).
Proof. exact C44_integral_loss_order1_pf. Qed.
Print Assumptions C44_integral_loss_order1.

(** C45: f(x), module or function, whatever the name of its parameter (not t). *)
Theorem C45_state_only_partial :
  forall (K : NumOps) (A : Type) (empty : A) (c : @callable K A) p, takes c [p] 0 -> p <> "t"%string ->
  exists v w, odeproblem_vf c = Ok v /\ (forall sens, neuralode_vf c 1 None sens = Ok (w sens)) /\
  forall sens t x,
    solver_call empty v t x = c_body c None [(p, VState x)] /\
    solver_call empty (w sens) t x = c_body c (Some t) [(p, VState x)].
Proof. exact C45_state_only_partial_pf. Qed.
Print Assumptions C45_state_only_partial.

(** C45: a function or module taking (t, x, args), args with a default; the parameters get the time,
    the state and, for functions and in NeuralODE, the empty dictionary (an ODEProblem leaves args of a
    module to its default). *)
Theorem C45_time_state_args_partial :
  forall (K : NumOps) (A : Type) (empty : A) (c : @callable K A) p,
  takes c ["t"; p; "args"]%string 1 -> p <> "t"%string -> p <> "args"%string ->
  exists v w, odeproblem_vf c = Ok v /\ (forall sens, neuralode_vf c 1 None sens = Ok (w sens)) /\
  forall sens t x,
    let full := [("t"%string, VTime t); (p, VState x); ("args"%string, VArgs empty)] in
    solver_call empty v t x = c_body c None (if c_module c then firstn 2 full else full) /\
    solver_call empty (w sens) t x = c_body c (Some t) full.
Proof. exact C45_time_state_args_partial_pf. Qed.
Print Assumptions C45_time_state_args_partial.

(** C45 fails for f(t, x), the signature the documentation asks for: a plain function is called with
    an extra args and raises TypeError, in ODEProblem and in NeuralODE; a module works in ODEProblem
    but raises TypeError in a NeuralODE of order 1 without integral loss.  For all bodies and inputs. *)
Theorem C45_time_state_refuted :
  forall (K : NumOps) (A : Type) (empty : A) (c : @callable K A), takes c ["t"; "x"]%string 0 ->
  exists v w, odeproblem_vf c = Ok v /\ (forall sens, neuralode_vf c 1 None sens = Ok (w sens)) /\
  forall sens t x,
    solver_call empty v t x = (if c_module c then c_body c None [("t", VTime t); ("x", VState x)]%string else Err TypeError) /\
    solver_call empty (w sens) t x = Err TypeError.
Proof. exact C45_time_state_refuted_pf. Qed.
Print Assumptions C45_time_state_refuted.

(** C45: a callable with the parameters (x, t, args) is accepted, and gets the time as x and the state
    as t. *)
Theorem C45_swapped_refuted :
  forall (K : NumOps) (A : Type) (empty : A) (c : @callable K A), takes c ["x"; "t"; "args"]%string 1 ->
  exists w, (forall sens, neuralode_vf c 1 None sens = Ok (w sens)) /\
  forall sens t x,
    solver_call empty (w sens) t x = c_body c (Some t) [("x", VTime t); ("t", VState x); ("args", VArgs empty)]%string.
Proof. exact C45_swapped_refuted_pf. Qed.
Print Assumptions C45_swapped_refuted.

(** C44, C45: concrete fields meet the hypotheses. *)
Example C44_C45_ex :
  let oscillator := @MkCall ROps unit true (Some (MkSig ["t"; "x"]%string 0 false false)) (fun _ env =>
    match env with
    | [_; (_, VState x)] => Ok (map (fun row => match row with q :: _ => [(- q)%R] | _ => [] end) x)
    | _ => Err TypeError
    end) in
  let x : list (list (vec ROps)) := [[[1]; [2]]; [[3]; [4]]]%R in
  stacked 2 1 x /\
  evaluates tt oscillator (0 : ROps)%R (map (@concat ROps) x) [("t", VTime (0 : ROps)%R); ("x", VState (map (@concat ROps) x))]%string /\
  (exists v, neuralode_vf oscillator 2 None "adjoint" = Ok v /\
     solver_call tt v (0 : ROps)%R (map (@concat ROps) x) = Ok [[2; - (1)]; [4; - (3)]]%R) /\
  (exists v, neuralode_vf oscillator 1 None "adjoint" = Ok v /\
     solver_call tt v (0 : ROps)%R (map (@concat ROps) x) = Err TypeError).
Proof. exact C44_C45_ex_pf. Qed.

(** C45: a field with a further required argument cannot be solved: every call raises TypeError *)
Theorem C45_extra_argument :
  forall (K : NumOps) (A : Type) (empty : A) (c : @callable K A) u, u <> "t"%string -> u <> "x"%string -> u <> "args"%string ->
  takes c ["t"; "x"; "args"; u]%string 0 \/ takes c ["x"; u]%string 0 ->
  exists v w, odeproblem_vf c = Ok v /\ (forall sens, neuralode_vf c 1 None sens = Ok (w sens)) /\
  forall sens t x, solver_call empty v t x = Err TypeError /\ solver_call empty (w sens) t x = Err TypeError.
Proof. exact C45_extra_argument_pf. Qed.
Print Assumptions C45_extra_argument.

(** C46.  Without t_span forward is the solve over the span stored in the model, or over [0, 1] if none is stored; with
    return_t_eval=False it returns the second component of what it returns otherwise, after the same
    evaluations of the field. *)
Theorem C46_forward_partial :
  forall (K : NumOps) fuel p x (ts : option (tspan K)) save_at nargs,
  neuralode_forward fuel p None x None save_at nargs = problem_odeint fuel p x (TTensor [n0; n1]) save_at nargs /\
  (forall l, neuralode_forward fuel p (Some l) x None save_at nargs = problem_odeint fuel p x (TTensor l) save_at nargs) /\
  (forall l own, neuralode_forward fuel p own x (Some l) save_at nargs = problem_odeint fuel p x l save_at nargs) /\
  forall own log t s,
    neuralode_call fuel p own true x ts save_at nargs = (log, Ok (WithTimes t s)) ->
    neuralode_call fuel p own false x ts save_at nargs = (log, Ok (OnlySol s)).
Proof. exact C46_forward_partial_pf. Qed.
Print Assumptions C46_forward_partial.

(** C46.  trajectory returns the states of forward (and evaluates the field at the same points) for the
    sensitivities 'autograd' and 'adjoint' when no interpolation takes place: a fixed-step solver, tsit5,
    or no interpolator. *)
Theorem C46_trajectory_partial :
  forall (K : NumOps) fuel p own x (ts : option (tspan K)),
  pr_sens p = "autograd"%string \/ pr_sens p = "adjoint"%string ->
  s_fixed (pr_solver p) = true \/ s_is_tsit5 (pr_solver p) = true \/ pr_interp p = false ->
  fst (trajectory fuel p own x ts) = fst (neuralode_forward fuel p own x ts [] 0) /\
  snd (trajectory fuel p own x ts) = rmap snd (snd (neuralode_forward fuel p own x ts [] 0)).
Proof. exact C46_trajectory_partial_pf. Qed.
Print Assumptions C46_trajectory_partial.

(** C46 fails with 'interpolated_adjoint' and an adaptive solver: forward returns every accepted step,
    trajectory only the requested times (dopri5, zero field, binary64, for every pow). *)
Theorem C46_trajectory_refuted :
  forall pw : float -> float -> float,
  let p := MkProb (K := FloatOps pw) (fun _ x => [0%float]) (DormandPrince45 (FloatOps pw)) false 0.001%float 0.001%float "interpolated_adjoint" in
  exists sol sol',
    snd (trajectory (K := FloatOps pw) 20 p None [1%float] None) = Ok sol /\ length sol = 2 /\
    rmap snd (snd (neuralode_forward (K := FloatOps pw) 20 p None [1%float] None [] 0)) = Ok sol' /\ length sol' = 8.
Proof. exact C46_trajectory_refuted_pf. Qed.
Print Assumptions C46_trajectory_refuted.

(** C46.  If no divergence module comes after a control module in named_modules(), every control module
    receives the initial condition without its leading loss and divergence columns; the other modules
    receive nothing. *)
Theorem C46_control_partial :
  forall (K : NumOps) mods has_loss sens (x : list (vec K)) i m,
  controls_after_traces mods -> nth_error mods i = Some m ->
  nth_error (prep_controls mods has_loss sens x) i =
  Some (if m_control m
        then Some (map (skipn (extra_columns mods (has_loss && String.eqb sens "autograd"))) x) else None).
Proof. exact C46_control_partial_pf. Qed.
Print Assumptions C46_control_partial.

(** C46 fails if a control module precedes the divergence module: it gets the divergence column too. *)
Theorem C46_control_refuted :
  exists mods : list submodule,
    @prep_controls ROps mods false "autograd" [[7; 1; 2]]%R = [Some [[7; 1; 2]]%R; None] /\
    extra_columns mods false = 1.
Proof. exact C46_control_refuted_pf. Qed.
Print Assumptions C46_control_refuted.

(** the usual arrangement, a CNF around a network that contains a DataControl layer *)
Example C46_control_ex :
  let mods := [MkMod false false; MkMod true false; MkMod false false; MkMod false true] in
  controls_after_traces mods /\
  @prep_controls ROps mods true "autograd" [[0; 0; 1; 2]; [0; 0; 3; 4]]%R = [None; None; None; Some [[1; 2]; [3; 4]]%R].
Proof. exact C46_control_ex_pf. Qed.

(** C47 holds for 'autograd' and fixed-step solvers: if the solve returns, the times are the requested
    save_at, and the result does not depend on the dictionary. *)
Theorem C47_autograd_partial :
  forall (K : NumOps) fuel p x (ts : tspan K) s save_at nargs times sol,
  pr_sens p = "autograd"%string -> s_fixed (pr_solver p) = true ->
  snd (problem_odeint fuel p x ts (s :: save_at) nargs) = Ok (times, sol) -> times = s :: save_at.
Proof. exact C47_autograd_partial_pf. Qed.
Print Assumptions C47_autograd_partial.

(** C47 fails for the adjoint sensitivities: save_at is ignored, for every problem and input. *)
Theorem C47_adjoint_save_at_refuted :
  forall (K : NumOps) fuel p x (ts : tspan K) save_at nargs,
  pr_sens p = "adjoint"%string \/ pr_sens p = "interpolated_adjoint"%string ->
  problem_odeint fuel p x ts save_at nargs = problem_odeint fuel p x ts [] nargs /\
  (forall t0 t1 l times sol, ts = TTensor (t0 :: t1 :: l) -> (t1 <? t0)%N = false -> s_fixed (pr_solver p) = true ->
     snd (problem_odeint fuel p x ts save_at nargs) = Ok (times, sol) -> times = t0 :: t1 :: l).
Proof. exact C47_adjoint_save_at_refuted_pf. Qed.
Print Assumptions C47_adjoint_save_at_refuted.

(** C47: with an adjoint sensitivity and a fixed-step solver a non-empty args makes the solve raise. *)
Theorem C47_adjoint_args_refuted :
  forall (K : NumOps) fuel p x t0 t1 (l : list K) save_at nargs,
  pr_sens p = "adjoint"%string \/ pr_sens p = "interpolated_adjoint"%string -> s_fixed (pr_solver p) = true -> 0 < nargs ->
  snd (problem_odeint fuel p x (TTensor (t0 :: t1 :: l)) save_at nargs) = Err RuntimeError.
Proof. exact C47_adjoint_args_refuted_pf. Qed.
Print Assumptions C47_adjoint_args_refuted.

(** C47: args never reaches the vector field, which is given the empty dictionary for every args. *)
Theorem C47_args_refuted :
  forall (K : NumOps) (A : Type) (empty : A) (c : @callable K A) sens,
  takes c ["t"; "x"; "args"]%string 1 ->
  exists v, neuralode_vf c 1 None sens = Ok v /\
  forall a t x, field_during_solve empty v a t x = c_body c (Some t) [("t", VTime t); ("x", VState x); ("args", VArgs empty)]%string.
Proof. exact C47_args_refuted_pf. Qed.
Print Assumptions C47_args_refuted.

(** C50 holds for 'autograd'. *)
Theorem C50_autograd_partial :
  forall (T : Type) (run : string -> nat -> Z -> res T) solver maxiter fine_steps,
  msproblem_odeint run "autograd" solver maxiter fine_steps = run solver fine_steps (Z.of_nat maxiter).
Proof. exact C50_autograd_partial_pf. Qed.
Print Assumptions C50_autograd_partial.

(** C50 fails for the adjoint sensitivities: the forward solve always raises AttributeError (the solver
    passed on is None), and the two counts are exchanged in the call. *)
Theorem C50_adjoint_refuted :
  forall (T : Type) (run : string -> nat -> Z -> res T) sens solver maxiter fine_steps,
  sens = "adjoint"%string \/ sens = "interpolated_adjoint"%string ->
  msproblem_odeint run sens solver maxiter fine_steps = Err AttributeError /\
  msproblem_call sens solver maxiter fine_steps = Ok (MkMsCall None maxiter (Z.of_nat fine_steps)).
Proof. exact C50_adjoint_refuted_pf. Qed.
Print Assumptions C50_adjoint_refuted.

(** C65 fails: a solver module as solver_adjoint raises KeyError; None and every known name work. *)
Theorem C65_solver_adjoint_refuted :
  forall s : named_solver,
  adjoint_solver s AdjModule = Err KeyError /\ adjoint_solver s AdjNone = Ok s.
Proof. exact C65_solver_adjoint_refuted_pf. Qed.
Print Assumptions C65_solver_adjoint_refuted.

(** C65 for strings: every name of the solver table gives a solver. *)
Theorem C65_solver_adjoint_names_partial :
  forall (s : named_solver) n c, In (n, c) SOLVER_DICT -> exists r, adjoint_solver s (AdjStr n) = Ok r /\ ns_class r = c.
Proof. exact C65_solver_adjoint_names_partial_pf. Qed.
Print Assumptions C65_solver_adjoint_names_partial.

(** C66 fails: NeuralSDE.trajectory raises TypeError for every input. *)
Theorem C66_sde_trajectory_refuted :
  forall (K : NumOps) (x t_span : list (vec K)), neuralsde_trajectory x t_span = Err TypeError.
Proof. exact C66_sde_trajectory_refuted_pf. Qed.
Print Assumptions C66_sde_trajectory_refuted.

