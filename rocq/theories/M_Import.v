(** Model of the import statements of the package: the module-level code of all files of torchdyn, and the part of
    Python's import system that they exercise.

    Only names defined inside torchdyn are tracked; imports of other packages are assumed to succeed and
    bind nothing that is tracked.  Line numbers: first and last of the statements of the file that appear. *)
From Coq Require Import PArith List Bool.
From Verif Require Import Py.
Import ListNotations.

(** the modules (M_torchdyn_core stands for torchdyn.core, etc.) and the identifiers at module level *)
Inductive modname : Type :=
  | M_torchdyn | M_torchdyn_core | M_torchdyn_core_defunc | M_torchdyn_core_neuralde | M_torchdyn_core_problems |
  M_torchdyn_core_utils | M_torchdyn_datasets | M_torchdyn_datasets_static_datasets | M_torchdyn_models |
  M_torchdyn_models_cnf | M_torchdyn_models_energy | M_torchdyn_models_hybrid | M_torchdyn_nn | M_torchdyn_nn_galerkin |
  M_torchdyn_nn_node_layers | M_torchdyn_numerics | M_torchdyn_numerics_interpolators | M_torchdyn_numerics_odeint |
  M_torchdyn_numerics_sdeint | M_torchdyn_numerics_sensitivity | M_torchdyn_numerics_solvers |
  M_torchdyn_numerics_solvers__constants | M_torchdyn_numerics_solvers_hyper | M_torchdyn_numerics_solvers_ode |
  M_torchdyn_numerics_solvers_root | M_torchdyn_numerics_solvers_sde | M_torchdyn_numerics_solvers_templates |
  M_torchdyn_numerics_systems | M_torchdyn_numerics_utils | M_torchdyn_utils.
Inductive ident : Type :=
  | N_TTuple | N_Tuple | N_DEFunc | N_SDEFunc | N_NeuralODE | N_NeuralSDE | N_MultipleShootingLayer | N_ODEProblem |
  N_SDEProblem | N_MultipleShootingProblem | N_NeuralDE | N_DEFuncBase | N_odeint | N_sdeint |
  N_standardize_vf_call_signature | N__gather_odefunc_adjoint | N__gather_odefunc_interp_adjoint | N_odeint_mshooting |
  N_str_to_solver | N_str_to_ms_solver | N_randnsphere | N_generate_concentric_spheres | N_generate_moons |
  N_generate_spirals | N_generate_gaussians | N_generate_gaussians_spiral | N_generate_diffeqml | N_ToyDataset |
  N_autograd_trace | N_hutch_trace | N_REQUIRES_NOISE | N_CNF | N_ConservativeLinearSNF | N_GNF | N_HNN | N_LNN |
  N_LSDEFunc | N_HybridNeuralDE | N_LatentNeuralSDE | N_GalLayer | N_GalLinear | N_GalConv2d | N_Fourier | N_Polynomial
  | N_Chebychev | N_VanillaRBF | N_MultiquadRBF | N_GaussianRBF | N_Augmenter | N_DepthCat | N_DataControl | N_Euler |
  N_RungeKutta4 | N_Tsitouras45 | N_DormandPrince45 | N_AsynchronousLeapfrog | N_MSZero | N_MSBackward | N_HyperEuler |
  N_odeint_symplectic | N_odeint_hybrid | N_VanDerPol | N_Lorenz | N_construct_4th | N_Interpolator | N_Linear |
  N_ThirdHermite | N_FourthOrder | N_INTERP_DICT | N_str_to_interp | N_hairer_norm | N_init_step | N_adapt_step |
  N_EventState | N__adaptive_odeint | N__fixed_odeint | N__shifted_fixed_odeint | N__jagged_fixed_odeint |
  N_sde_str_to_solver | N_check_sde | N__adaptive_sdeint | N__fixed_sdeint | N_generic_odeint | N_ExplicitRKTableau |
  N_construct_rk4 | N_construct_dopri5 | N_construct_tsit5 | N_Midpoint | N_HyperMidpoint | N_HyperRungeKutta4 |
  N_DiffEqSolver | N_MultipleShootingDiffeqSolver | N_SolverTemplate | N_ImplicitEuler | N_MSForward |
  N_ParallelImplicitEuler | N_SOLVER_DICT | N_MS_SOLVER_DICT | N_RootLogger | N_Broyden | N_BroydenFull | N_BroydenBad |
  N_Newton | N_Chord | N__safe_norm | N_LineSearcher | N_NaiveSearch | N_LineSearchArmijo | N_LineSearchGriewank |
  N_LineSearchWolfe1 | N_LineSearchWolfe2 | N_TerminationCondition | N_SEARCH_METHODS | N_ROOT_SOLVER_DICT |
  N_RETURN_CODES | N_batch_jacobian | N_root_find | N__check_types | N_EulerMaruyama | N_EulerHeun | N_MilsteinBase |
  N_MilesteinIto | N_MilesteinStratonovich | N_SDE_SOLVER_DICT | N_BaseExplicit | N_BaseImplicit | N_ODEProblem2 |
  N_ODEProblem3 | N_ODEProblem4 | N_SineSystem | N_LTISystem | N_FourierSystem | N_StiffFourierSystem |
  N_CoupledFourierSystem | N_MatMulSystem | N_MatMulBoundedSystem | N_make_norm | N_dense_output | N_EventCallback |
  N_StochasticEventCallback | N_WrapFunc | N_plot_2d_boundary | N_plot_2d_flows | N_defaults_1D | N_plot_traj_vf_1D |
  N_plot_2D_depth_trajectory | N_plot_2D_state_space | N_plot_2D_space_depth | N_plot_static_vector_field |
  N_plot_3D_dataset | N_torchdyn | N_core | N_defunc | N_neuralde | N_problems | N_utils | N_datasets |
  N_static_datasets | N_models | N_cnf | N_energy | N_hybrid | N_nn | N_galerkin | N_node_layers | N_numerics |
  N_interpolators | N_sensitivity | N_solvers | N__constants | N_hyper | N_ode | N_root | N_sde | N_templates |
  N_systems.

(** numberings, to compare names *)
Local Open Scope positive_scope.
Definition mod_ix (m : modname) : positive :=
  match m with
  | M_torchdyn => 1 | M_torchdyn_core => 2 | M_torchdyn_core_defunc => 3 | M_torchdyn_core_neuralde => 4 |
  M_torchdyn_core_problems => 5 | M_torchdyn_core_utils => 6 | M_torchdyn_datasets => 7 |
  M_torchdyn_datasets_static_datasets => 8 | M_torchdyn_models => 9 | M_torchdyn_models_cnf => 10 |
  M_torchdyn_models_energy => 11 | M_torchdyn_models_hybrid => 12 | M_torchdyn_nn => 13 | M_torchdyn_nn_galerkin => 14 |
  M_torchdyn_nn_node_layers => 15 | M_torchdyn_numerics => 16 | M_torchdyn_numerics_interpolators => 17 |
  M_torchdyn_numerics_odeint => 18 | M_torchdyn_numerics_sdeint => 19 | M_torchdyn_numerics_sensitivity => 20 |
  M_torchdyn_numerics_solvers => 21 | M_torchdyn_numerics_solvers__constants => 22 | M_torchdyn_numerics_solvers_hyper
  => 23 | M_torchdyn_numerics_solvers_ode => 24 | M_torchdyn_numerics_solvers_root => 25 |
  M_torchdyn_numerics_solvers_sde => 26 | M_torchdyn_numerics_solvers_templates => 27 | M_torchdyn_numerics_systems =>
  28 | M_torchdyn_numerics_utils => 29 | M_torchdyn_utils => 30
  end.
Definition ident_ix (k : ident) : positive :=
  match k with
  | N_TTuple => 1 | N_Tuple => 2 | N_DEFunc => 3 | N_SDEFunc => 4 | N_NeuralODE => 5 | N_NeuralSDE => 6 |
  N_MultipleShootingLayer => 7 | N_ODEProblem => 8 | N_SDEProblem => 9 | N_MultipleShootingProblem => 10 | N_NeuralDE =>
  11 | N_DEFuncBase => 12 | N_odeint => 13 | N_sdeint => 14 | N_standardize_vf_call_signature => 15 |
  N__gather_odefunc_adjoint => 16 | N__gather_odefunc_interp_adjoint => 17 | N_odeint_mshooting => 18 | N_str_to_solver
  => 19 | N_str_to_ms_solver => 20 | N_randnsphere => 21 | N_generate_concentric_spheres => 22 | N_generate_moons => 23
  | N_generate_spirals => 24 | N_generate_gaussians => 25 | N_generate_gaussians_spiral => 26 | N_generate_diffeqml =>
  27 | N_ToyDataset => 28 | N_autograd_trace => 29 | N_hutch_trace => 30 | N_REQUIRES_NOISE => 31 | N_CNF => 32 |
  N_ConservativeLinearSNF => 33 | N_GNF => 34 | N_HNN => 35 | N_LNN => 36 | N_LSDEFunc => 37 | N_HybridNeuralDE => 38 |
  N_LatentNeuralSDE => 39 | N_GalLayer => 40 | N_GalLinear => 41 | N_GalConv2d => 42 | N_Fourier => 43 | N_Polynomial =>
  44 | N_Chebychev => 45 | N_VanillaRBF => 46 | N_MultiquadRBF => 47 | N_GaussianRBF => 48 | N_Augmenter => 49 |
  N_DepthCat => 50 | N_DataControl => 51 | N_Euler => 52 | N_RungeKutta4 => 53 | N_Tsitouras45 => 54 | N_DormandPrince45
  => 55 | N_AsynchronousLeapfrog => 56 | N_MSZero => 57 | N_MSBackward => 58 | N_HyperEuler => 59 | N_odeint_symplectic
  => 60 | N_odeint_hybrid => 61 | N_VanDerPol => 62 | N_Lorenz => 63 | N_construct_4th => 64 | N_Interpolator => 65 |
  N_Linear => 66 | N_ThirdHermite => 67 | N_FourthOrder => 68 | N_INTERP_DICT => 69 | N_str_to_interp => 70 |
  N_hairer_norm => 71 | N_init_step => 72 | N_adapt_step => 73 | N_EventState => 74 | N__adaptive_odeint => 75 |
  N__fixed_odeint => 76 | N__shifted_fixed_odeint => 77 | N__jagged_fixed_odeint => 78 | N_sde_str_to_solver => 79 |
  N_check_sde => 80 | N__adaptive_sdeint => 81 | N__fixed_sdeint => 82 | N_generic_odeint => 83 | N_ExplicitRKTableau =>
  84 | N_construct_rk4 => 85 | N_construct_dopri5 => 86 | N_construct_tsit5 => 87 | N_Midpoint => 88 | N_HyperMidpoint
  => 89 | N_HyperRungeKutta4 => 90 | N_DiffEqSolver => 91 | N_MultipleShootingDiffeqSolver => 92 | N_SolverTemplate =>
  93 | N_ImplicitEuler => 94 | N_MSForward => 95 | N_ParallelImplicitEuler => 96 | N_SOLVER_DICT => 97 |
  N_MS_SOLVER_DICT => 98 | N_RootLogger => 99 | N_Broyden => 100 | N_BroydenFull => 101 | N_BroydenBad => 102 | N_Newton
  => 103 | N_Chord => 104 | N__safe_norm => 105 | N_LineSearcher => 106 | N_NaiveSearch => 107 | N_LineSearchArmijo =>
  108 | N_LineSearchGriewank => 109 | N_LineSearchWolfe1 => 110 | N_LineSearchWolfe2 => 111 | N_TerminationCondition =>
  112 | N_SEARCH_METHODS => 113 | N_ROOT_SOLVER_DICT => 114 | N_RETURN_CODES => 115 | N_batch_jacobian => 116 |
  N_root_find => 117 | N__check_types => 118 | N_EulerMaruyama => 119 | N_EulerHeun => 120 | N_MilsteinBase => 121 |
  N_MilesteinIto => 122 | N_MilesteinStratonovich => 123 | N_SDE_SOLVER_DICT => 124 | N_BaseExplicit => 125 |
  N_BaseImplicit => 126 | N_ODEProblem2 => 127 | N_ODEProblem3 => 128 | N_ODEProblem4 => 129 | N_SineSystem => 130 |
  N_LTISystem => 131 | N_FourierSystem => 132 | N_StiffFourierSystem => 133 | N_CoupledFourierSystem => 134 |
  N_MatMulSystem => 135 | N_MatMulBoundedSystem => 136 | N_make_norm => 137 | N_dense_output => 138 | N_EventCallback =>
  139 | N_StochasticEventCallback => 140 | N_WrapFunc => 141 | N_plot_2d_boundary => 142 | N_plot_2d_flows => 143 |
  N_defaults_1D => 144 | N_plot_traj_vf_1D => 145 | N_plot_2D_depth_trajectory => 146 | N_plot_2D_state_space => 147 |
  N_plot_2D_space_depth => 148 | N_plot_static_vector_field => 149 | N_plot_3D_dataset => 150 | N_torchdyn => 151 |
  N_core => 152 | N_defunc => 153 | N_neuralde => 154 | N_problems => 155 | N_utils => 156 | N_datasets => 157 |
  N_static_datasets => 158 | N_models => 159 | N_cnf => 160 | N_energy => 161 | N_hybrid => 162 | N_nn => 163 |
  N_galerkin => 164 | N_node_layers => 165 | N_numerics => 166 | N_interpolators => 167 | N_sensitivity => 168 |
  N_solvers => 169 | N__constants => 170 | N_hyper => 171 | N_ode => 172 | N_root => 173 | N_sde => 174 | N_templates =>
  175 | N_systems => 176
  end.
Local Close Scope positive_scope.
Definition all_modules : list modname :=
  [M_torchdyn; M_torchdyn_core; M_torchdyn_core_defunc; M_torchdyn_core_neuralde; M_torchdyn_core_problems;
  M_torchdyn_core_utils; M_torchdyn_datasets; M_torchdyn_datasets_static_datasets; M_torchdyn_models;
  M_torchdyn_models_cnf; M_torchdyn_models_energy; M_torchdyn_models_hybrid; M_torchdyn_nn; M_torchdyn_nn_galerkin;
  M_torchdyn_nn_node_layers; M_torchdyn_numerics; M_torchdyn_numerics_interpolators; M_torchdyn_numerics_odeint;
  M_torchdyn_numerics_sdeint; M_torchdyn_numerics_sensitivity; M_torchdyn_numerics_solvers;
  M_torchdyn_numerics_solvers__constants; M_torchdyn_numerics_solvers_hyper; M_torchdyn_numerics_solvers_ode;
  M_torchdyn_numerics_solvers_root; M_torchdyn_numerics_solvers_sde; M_torchdyn_numerics_solvers_templates;
  M_torchdyn_numerics_systems; M_torchdyn_numerics_utils; M_torchdyn_utils].
Definition all_idents : list ident :=
  [N_TTuple; N_Tuple; N_DEFunc; N_SDEFunc; N_NeuralODE; N_NeuralSDE; N_MultipleShootingLayer; N_ODEProblem;
  N_SDEProblem; N_MultipleShootingProblem; N_NeuralDE; N_DEFuncBase; N_odeint; N_sdeint;
  N_standardize_vf_call_signature; N__gather_odefunc_adjoint; N__gather_odefunc_interp_adjoint; N_odeint_mshooting;
  N_str_to_solver; N_str_to_ms_solver; N_randnsphere; N_generate_concentric_spheres; N_generate_moons;
  N_generate_spirals; N_generate_gaussians; N_generate_gaussians_spiral; N_generate_diffeqml; N_ToyDataset;
  N_autograd_trace; N_hutch_trace; N_REQUIRES_NOISE; N_CNF; N_ConservativeLinearSNF; N_GNF; N_HNN; N_LNN; N_LSDEFunc;
  N_HybridNeuralDE; N_LatentNeuralSDE; N_GalLayer; N_GalLinear; N_GalConv2d; N_Fourier; N_Polynomial; N_Chebychev;
  N_VanillaRBF; N_MultiquadRBF; N_GaussianRBF; N_Augmenter; N_DepthCat; N_DataControl; N_Euler; N_RungeKutta4;
  N_Tsitouras45; N_DormandPrince45; N_AsynchronousLeapfrog; N_MSZero; N_MSBackward; N_HyperEuler; N_odeint_symplectic;
  N_odeint_hybrid; N_VanDerPol; N_Lorenz; N_construct_4th; N_Interpolator; N_Linear; N_ThirdHermite; N_FourthOrder;
  N_INTERP_DICT; N_str_to_interp; N_hairer_norm; N_init_step; N_adapt_step; N_EventState; N__adaptive_odeint;
  N__fixed_odeint; N__shifted_fixed_odeint; N__jagged_fixed_odeint; N_sde_str_to_solver; N_check_sde;
  N__adaptive_sdeint; N__fixed_sdeint; N_generic_odeint; N_ExplicitRKTableau; N_construct_rk4; N_construct_dopri5;
  N_construct_tsit5; N_Midpoint; N_HyperMidpoint; N_HyperRungeKutta4; N_DiffEqSolver; N_MultipleShootingDiffeqSolver;
  N_SolverTemplate; N_ImplicitEuler; N_MSForward; N_ParallelImplicitEuler; N_SOLVER_DICT; N_MS_SOLVER_DICT;
  N_RootLogger; N_Broyden; N_BroydenFull; N_BroydenBad; N_Newton; N_Chord; N__safe_norm; N_LineSearcher; N_NaiveSearch;
  N_LineSearchArmijo; N_LineSearchGriewank; N_LineSearchWolfe1; N_LineSearchWolfe2; N_TerminationCondition;
  N_SEARCH_METHODS; N_ROOT_SOLVER_DICT; N_RETURN_CODES; N_batch_jacobian; N_root_find; N__check_types; N_EulerMaruyama;
  N_EulerHeun; N_MilsteinBase; N_MilesteinIto; N_MilesteinStratonovich; N_SDE_SOLVER_DICT; N_BaseExplicit;
  N_BaseImplicit; N_ODEProblem2; N_ODEProblem3; N_ODEProblem4; N_SineSystem; N_LTISystem; N_FourierSystem;
  N_StiffFourierSystem; N_CoupledFourierSystem; N_MatMulSystem; N_MatMulBoundedSystem; N_make_norm; N_dense_output;
  N_EventCallback; N_StochasticEventCallback; N_WrapFunc; N_plot_2d_boundary; N_plot_2d_flows; N_defaults_1D;
  N_plot_traj_vf_1D; N_plot_2D_depth_trajectory; N_plot_2D_state_space; N_plot_2D_space_depth;
  N_plot_static_vector_field; N_plot_3D_dataset; N_torchdyn; N_core; N_defunc; N_neuralde; N_problems; N_utils;
  N_datasets; N_static_datasets; N_models; N_cnf; N_energy; N_hybrid; N_nn; N_galerkin; N_node_layers; N_numerics;
  N_interpolators; N_sensitivity; N_solvers; N__constants; N_hyper; N_ode; N_root; N_sde; N_templates; N_systems].

(** a.b.c has the parent a.b and the last component c *)
Definition parent (m : modname) : option modname :=
  match m with
  | M_torchdyn_core => Some M_torchdyn
  | M_torchdyn_core_defunc => Some M_torchdyn_core
  | M_torchdyn_core_neuralde => Some M_torchdyn_core
  | M_torchdyn_core_problems => Some M_torchdyn_core
  | M_torchdyn_core_utils => Some M_torchdyn_core
  | M_torchdyn_datasets => Some M_torchdyn
  | M_torchdyn_datasets_static_datasets => Some M_torchdyn_datasets
  | M_torchdyn_models => Some M_torchdyn
  | M_torchdyn_models_cnf => Some M_torchdyn_models
  | M_torchdyn_models_energy => Some M_torchdyn_models
  | M_torchdyn_models_hybrid => Some M_torchdyn_models
  | M_torchdyn_nn => Some M_torchdyn
  | M_torchdyn_nn_galerkin => Some M_torchdyn_nn
  | M_torchdyn_nn_node_layers => Some M_torchdyn_nn
  | M_torchdyn_numerics => Some M_torchdyn
  | M_torchdyn_numerics_interpolators => Some M_torchdyn_numerics
  | M_torchdyn_numerics_odeint => Some M_torchdyn_numerics
  | M_torchdyn_numerics_sdeint => Some M_torchdyn_numerics
  | M_torchdyn_numerics_sensitivity => Some M_torchdyn_numerics
  | M_torchdyn_numerics_solvers => Some M_torchdyn_numerics
  | M_torchdyn_numerics_solvers__constants => Some M_torchdyn_numerics_solvers
  | M_torchdyn_numerics_solvers_hyper => Some M_torchdyn_numerics_solvers
  | M_torchdyn_numerics_solvers_ode => Some M_torchdyn_numerics_solvers
  | M_torchdyn_numerics_solvers_root => Some M_torchdyn_numerics_solvers
  | M_torchdyn_numerics_solvers_sde => Some M_torchdyn_numerics_solvers
  | M_torchdyn_numerics_solvers_templates => Some M_torchdyn_numerics_solvers
  | M_torchdyn_numerics_systems => Some M_torchdyn_numerics
  | M_torchdyn_numerics_utils => Some M_torchdyn_numerics
  | M_torchdyn_utils => Some M_torchdyn
  | _ => None
  end.
Definition basename (m : modname) : ident :=
  match m with
  | M_torchdyn => N_torchdyn | M_torchdyn_core => N_core | M_torchdyn_core_defunc => N_defunc | M_torchdyn_core_neuralde
  => N_neuralde | M_torchdyn_core_problems => N_problems | M_torchdyn_core_utils => N_utils | M_torchdyn_datasets =>
  N_datasets | M_torchdyn_datasets_static_datasets => N_static_datasets | M_torchdyn_models => N_models |
  M_torchdyn_models_cnf => N_cnf | M_torchdyn_models_energy => N_energy | M_torchdyn_models_hybrid => N_hybrid |
  M_torchdyn_nn => N_nn | M_torchdyn_nn_galerkin => N_galerkin | M_torchdyn_nn_node_layers => N_node_layers |
  M_torchdyn_numerics => N_numerics | M_torchdyn_numerics_interpolators => N_interpolators | M_torchdyn_numerics_odeint
  => N_odeint | M_torchdyn_numerics_sdeint => N_sdeint | M_torchdyn_numerics_sensitivity => N_sensitivity |
  M_torchdyn_numerics_solvers => N_solvers | M_torchdyn_numerics_solvers__constants => N__constants |
  M_torchdyn_numerics_solvers_hyper => N_hyper | M_torchdyn_numerics_solvers_ode => N_ode |
  M_torchdyn_numerics_solvers_root => N_root | M_torchdyn_numerics_solvers_sde => N_sde |
  M_torchdyn_numerics_solvers_templates => N_templates | M_torchdyn_numerics_systems => N_systems |
  M_torchdyn_numerics_utils => N_utils | M_torchdyn_utils => N_utils
  end.
(** directories *)
Definition is_package (m : modname) : bool :=
  match m with M_torchdyn | M_torchdyn_core | M_torchdyn_datasets | M_torchdyn_models | M_torchdyn_nn | M_torchdyn_numerics | M_torchdyn_numerics_solvers => true | _ => false end.
(** names that a star import takes *)
Definition is_public (k : ident) : bool :=
  match k with N__gather_odefunc_adjoint | N__gather_odefunc_interp_adjoint | N__adaptive_odeint | N__fixed_odeint | N__shifted_fixed_odeint | N__jagged_fixed_odeint | N__adaptive_sdeint | N__fixed_sdeint | N__safe_norm | N__check_types | N__constants => false | _ => true end.

(** module-level statements *)
Inductive stmt : Type :=
| SFrom (m : modname) (names : list ident)      (* from m import names *)
| SStar (m : modname)                           (* from m import * *)
| SDef (names : list ident)                     (* class / def / assignment of new objects *)
| SAlias (new old : ident)                      (* new = old *)
| SAll (names : list ident).                    (* __all__ = names *)

Definition code (m : modname) : list stmt :=
  match m with
  | M_torchdyn =>      (* torchdyn/__init__.py lines 16-19 (Tuple is typing.Tuple) *)
      [SDef [N_Tuple; N_TTuple]]
  | M_torchdyn_core =>      (* torchdyn/core/__init__.py lines 13-20 *)
      [SFrom M_torchdyn_core_defunc [N_DEFunc; N_SDEFunc];
       SFrom M_torchdyn_core_neuralde [N_NeuralODE; N_NeuralSDE; N_MultipleShootingLayer];
       SFrom M_torchdyn_core_problems [N_ODEProblem; N_SDEProblem; N_MultipleShootingProblem];
       SAlias N_NeuralDE N_NeuralODE;
       SAll [N_DEFunc; N_SDEFunc; N_NeuralODE; N_NeuralDE; N_NeuralSDE; N_ODEProblem; N_SDEProblem; N_MultipleShootingProblem; N_MultipleShootingLayer]]
  | M_torchdyn_core_defunc =>      (* torchdyn/core/defunc.py lines 19-96 *)
      [SDef [N_DEFuncBase; N_DEFunc; N_SDEFunc]]
  | M_torchdyn_core_neuralde =>      (* torchdyn/core/neuralde.py lines 15-297 *)
      [SFrom M_torchdyn_core_problems [N_MultipleShootingProblem; N_ODEProblem; N_SDEProblem];
       SFrom M_torchdyn_numerics [N_odeint; N_sdeint];
       SFrom M_torchdyn_core_defunc [N_SDEFunc];
       SFrom M_torchdyn_core_utils [N_standardize_vf_call_signature];
       SDef [N_NeuralODE; N_NeuralSDE; N_MultipleShootingLayer]]
  | M_torchdyn_core_problems =>      (* torchdyn/core/problems.py lines 6-263 *)
      [SFrom M_torchdyn_numerics_sensitivity [N__gather_odefunc_adjoint; N__gather_odefunc_interp_adjoint];
       SFrom M_torchdyn_numerics_odeint [N_odeint; N_odeint_mshooting];
       SFrom M_torchdyn_numerics_solvers_ode [N_str_to_solver; N_str_to_ms_solver];
       SFrom M_torchdyn_core_utils [N_standardize_vf_call_signature];
       SFrom M_torchdyn_core_defunc [N_SDEFunc];
       SFrom M_torchdyn_numerics [N_sdeint];
       SDef [N_ODEProblem; N_MultipleShootingProblem; N_SDEProblem]]
  | M_torchdyn_core_utils =>      (* torchdyn/core/utils.py lines 16-19 *)
      [SFrom M_torchdyn_core_defunc [N_DEFuncBase; N_DEFunc];
       SDef [N_standardize_vf_call_signature]]
  | M_torchdyn_datasets =>      (* torchdyn/datasets/__init__.py lines 13 *)
      [SStar M_torchdyn_datasets_static_datasets]
  | M_torchdyn_datasets_static_datasets =>      (* torchdyn/datasets/static_datasets.py lines 23-224 *)
      [SFrom M_torchdyn [N_TTuple; N_Tuple];
       SDef [N_randnsphere; N_generate_concentric_spheres; N_generate_moons; N_generate_spirals; N_generate_gaussians; N_generate_gaussians_spiral; N_generate_diffeqml; N_ToyDataset]]
  | M_torchdyn_models =>      (* torchdyn/models/__init__.py lines 13-15 *)
      [SStar M_torchdyn_models_energy;
       SStar M_torchdyn_core_neuralde;
       SStar M_torchdyn_models_cnf]
  | M_torchdyn_models_cnf =>      (* torchdyn/models/cnf.py lines 19-35 *)
      [SDef [N_autograd_trace; N_hutch_trace; N_REQUIRES_NOISE; N_CNF]]
  | M_torchdyn_models_energy =>      (* torchdyn/models/energy.py lines 22-83 *)
      [SDef [N_ConservativeLinearSNF; N_GNF; N_HNN; N_LNN]]
  | M_torchdyn_models_hybrid =>      (* torchdyn/models/hybrid.py lines 22-66 *)
      [SFrom M_torchdyn_models [N_LSDEFunc];
       SDef [N_HybridNeuralDE; N_LatentNeuralSDE]]
  | M_torchdyn_nn =>      (* torchdyn/nn/__init__.py lines 13-17 *)
      [SFrom M_torchdyn_nn_galerkin [N_GalLayer; N_GalLinear; N_GalConv2d; N_Fourier; N_Polynomial; N_Chebychev; N_VanillaRBF; N_MultiquadRBF; N_GaussianRBF];
       SFrom M_torchdyn_nn_node_layers [N_Augmenter; N_DepthCat; N_DataControl];
       SAll [N_Augmenter; N_DepthCat; N_DataControl; N_GalLinear; N_GalConv2d; N_VanillaRBF; N_MultiquadRBF; N_GaussianRBF; N_Fourier; N_Polynomial; N_Chebychev]]
  | M_torchdyn_nn_galerkin =>      (* torchdyn/nn/galerkin.py lines 18-229 *)
      [SDef [N_GaussianRBF; N_VanillaRBF; N_MultiquadRBF; N_Fourier; N_Polynomial; N_Chebychev; N_GalLayer; N_GalLinear; N_GalConv2d]]
  | M_torchdyn_nn_node_layers =>      (* torchdyn/nn/node_layers.py lines 16-74 *)
      [SDef [N_Augmenter; N_DepthCat; N_DataControl]]
  | M_torchdyn_numerics =>      (* torchdyn/numerics/__init__.py lines 13-19 *)
      [SFrom M_torchdyn_numerics_solvers_ode [N_Euler; N_RungeKutta4; N_Tsitouras45; N_DormandPrince45; N_AsynchronousLeapfrog; N_MSZero; N_MSBackward];
       SFrom M_torchdyn_numerics_solvers_hyper [N_HyperEuler];
       SFrom M_torchdyn_numerics_odeint [N_odeint; N_odeint_symplectic; N_odeint_mshooting; N_odeint_hybrid];
       SFrom M_torchdyn_numerics_sdeint [N_sdeint];
       SFrom M_torchdyn_numerics_systems [N_VanDerPol; N_Lorenz];
       SAll [N_odeint; N_odeint_symplectic; N_sdeint; N_Euler; N_RungeKutta4; N_DormandPrince45; N_Tsitouras45; N_AsynchronousLeapfrog; N_HyperEuler; N_MSZero; N_MSBackward; N_Lorenz; N_VanDerPol]]
  | M_torchdyn_numerics_interpolators =>      (* torchdyn/numerics/interpolators.py lines 16-70 *)
      [SFrom M_torchdyn_numerics_solvers__constants [N_construct_4th];
       SDef [N_Interpolator; N_Linear; N_ThirdHermite; N_FourthOrder; N_INTERP_DICT; N_str_to_interp]]
  | M_torchdyn_numerics_odeint =>      (* torchdyn/numerics/odeint.py lines 24-471 *)
      [SFrom M_torchdyn_numerics_solvers_ode [N_AsynchronousLeapfrog; N_Tsitouras45; N_str_to_solver; N_str_to_ms_solver];
       SFrom M_torchdyn_numerics_interpolators [N_str_to_interp];
       SFrom M_torchdyn_numerics_utils [N_hairer_norm; N_init_step; N_adapt_step; N_EventState];
       SDef [N_odeint; N_odeint_symplectic; N_odeint_mshooting; N_odeint_hybrid; N__adaptive_odeint; N__fixed_odeint; N__shifted_fixed_odeint; N__jagged_fixed_odeint]]
  | M_torchdyn_numerics_sdeint =>      (* torchdyn/numerics/sdeint.py lines 7-91 *)
      [SFrom M_torchdyn_core_defunc [N_SDEFunc];
       SFrom M_torchdyn_numerics_solvers_sde [N_sde_str_to_solver];
       SDef [N_check_sde; N_sdeint; N__adaptive_sdeint; N__fixed_sdeint]]
  | M_torchdyn_numerics_sensitivity =>      (* torchdyn/numerics/sensitivity.py lines 17-104 *)
      [SFrom M_torchdyn_numerics_odeint [N_odeint; N_odeint_mshooting];
       SDef [N_generic_odeint; N__gather_odefunc_adjoint; N__gather_odefunc_interp_adjoint]]
  | M_torchdyn_numerics_solvers =>      (* a directory without __init__.py: a namespace package *)
      []
  | M_torchdyn_numerics_solvers__constants =>      (* torchdyn/numerics/solvers/_constants.py lines 17-121 *)
      [SDef [N_ExplicitRKTableau; N_construct_rk4; N_construct_dopri5; N_construct_tsit5; N_construct_4th]]
  | M_torchdyn_numerics_solvers_hyper =>      (* torchdyn/numerics/solvers/hyper.py lines 15-39 *)
      [SFrom M_torchdyn_numerics_solvers_ode [N_Euler; N_Midpoint; N_RungeKutta4];
       SDef [N_HyperEuler; N_HyperMidpoint; N_HyperRungeKutta4]]
  | M_torchdyn_numerics_solvers_ode =>      (* torchdyn/numerics/solvers/ode.py lines 23-339 *)
      [SFrom M_torchdyn_numerics_solvers_templates [N_DiffEqSolver; N_MultipleShootingDiffeqSolver];
       SFrom M_torchdyn_numerics_solvers__constants [N_construct_rk4; N_construct_dopri5; N_construct_tsit5];
       SDef [N_SolverTemplate; N_Euler; N_Midpoint; N_RungeKutta4; N_AsynchronousLeapfrog; N_DormandPrince45; N_Tsitouras45; N_ImplicitEuler; N_MSForward; N_MSZero; N_MSBackward; N_ParallelImplicitEuler; N_SOLVER_DICT; N_MS_SOLVER_DICT; N_str_to_solver; N_str_to_ms_solver]]
  | M_torchdyn_numerics_solvers_root =>      (* torchdyn/numerics/solvers/root.py lines 18-259 *)
      [SFrom M_torchdyn_numerics_utils [N_RootLogger];
       SDef [N_Broyden; N_BroydenFull; N_BroydenBad; N_Newton; N_Chord; N__safe_norm; N_LineSearcher; N_NaiveSearch; N_LineSearchArmijo; N_LineSearchGriewank; N_LineSearchWolfe1; N_LineSearchWolfe2; N_TerminationCondition; N_SEARCH_METHODS; N_ROOT_SOLVER_DICT; N_RETURN_CODES; N_batch_jacobian; N_root_find]]
  | M_torchdyn_numerics_solvers_sde =>      (* torchdyn/numerics/solvers/sde.py lines 3-126 *)
      [SFrom M_torchdyn_numerics_solvers_templates [N_DiffEqSolver];
       SFrom M_torchdyn_core_defunc [N_SDEFunc];
       SDef [N__check_types; N_EulerMaruyama; N_EulerHeun; N_MilsteinBase; N_MilesteinIto; N_MilesteinStratonovich; N_Midpoint; N_SDE_SOLVER_DICT; N_sde_str_to_solver]]
  | M_torchdyn_numerics_solvers_templates =>      (* torchdyn/numerics/solvers/templates.py lines 12-67 *)
      [SDef [N_DiffEqSolver; N_BaseExplicit; N_BaseImplicit; N_MultipleShootingDiffeqSolver]]
  | M_torchdyn_numerics_systems =>      (* torchdyn/numerics/systems.py lines 19-229 *)
      [SDef [N_Lorenz; N_VanDerPol; N_ODEProblem2; N_ODEProblem3; N_ODEProblem4; N_SineSystem; N_LTISystem; N_FourierSystem; N_StiffFourierSystem; N_CoupledFourierSystem; N_MatMulSystem; N_MatMulBoundedSystem]]
  | M_torchdyn_numerics_utils =>      (* torchdyn/numerics/utils.py lines 24-124 *)
      [SDef [N_make_norm; N_hairer_norm; N_init_step; N_adapt_step; N_dense_output; N_EventState; N_EventCallback; N_StochasticEventCallback; N_RootLogger; N_WrapFunc]]
  | M_torchdyn_utils =>      (* torchdyn/utils.py lines 24-185 *)
      [SDef [N_plot_2d_boundary; N_plot_2d_flows; N_defaults_1D; N_plot_traj_vf_1D; N_plot_2D_depth_trajectory; N_plot_2D_state_space; N_plot_2D_space_depth; N_plot_static_vector_field; N_plot_3D_dataset]]
  end.

(** how an import fails *)
Inductive ierr : Type := ImportError | UnknownName | TooDeep.

(** a name is bound to a module or to an object, identified by the place of its definition *)
Inductive value : Type := VModule (m : modname) | VObject (home : modname) (k : ident).

(** finite maps, sorted by key: the order of bindings does not matter *)
Definition assoc {K A} (ix : K -> positive) (k : K) (l : list (K * A)) : option A :=
  match find (fun p => Pos.eqb (ix k) (ix (fst p))) l with Some p => Some (snd p) | None => None end.
Fixpoint insert {K A} (ix : K -> positive) (k : K) (a : A) (l : list (K * A)) : list (K * A) :=
  match l with
  | [] => [(k, a)]
  | (k', a') :: l' =>
      match Pos.compare (ix k) (ix k') with
      | Lt => (k, a) :: l
      | Eq => (k, a) :: l'
      | Gt => (k', a') :: insert ix k a l'
      end
  end.

(** the namespace of a module and its __all__ *)
Record nspace : Type := MkNs { ns_vars : list (ident * value); ns_all : option (list ident) }.
(** sys.modules; a module is entered before its code runs *)
Definition modules : Type := list (modname * nspace).

Definition get_mod (m : modname) (st : modules) : option nspace := assoc mod_ix m st.
Definition set_mod (m : modname) (n : nspace) (st : modules) : modules := insert mod_ix m n st.
Definition del_mod (m : modname) (st : modules) : modules := filter (fun p => negb (Pos.eqb (mod_ix m) (mod_ix (fst p)))) st.
Definition get_var (m : modname) (k : ident) (st : modules) : option value :=
  match get_mod m st with Some n => assoc ident_ix k (ns_vars n) | None => None end.
Definition set_var (m : modname) (k : ident) (v : value) (st : modules) : modules :=
  match get_mod m st with Some n => set_mod m (MkNs (insert ident_ix k v (ns_vars n)) (ns_all n)) st | None => st end.

(** the module m.k, if its file exists *)
Definition submodule (m : modname) (k : ident) : option modname :=
  find (fun m' => Pos.eqb (ident_ix k) (ident_ix (basename m')) &&
                  match parent m' with Some p => Pos.eqb (mod_ix m) (mod_ix p) | None => false end) all_modules.
(** importing a.b.c imports a, a.b and a.b.c; four components at most *)
Definition prefixes (m : modname) : list modname :=
  match parent m with
  | None => [m]
  | Some p => match parent p with
              | None => [p; m]
              | Some q => match parent q with None => [q; p; m] | Some r => [r; q; p; m] end
              end
  end.

(** one after the other, until one fails *)
Fixpoint each {A} (f : modules -> A -> modules * option ierr) (l : list A) (st : modules) : modules * option ierr :=
  match l with
  | [] => (st, None)
  | a :: l => match f st a with (st, None) => each f l st | r => r end
  end.

(** from m import k, executed by the module cur: the attribute k of m; if there is none, the entry m.k of sys.modules *)
Definition bind (cur m : modname) (st : modules) (k : ident) : modules * option ierr :=
  match get_var m k st with
  | Some v => (set_var cur k v st, None)
  | None =>
      match submodule m k with
      | Some s => match get_mod s st with
                  | Some _ => (set_var cur k (VModule s) st, None)
                  | None => (st, Some ImportError)
                  end
      | None => (st, Some ImportError)
      end
  end.

(** one component of a dotted name *)
Fixpoint import_one (fuel : nat) (st : modules) (cur : modname) {struct fuel} : modules * option ierr :=
  match fuel with
  | O => (st, Some TooDeep)
  | S fuel =>
      match get_mod cur st with
      | Some _ => (st, None)                                    (* found in sys.modules, perhaps unfinished *)
      | None =>
          let import st m := each (import_one fuel) (prefixes m) st in
          (* names that are no attributes of a package are looked for as its submodules *)
          let find_sub m st k :=
            match get_var m k st with
            | Some _ => (st, None)
            | None => match submodule m k with Some s => import_one fuel st s | None => (st, None) end
            end in
          let from m names st :=
            match (if is_package m then each (find_sub m) names st else (st, None)) with
            | (st, None) => each (bind cur m) names st
            | r => r
            end in
          let run st s :=
            match s with
            | SFrom m names => match import st m with (st, None) => from m names st | r => r end
            | SStar m =>
                match import st m with
                | (st, None) =>
                    match get_mod m st with
                    | None => (st, Some ImportError)
                    | Some n => match ns_all n with
                                | None => each (bind cur m) (filter is_public (map fst (ns_vars n))) st
                                | Some names => from m names st
                                end
                    end
                | r => r
                end
            | SDef names => (fold_left (fun st k => set_var cur k (VObject cur k) st) names st, None)
            | SAlias new old =>
                match get_var cur old st with Some v => (set_var cur new v st, None) | None => (st, Some UnknownName) end
            | SAll names =>
                match get_mod cur st with Some n => (set_mod cur (MkNs (ns_vars n) (Some names)) st, None) | None => (st, None) end
            end in
          match each run (code cur) (set_mod cur (MkNs [] None) st) with
          | (st, None) =>                                       (* the parent gets an attribute *)
              (match parent cur with Some p => set_var p (basename cur) (VModule cur) st | None => st end, None)
          | (st, e) => (del_mod cur st, e)
          end
      end
  end.

(** import m, as a user's statement; 100 is deeper than any chain of imports *)
Definition import_module (st : modules) (m : modname) : modules * option ierr := each (import_one 100) (prefixes m) st.

(** what a sequence of import statements leaves in sys.modules, if exceptions are caught *)
Definition import_all (ms : list modname) : modules := fold_left (fun st m => fst (import_module st m)) ms [].

(** a function of module m calls the global name k: SDEProblem.odeint (core/problems.py lines 291-293) and
    NeuralSDE.forward (core/neuralde.py line 205) do so with sdeint *)
Definition call_global {A} (st : modules) (m : modname) (k : ident) (run : modname -> ident -> res A) : res A :=
  match get_var m k st with
  | Some (VObject home name) => run home name
  | Some (VModule _) => Err TypeError                           (* 'module' object is not callable *)
  | None => Err NameError
  end.
