# Formal model of torchdyn in Rocq/Coq 8.16.1

Source: `/repo` (DiffEqML/torchdyn, pinned). The code was read as text, never run.
All definitions live in `rocq/theories/`; each definition cites the file and lines it models.

## 1. Layout

| file | content |
|------|---------|
| `Num.v` | number interface `NumOps` and its instances: reals (`ROps`), canonical rationals (`QcOps`), IEEE binary64 (`FloatOps`) |
| `Py.v` | results (`Ok`/`Err exn`/`OutOfFuel`), Python indexing and slicing, call log (writer) |
| `Tensor.v` | tensors as flat lists, elementwise operations |
| `M_*.v` | the model, one file per source file, no proofs |
| `Spec_*.v` | small textbook specifications, independent of the model |
| `L_*.v` | lemmas (proof work) |
| `Pf_*.v` | the proofs of the property theorems; `tools/genprop.py` copies their statements into `Prop_*.v` |
| `Prop_*.v` | the property theorems, each closed by `exact`, with `Print Assumptions` and a satisfiability `Example` |

## 2. Modelling decisions

* **Numbers.** Model functions are written once, over an abstract record `NumOps` (add, mul, compare, ...).
  Property theorems instantiate it with the real numbers unless they say otherwise. Witnesses of failures that
  depend on rounding instantiate it with Coq's primitive binary64 floats. Theorems about all rounding errors
  (C107, C108) instantiate it with `RndOps rnd`: real arithmetic with every result rounded by an arbitrary
  function of given relative and absolute error (no overflow, no NaN).
  Comparisons `<`, `<=`, `==` are separate operations so that NaN behaves as in Python.
* **Tensors** are flat lists of numbers (`list K`); states of any size. Broadcasting is modelled only where the
  code relies on it. Batch structure is modelled where it matters (root finding, layers, models).
* **Vector fields** are arbitrary total functions `K -> X -> X`. Calls are logged so that the number and
  arguments of the calls can be stated. Stateful vector fields (dropout, RNG) are not modelled.
* **Exceptions** are values (`Err IndexError`, ...). Unbounded `while` loops take fuel and return `OutOfFuel`
  when it is exhausted; termination theorems give a fuel that suffices, non-termination theorems say that
  no fuel suffices.
* **Autograd** (`torch.autograd.grad`, `jacobian`) is an oracle: a function parameter whose meaning (it returns
  the vector-Jacobian product) is an explicit hypothesis of the theorem that needs it.
* **Randomness** (Brownian increments, noise, dataset draws) is a function parameter, universally quantified.
* **torch.optim.LBFGS** in the implicit solvers is not modelled; only the residual it minimises is.

## 3. Trusted base

* Coq 8.16.1 kernel (and `vm_compute`, rechecked by `coqchk`).
* The axioms printed under each property theorem by `Print Assumptions`. They all come from the Coq standard
  library: the real numbers (`ClassicalDedekindReals.sig_forall_dec`, `sig_not_dec`), functional extensionality,
  `Classical_Prop.classic` (through the Reals), and primitive floats for the binary64 witnesses.
  No axiom is declared in this development. `L_Interp.v` imports Coquelicot (derivatives of the interpolant),
  `Pf_Round.v`, `L_Float.v`, `Pf_Land.v` and `Pf_NaN.v` import Flocq (IEEE rounding, description of the primitive floats); neither adds axioms.
* The correspondence between the Python text and the Gallina text of the `M_*.v` files.

Section 5 lists which code is not modelled, section 6 the findings.

## 4. Properties

For each property: what is modelled, how it is proved. "Refuted" means that the English statement is false of
the code; the theorem whose name ends in `_refuted` exhibits a witness and the strongest true variant found is
proved next to it.

| id | plan |
|----|------|
| C01 | `_fixed_odeint` over arbitrary state type and step function; functional specification by recursion on the grid |
| C02 | same model with `save_at`; selection proved equal to a filter of the full trajectory |
| C03 | refuted: the assertion compares `save_at` with itself; exact acceptance condition proved |
| C04 | refuted: fine grids raise AssertionError; exact condition proved |
| C05 | `odeint` wrapper with negated field; equality with negative stepping proved for every fixed step solver that is equivariant |
| C06 | proved for increasing, refuted for decreasing grids (times come back negated) |
| C07 | composition lemma on the fixed-step recursion |
| C08 | call log length, for fixed and adaptive loops |
| C09-C13 | `_adaptive_odeint` loop as a step function on a state; inductive invariant; theorems on every run that returns |
| C14 | measure: number of remaining checkpoints, distance to go, number of rejections |
| C15 | refuted: NaN error ratio makes the loop run forever (no fuel suffices) |
| C16 | refuted with a binary64 witness; `C16_close_grid_partial` (Pf_Land): over `FloatOps` itself (binary64 with NaN and infinities, through Flocq's `Prim2B`), grids whose neighbours have one sign and are within a factor two: the clamp `tc - t` is exact (Sterbenz), so the loop lands on every time; steps of size NaN are never accepted; for all fields and tolerances |
| C17-C19 | real analysis on `adapt_step`, `init_step`, `hairer_norm` |
| C20 | refuted: the initial step is computed from the un-reversed field |
| C21-C23 | step functions proved equal to the textbook explicit RK step; order conditions by rational computation; rk4 refuted for time-varying fields |
| C24 | one-step convergence theorem (consistency + stability, `L_Conv.v`) over arbitrary dimension and grid: Euler converges with first order for every Lipschitz field along every solution with bounded second derivative |
| C25 | the same for midpoint with second order (bounded third derivative of the solution, Lipschitz field); exactness on quadratics; exponential example. See C103 for rk4 |
| C26 | refuted (field evaluated at t); true variant proved |
| C27-C29 | algebraic identities |
| C30 | `MSZero.root_solve` with arbitrary fixed-step coarse and fine methods: result = maxiter + 1 textbook parareal passes (`Spec_MS.v`), first maxiter + 2 rows exact by induction over passes. Refuted as stated: a given B0 replaces x; only the first interval length is used |
| C31 | exact admissible maxiter: mszero fails with IndexError iff maxiter >= len(t_span); msbackward fails from maxiter = 2 on (>= 4 points); fine_steps = 1 always fails |
| C32 | `_residual` as a sum of squares: zero iff the rows satisfy implicit Euler with f taken at time 0; refuted for time dependent fields. LBFGS is not modelled |
| C33 | refuted: second state duplicated and last one dropped, TypeError with built-in solvers, shifted solver always raises; exact behaviour of the jagged loop proved |
| C34 | `odeint_hybrid` loop related to the run relation `hrun` of `Spec_Hybrid.v` (every event gives two outputs at one time, second = jump of the lowest firing callback). "Times never decrease" refuted: the event test may be true early and false later, then the located event lies past a requested time |
| C35 | refuted: the checkpoint counter advances even if the step ending at the checkpoint is rejected; proved when those steps are accepted |
| C36 | refuted twice (four jumps with j_span = 1; endless jumping): `jnum` is never incremented in the loop. Proved: j_span >= 2 has no influence |
| C37 | refuted twice (ValueError from `min` of an empty list; event past the end of t_span). Proved for events that persist until the jump: location inside the step, and no exception if t_span is at most 4096 event tolerances long |
| C38 | `root_find` as a bounded loop over batches (`M_Root.v`); certificate read off the termination check |
| C39 | secant and no-change identities of both updates, with the exact effect of the regularisation; `C39_step` for a step of root_find on a batch |
| C40 | termination of both line searches for every objective function |
| C41 | the fixed-grid SDE loop equals the scheme of `Spec_Sde.v` (Euler-Maruyama, Euler-Heun, Milstein) for every grid and every Brownian path (function parameter) |
| C42 | algebraic identities of the four step functions (componentwise) |
| C43 | refuted: the Milstein solvers never check and 'midpoint' gives TypeError; exact acceptance for euler and eulerHeun |
| C44 | `DEFunc.forward` on batches (rows of blocks), calls modelled by Python's argument binding (`bind_args`); list induction over blocks. Refuted with an integral loss and order > 1 (`horder_forward` does not exist) |
| C45 | `standardize_vf_call_signature` and the wrappers for arbitrary callables (signature + body). Refuted: f(t, x) without `args` raises TypeError; f(x, t, args) gets its arguments exchanged |
| C46 | `_prep_integration`, `forward`, `trajectory` on top of the odeint model. Refuted: interpolated_adjoint returns every step; a control module before the divergence module receives the divergence column |
| C47 | dispatch of `ODEProblem.odeint` with the positional binding of `.apply(vf_params, x, t_span, save_at, args)` to `forward(ctx, vf_params, x, t_span, B, save_at)`. Refuted for the adjoint methods; args never reach the field |
| C48 | adjoint backward pass (M_Sens) with vector-Jacobian products as parameters; an RK step of the transposed field is the transpose of the step (L_Sens), projected to the λ block; proved for every explicit RK solver |
| C49 | same model; the adjoint gets the negated t_sol of `odeint`. Refuted; value characterised. Interpolated adjoint proved in both directions |
| C50 | call made by `_autograd_func` of MultipleShootingProblem. Refuted: solver is None, counts exchanged |
| C51 | tensors of any rank as nested lists (`M_Nn.v`), entries by multi-index (`Spec_Nn.v`); the entry lemma for concatenation along any dimension is by induction on the rank |
| C52 | `calculate_weights` with its block matrices, reduced to the double sum `expansion`; layer, linearity, zero coefficients follow |
| C53 | recurrence of Chebychev for every degree, cos(k a) by addition theorems. Polynomial refuted for every deg >= 3 (`linspace(0, deg, deg)` has step deg/(deg-1)) |
| C54 | CNF with the Jacobian of the whole batch as oracle (`M_Models.v`), whose meaning is given by real derivatives (`Spec_Models.v`); for row-wise networks the off-diagonal blocks vanish by uniqueness of derivatives. Hutchinson: mean over any finite law with unit second moments; Rademacher by induction on the dimension |
| C55 | gradients are Frechet derivatives; chain rule along curves (`L_Models.v`); HNN constant and GNF decreasing by the mean value theorem; LNN satisfies the Euler-Lagrange equations |
| C56 | generators as functions of the random draws (`M_Data.v`); sizes, labels and positions for all draws; refuted for odd spheres and for the sizes of spirals and Gaussians |
| C57 | lookup table |
| C58 | msbackward pass 1 and 2 characterised for all inputs; refuted: pass 2 replaces row m >= 2 by its own fine flow |
| C59 | refuted: transposed Jacobian; proved if the product is the directional derivative of an affine flow |
| C60 | refuted: 'general' noise never yields a state of the input shape (shape calculus `em_shape`); diagonal shapes proved |
| C61 | refuted: no check of save_at; exact set of saved states proved |
| C62 | exact geometric decay of the residual without line search, for affine g in any dimension; refuted for the default arguments (the search looks along +dz while steps go along -dz) |
| C63 | proved for the naive search, refuted for Armijo (fallback reports the objective of another step) |
| C64 | refuted: the reference residual is the one after the first step |
| C65 | refuted: `str_to_solver(module)` raises KeyError |
| C66 | refuted: `_prep_sdeint(x)` misses an argument |
| C67 | torch.zeros(1) stands for an unused parameter of any size: size error in the first step. Refuted for every such field |
| C68 | λ_tspan has two entries; the one for t0 has the wrong sign. Refuted |
| C69 | loop over t_span indexes gradient rows of all evaluations. Refuted |
| C70 | as C48 for the state extended by the parameters (L_SensP, Pf_SensP) |
| C71 | refuted: assigning a tensor to the registered name `bias` raises TypeError, in GalLinear and in GalConv2d (`C71_conv_no_bias_refuted`) |
| C72 | refuted: deg+1 centers against deg entries of the range |
| C73 | refuted: centers and eps_scales are overwritten by 0 and 2 |
| C74 | refuted for every deg >= 3 by the same range as C53; period 2 pi (deg-1) proved |
| C75 | refuted with the centering network |
| C76 | refuted in every odd dimension |
| C77 | refuted: attributes H and _skew do not exist |
| C78 | loop over the sequence; refuted for reverse=True (x_t read before assignment) |
| C79 | refuted: attribute higher_order does not exist |
| C80 | refuted: noise is None until NeuralODE draws it |
| C81 | refuted (second coordinate lacks the radius for dim = 3, ValueError above) |
| C82 | refuted: no error for unknown names |
| C83 | every returned state is reached by steps or a dense output (`L_Reach.v`); invariance of each (`L_Inv.v`) |
| C84 | as C83; termination from the zero error ratio |
| C85 | Runge-Kutta steps commute with affine maps, lifted to the fixed loop |
| C86 | projection to a sample is linear: fixed-step proved; refuted for adaptive solvers |
| C87 | relational proof: two runs related by a reindexing stay related (`L_Sim.v`) |
| C88 | as C87 with a time shift; refuted for fixed-step solvers far from 0 (relative tolerance of isclose) |
| C89 | loop with exceptions = loop of `M_Sde.v` on states of the right size, then C41 |
| C90–C92 | refuted by computation of the first step, for all drifts and diffusions |
| C93, C95 | computation on rows, `field`; equilibria with C84 |
| C94 | refuted for wider rows |
| C96 | binding of arguments (`M_Core.v`): proved for `t`, refuted for `s` |
| C97, C98 | sums of harmonics, bounds of cos and tanh |
| C99 | refuted: the constructor does not use two arguments |
| C100 | refuted: `super` needs an instance or a subclass |
| C101 | proved for names, refuted for modules |
| C102 | stage by stage comparison (`L_Order.v`), then a discrete Gronwall bound |
| C103, C104 | `L_Order2.v`: stage errors expanded in powers of the step; coefficients are rational multiples of J_a1 (J_a2 (... y^(k))), computed from the tableau and checked to cancel by `order_check` (vm_compute); quadratic remainders are of higher order; stability from C102. The order of tsit5 is not stated: its table meets the conditions only up to rounding (C23) |
| C105 | `agr` (L_Oracle.v): two computations agree if the fields agree on the logged calls; closed under bind, hence all steps and loops | proved over all NumOps |
| C106 | zero field solve (C84) + C105 against c prod (t - t_i)^2 over its call times; Gronwall's lemma (L_Gronwall.v) for the positive part | refuted; partial under reliability of the estimate |
| C107 | odeint over `RndOps rnd` (Spec_Round: every operation rounded) | `C107_one_state_per_time` (all rounding functions with u <= 1e-6, eta <= 1e-12), `C107_spaced_grids`, `C107_ieee` (Flocq's rounding to nearest even is such a function; no overflow) |
| C108 | odeint over `RndOps rnd` with Euler | `C108_euler_rounded` by induction over the rounded clock and states |
| C109 | mszero_root_solve | `C109_parareal_rate`, by induction over passes and rows with Pascal's rule |
| C110 | sdeint, all four schemes with constant diffusion | `C110_additive_noise` (mean value theorem for X - sigma W), `C110_oscillation` |
| C111 | odeint over `FloatOps` | `C111_no_nan`: any NaN in the state before or after a step makes the error ratio NaN (nmax propagates NaN, as torch.max does), and `NaN <= 1` is false; `C111_nan_state`: a NaN state is never left; `C111_overflow_accepted`: infinities pass the test |
| C112 | `Pf_Dense.v`: the decimals of `construct_4th` are within 10^-16 of Shampine's fractions, which give a mid-point state of order 4 (`point_check`, vm_compute; `point_error` in `L_Order2.v`); the effect of the difference has an explicit constant (`digits_effect`), an unspecified one could hide a first-order error; the quartic reproduces polynomials of degree 4; errors of the step starts as in C104 |
| C113 | index formula of the convolution proved for the model of conv2d (padding, windows, flat kernels) and composed with the weight expansion of C69/C70 and with DepthCat; equivariance is a corollary |
| C114 | the backward solve is rewritten as a chain of linear operators acting on perturbations (`transposed_step`, dual of the stages of the backward method); each operator is an Euler step of the linearised equation up to H, the backward state stays within O(H) of the forward state (discrete Gronwall), and the perturbed solve follows the same linearised recursion up to O(E(H+E)) |
| C115 | unfolding of `odeint_symplectic` (M_Odeint.v); the model step equals `leap` (Spec_Leap.v) and conjugates with the sign of the velocity under `neg_field`; trajectories by induction over the grid |
| C116 | one step maps the error e of the position and d of h times the velocity to e + hL(e + d/2) + O(h^3), d + hL(2e + d) + O(h^3); 2e + d satisfies a discrete Gronwall inequality; the reversed version applies it to the reversed field |
| C117 | a step of size -h undoes a step of size h (`leap_back`), induction over the grid |
| C118 | unfolding; runs of the model in binary64 for the refutations that need a concrete execution |
| C119 | a linear map of the parameter block commutes with the adjoint dynamics and with Runge-Kutta steps (`odeint_fixed_map`), induction over the intervals |
| C120 | run of the model in binary64 with any power function; the exact solution is verified in R |
| C121 | `init_params` (M_Core.v), case analysis |
| C122 | `M_Import.v`: module-level code of all files and the import system; the 73 states that any sequence of imports can reach are enumerated and checked to be closed under all imports (`checked`, `bindings_checked`), then induction over the sequence. The interpreter was compared with CPython 3.11 on a skeleton package with the same import statements (tools/import_check.py, 150 sequences; the code of /repo itself was not run) |
| C123 | `M_Dict.v`: dictionaries as ordered association lists; the stacking loops key by key and state by state; invariant of the outer loop over the keys |
| C124 | `Spec_Lin.v` (`peval`); every returned state is reached by Runge-Kutta steps (`L_Reach.v`), each of which integrates the polynomial exactly (quadrature conditions of the tableaux, checked over Q); witness for rk4 |
| C125 | `Spec_Lin.v` (`matrix_poly`, `grid_product`): the stages of a Runge-Kutta step on a linear map are matrix polynomials whose coefficients are computed over Q from the tableau |
| C126 | corollaries of C125: A = - lambda gives scalar factors, A = rotation gives the energy factors; the limits are inequalities between polynomials |
| C127, C128 | `Spec_Moment.v`: finite product spaces of independent increments (`paths`, `average`, `white`); the tower property for one-step schemes; the mean of one step is affine in the state, as is the Euler step |
| C129 | the same tower property with the square of the state |
| C130 | `Spec_Cnf.v`: density of a differentiable map; first entry of the CNF state by C83; the derivative of the Euler map by the chain rule, ln(1+u) = u + O(u^2) |
| C131, C132 | `Spec_Diss.v`: decay rate, squared distance, dissipativity; invariants of one Euler step carried along the grid |
| C133, C134 | `M_RootLog.v`: the logger as an association list, root_find with logging; simulation of the loop of `M_Root.v` |
| C135, C136 | `M_Dtype.v`: the decimal constants as rationals, rounded to 53 bits by the parser and to the dtype by torch; solver objects whose tableau is converted by every solve. The arithmetic of the solve itself is exact (real numbers). `Spec_Dtype.v`: rounding to nearest even by Flocq. Exponent range (overflow, subnormals) is not modelled: all coefficients are normal numbers |
| C137 | models of C01-C15 and C44 (`M_Core.v`, `DEFunc.forward`). `Spec_Loss.v`: augmented fields, quadrature along the steps of a method. The regular branch of `forward` is used for comparison without loss |
| C138, C139 | `M_Spline.v`: the natural cubic spline of torchcde (tridiagonal elimination, Hermite cubics, evaluation and extrapolation), its argument validation, the permutation of the solution, the backward pass with this spline. torchcde is not part of the repository: modelled from its published algorithm and signatures (version 0.2.3 and later, as required by setup.py). `Spec_Spline.v`: natural splines by derivatives, adjoint recursions |
| C140 | `M_Module.v`: classes with the hashing rules of attrs, module trees with object identities, the traversals of torch.nn.Module with their memo sets. attrs and torch are not part of the repository: modelled from their documentation. `Spec_Module.v`: reachability |
| C141 | refuted in binary64; `Pf_Event.v`: the last output is the current time, for any solver and callbacks |
| C142 | `Pf_Event.v`: for every tolerance a polynomial field that vanishes at all nodes of dopri5 but 4/5; its exact solution is given by the antiderivative |
| C143, C144 | `M_Autograd.v`: numbers with a derivative (`DualOps`), on which every function of the model runs; `torch.no_grad` (utils.py line 57, odeint.py line 256) as functions that drop derivatives, with lemmas that without them the functions are those of `M_Odeint.v`. The derivative rules of torch operations are modelled from its documentation; reverse mode is represented by its value in one direction. `Spec_Autograd.v`: what it means that numbers with derivatives describe a family of solves |
| C145, C146 | `Pf_Hyper.v`: one-step error and stability of the corrected step, accumulated as in C24; reversal as in C05 |
| C147 | `M_Hyper.v`: hypersolvers whose network raises for tensors of another size; `M_Sens.v` |
| C148 | `Pf_Values.v`; `L_Rel.v`: the solvers, init_step, odeint and odeint_hybrid map related numbers to related results, for any relation respecting the operations |
| C149 | `M_Cast.v`: dtypes of t_span and save_at, RuntimeError of torch.isclose; `Pf_Cast.v` |
| C150 | `M_Cast.v`: the conversions to the dtype of t0 in init_step as a parameter (the identity gives back M_Odeint.v); `Pf_Cast.v`: dt = 0 is an invariant of both loops |
| C151 | `M_Prom.v`: numbers tagged as Python number, tensor without axes, tensor with axes of a dtype, promoted as torch does; the model of odeint run on tagged numbers; `Pf_Prom.v`: invariants of the three loops |
| C152 | `M_Scalar.v`: the tagged numbers of `M_Prom.v` with rows of tableaux that have an axis, torch.stack raising for different shapes; `Pf_Scalar.v`: no axes appear with Euler and Midpoint, axes appear in every step of rk4 and dopri5 and in every step but the first of tsit5 |
| C153 | `M_Implicit.v`: ImplicitEuler.step with an arbitrary optimiser on numbers with derivatives, its result a leaf; `Pf_Implicit.v`: loop invariant, parametricity for the values, x' = theta x for the refutation |
| C154 | `M_ShootGrad.v`: the solvers of `M_MS.v` on numbers with derivatives, the vector-Jacobian product of MSBackward on values, the minimiser of ParallelImplicitEuler an arbitrary function on values; `Pf_ShootGrad.v`: rows as curves, a sweep of parareal differentiates correctly; uniqueness of derivatives for the refutation |
| C155 | `M_Autograd.v` (adaptive loop on numbers with derivatives, `adapt_step` without); `Pf_AdGrad.v`: stages of the embedded methods as curves in a parameter; a solve of three steps computed in closed form for the refutation |
| C156 | no new model; `Pf_Unit.v`: step and loop of the solvers under conversion of the unit of time (a simulation of the two loops), two computed solves for the refutation |
| C157 | no new model (`M_Autograd.v` on grids with derivatives); `Pf_TimeGrad.v`: the fixed-step loop in any arithmetic with a + (b - a) = b, trajectories as functions of the times, grids near a separated grid are separated |
| C158 | `M_Calls.v`: a NeuralODE with a control and parameters that calls change, sequences of forward, trajectory, update and backward calls; `Pf_Calls.v` compares with a fresh module |
| C159 | no new model (`M_Autograd.v` with a detached control); `Pf_Calls.v` |
| C160 | no new model: odeint over `FloatOps`; `Pf_Rel.v`: an entry that is 0, -0 or NaN stays so through the stages of any seven-stage tableau |
| C161 | `M_Attr.v`: the loop `module.t = t` of DEFunc.forward over the modules of a field, with what nn.Module.__setattr__ does for values, buffers, parameters, submodules and properties; `Pf_Attr.v` |
| C162 | no new model: `odeint_symplectic` and `odeint` over `DualOps`; `Pf_LeapGrad.v`: the step tracks although the field sees half of the state |
| C163 | `M_Plot.v`: torchdyn/utils.py as the lists of curves and points handed to matplotlib, attributes of models as options; `Pf_Plot.v` |
| C164 | no new model: `sdeint` over `DualOps`, the path carries no derivative; `Pf_SdeGrad.v`: every step of the four solvers tracks, then the loop |
| C165 | `M_Double.v`: the backward pass of M_Sens.v over numbers with derivatives, with the results of [grad] detached; `odeint` over [DualOps (DualOps ROps)]; `L_Second.v` repeats the loop argument of C143 for any relation between numbers and curves |
| C166 | `M_Warn.v`: the warnings of odeint, odeint_symplectic, sdeint, ODEProblem.odeint and the adjoint, next to the model of the solves; proved by cases |
| C167 | `L_Lin.v`: solves whose states are related by any relation that the vector operations preserve and that leaves the scaled norms unchanged; instance: multiplication by c in `Pf_Scale.v` |
| C168 | rounded arithmetic as in C107 (`Spec_Round.v`); `Pf_RoundRK.v`: errors of all operations of a step bounded by a multiple of u + eta + eps uniformly over all instances, clock errors from C108, stability from C102 |
| C169 | `Pf_TimeState.v`: a tableau whose rows sum up to its nodes and whose weights sum up to one commutes with adding t' = 1 (induction over the stages, then over the grid); RungeKutta4 of the code has the classical rows with other nodes, which an autonomous field does not see |
| C170 | `Pf_Rotate.v` over `L_Lin.v`: the relation y = Q x on states of dimension n is preserved by the vector operations; with rtol = 0 the scale is constant and the error norms are multiples of the Euclidean norm |
| C171 | `Pf_RootConv.v`: for one unknown both Broyden updates are (harmonic, arithmetic) means of the old inverse slope and the secant one, so that they stay in [1/M, 1/m] with the regularisation; contraction and the termination test as an invariant of the loop of `M_Root.v` |
| C172 | `Pf_Descent.v`: descent lemma from the derivative of E along a ray (chain rule, Cauchy-Schwarz), one Euler step of `gnf`, summed along the grid |
| C173 | `Pf_HnnEnergy.v`: the true solution conserves the energy (C55), the computed states are within C H^p of it (C103, C104), and the gradient, whose entries are those of the field up to sign, is bounded between them |
| C174 | `Pf_Stiff.v`: one step of two solutions with residuals, tested with their difference (Cauchy-Schwarz), along the grid; the true solution is a trajectory whose residuals are bounded by Taylor's formula at the end of the step |
| C175 | `Pf_Cross.v`: the increments of a step are Lipschitz with constant h growth(L, H) < 1 (stages of `L_Order.v`), followed in the component where two states differ most |
| C176 | `Pf_Back.v`: the reversed equation has the reversed solution with the same smoothness; convergence (C103) in both directions and stability (C102) of the way back |
| C177 | `Pf_Weak.v`: the mean is a product of one-step factors along the grid (tower rule of `Pf_Moment.v`); each factor is near the exponential, errors telescope with explicit constants |
| C178 | `Pf_Request.v`: two loops with different requested times run together; each step writes entries that are values of one function of time |
| C179 | `Pf_GradSum.v`: one augmented system with two adjoints; the backward pass for every a, b is the image of its solve under a linear map (`odeint_fixed_map`) |
| C180 | `Pf_Jump.v`: fixed steps: corollary of the perturbation bound of C102; dopri5: both runs of the loop are computed in closed form on either side of the initial state where the first error ratio is one |
| C181 | `Pf_Helpers.v`: induction over the coefficients (accumulator and running power of theta), and over the stages |
| C182 | `Pf_Helpers.v`: slices of an appended list; the seminorm laws from those of the root mean square (C19) |
| C183 | `Pf_Mono.v`: Euler: quasimonotone field and Lipschitz bound per component, induction along the grid; midpoint: one step with a source during its first half; dopri5: the runs of C180 with a dip instead of a spike |
| C184 | `Pf_DataNoise.v`: the generators with and without noise on the same draws, compared point by point |
| C185 | `Pf_Tol.v`: two runs of dopri5 on a field made of two tents (one attempt under the loose tolerances; reject, two accepted steps under the tight ones), the exact solution by an explicit antiderivative; acceptance through the spec `scaled_error` |
| C186 | `Pf_Symp.v`: chain rule through one leapfrog step along curves of states, symmetric bilinear form, induction along the grid; uses C115 for the states |
| C187 | `Pf_Super.v`: combination of states commutes with stages, step and trajectory of every explicit tableau; the refutation uses the two regimes of the field of C180 |
| C188 | `Pf_HybPlain.v`: lockstep simulation of the two loops on a grid of two times, as equality of call log and outcome; witnesses over the reals with a zero field and without callbacks |
| C189 | `Pf_Repeat.v`: counting close times; lockstep simulation of the adaptive loop with and without the repetition; the zero step is accepted with error zero |
| C190 | `Pf_SdeLaws.v`: splitting of one-step trajectories (shared with C07), all solver names |
| C191 | `Pf_SdeLaws.v`: scaling commutes with every vector operation of the three step functions; `sqrt (tau h) = sqrt tau sqrt h` |
| C192 | `Pf_SdeSuper.v`: combination commutes with every vector operation of the step functions |
| C193 | `Pf_SdeBack.v`: binary64 NaN propagation through the Milstein step and the fixed-step loop; the Euler solvers by the trajectory theorem of C41 |
| C194 | `Pf_SdeRepeat.v`: binary64 0/0 in the Milstein correction and NaN propagation through the loop; the Euler solvers from the trajectory theorem of C41 |
| C195 | `Pf_ShootInv.v`: affine sets that are kept by both flows are kept by every parareal pass; refutation by the shear system of C59 |
| C196 | `Pf_SdeInv.v`: scalar products of the four schemes by components, induction along the trajectory of C41 |
| C197 | `Pf_HybInv.v`: induction over the hybrid runs of C34; scalar products of steps as in C83 |
| C198 | `Pf_SdeBlock.v`: steps commute with concatenation, lockstep induction over the loop; generic in the arithmetic |
| C199 | `Pf_SdePerm.v`: steps commute with picking components, lockstep induction over the loop; generic in the arithmetic |
| C200 | `Pf_SdeCausal.v`: one step reads the coefficients at its two ends and the increment between them; induction over the common part of the grid |
| C201 | `Pf_LeapInv.v`: w . (position) and (-1)^k w . (velocity) are unchanged by a leapfrog step; trajectories by C115 |
| C202 | `Pf_LeapAff.v`: a leapfrog step commutes with the map; trajectories by C115 |
| C203 | `Pf_SdeDep.v`: with additive noise the noise cancels in the difference of two steps; induction along C41 |
| C204 | `Pf_SdeOrder.v`: additive noise cancels in the difference of two steps (lemma of C203); witness dX = X dW |
| C205 | `Pf_Causal.v`: the stages of euler, midpoint and rk4 lie between the two ends of a step; induction over the common part of the grid |
| C206 | `Pf_CallTimes.v`: calls of a fixed step, and of one attempt of dopri5 or tsit5, lie between its ends (`loop_log` by induction over the iterations); the trial call of `init_step` is at t0 + 0.01 |x0| / |f0| |

## 5. Not modelled

* the drawing itself in `torchdyn/utils.py` (what is handed to matplotlib is modelled), `nn/__init__` re-exports;
* devices, dtype promotion other than that of states and times (`M_Prom.v`, `M_Cast.v`), in-place mutation aliasing, autograd graph construction;
* `torch.optim.LBFGS` in ImplicitEuler and ParallelImplicitEuler; the spline of the
  interpolated adjoint is a parameter in C48, C49 and C69 and modelled for C138; `pinverse` (a parameter), `generate_diffeqml`, LatentNeuralSDE;
* probability (statements about random draws are for all draws, or finite averages).

## 6. Findings

Behaviour of the code that contradicts its documentation or a user's expectation. Every line names the theorem
that exhibits it.

Numerics
* `save_at` outside `t_span` is accepted, fine grids are rejected: C03, C04. Reversed solves return negated times: C06.
* The adaptive loop never ends on NaN (C15), may miss requested times by rounding (C16), and computes the first
  step size of a reversed solve from the wrong field (C20).
* rk4 evaluates the field at times t, t, t+dt/2, t+dt/2 instead of t, t+dt/2, t+dt/2, t+dt: first order for time-varying fields (C22).
* Implicit Euler evaluates the field at t instead of t+dt: C26. Solver names missing from the table: C57.
* Hybrid solves: decreasing times C34, lost requested times C35, `j_span` ignored C36, crash or jump past the end C37.
* Jagged and shifted solves are unusable: C33.
* Multiple shooting: `B0` replaces x, only the first interval length is used (C30), IndexError for
  maxiter >= len(t_span), which includes the default for short grids (C31), the implicit Euler residual is taken at time 0 (C32),
  wrong second pass and transposed Jacobian with discrete adjoints (C58, C59), the adjoint of MultipleShootingProblem always fails (C50).
* SDE: Milstein and midpoint unchecked or unusable (C43), general noise changes the shape of the state (C60), `save_at` unchecked (C61).
* root_find: the line search looks in the direction opposite to the step (C62), Armijo reports the objective of another step (C63),
  the relative tolerance refers to the residual after the first step (C64), newton and chord are stubs (C38).

Core
* `f(t, x)` without `args` raises TypeError; `f(x, t, args)` gets its arguments exchanged: C45.
* integral_loss with order > 1 raises AttributeError: C44. args never reach the field, save_at is dropped by the adjoints: C47.
* interpolated_adjoint returns all internal steps; control modules before the divergence module get a wrong control: C46.
* solver_adjoint as a Module raises KeyError: C65. NeuralSDE.trajectory raises TypeError: C66.
* Adjoint: wrong gradient for decreasing t_span (C49), error for unused parameters (C67), wrong gradient of t_span (C68),
  intermediate gradients ignored with adaptive solvers (C69).
* Adaptive solvers couple the samples of a batch: one sample can keep the others from being solved (C86).
* Fixed-step solving is not invariant under shifts of time: torch.isclose is relative, grids far from 0 raise AssertionError (C88).
* NeuralSDE: the default `bm=None` raises TypeError on every forward (C90), adjoint sensitivities raise NotImplementedError (C91), DepthCat layers raise TypeError (C92).
* systems.py: nine of the classes name their time parameter `s` and raise TypeError in a NeuralODE or ODEProblem (C96); Lorenz and VanDerPol change the width of wide states (C94); MatMulSystem ignores `layers` and `activation` (C99).
* templates.py: BaseExplicit and BaseImplicit cannot be instantiated (C100); multiple-shooting solvers drop base solvers that are not given by name (C101).
* `init_step` calls the field at t0 + h0 with h0 = 0.01 |x0| / |f0|, which is not limited by the length of t_span: adaptive solves evaluate the field beyond the end of the interval (C206).
* Scalar SDE solutions cross with multiplicative noise, for steps of any size, because the scheme is explicit and increments are unbounded (C204). This is a limit of the method, not a coding error.
* MSBackward does not keep linear invariants of the field, although the guess has them, because it multiplies by the transposed Jacobian (C195); parareal does.
* Milstein solves over a grid whose first time is repeated return NaN without an error, even for additive noise (0/0); euler and eulerHeun return the state twice (C194).
* Milstein solves over a decreasing grid return NaN for every SDE without an error (square root of the negative step); euler and eulerHeun do integrate backwards (C193).
* Grids with a repeated time: fixed-step solvers raise AssertionError, adaptive solvers return a repeated last time only once (an interval of length zero gives one state for two requested times), a repeated first time twice (C189).
* odeint_hybrid differs from odeint even without callbacks: it ignores reversed time (only the initial state is returned), and an inner time that a step meets exactly is returned twice after a step of length zero (C188).
* Adaptive solves of linear problems do not superpose: the mean of two dopri5 solves of a state-independent field differs from the solve from the mean by more than 1/100 at tolerances 10^-3 (C187).
* The solver documented as symplectic reverses the symplectic form in every step: it preserves it only after an even number of steps (C186).
* Tighter tolerances can give a worse result: dopri5 with tolerances 10^-3 solves a problem exactly and with 0.999 * 10^-3 makes an error of more than 0.1, because rejecting the first step moves the stages away from the support of the field (C185).
* The noise of generate_moons shifts points along the diagonal only (one uniform number for both coordinates), that of generate_spirals is one-sided and mirrored on the second arm, and that of generate_gaussians and generate_gaussians_spiral moves whole clusters instead of points (C184).
* A larger vector field can give a smaller solution: midpoint ignores the direct effect of its first stage (every step size); rk4 lets a component of a cooperative system fall when the source of another one grows (every step size up to one), in one dimension it is correct; dopri5 lets two solutions of the same scalar equation change places when an error ratio crosses one between them (C183).
* The final state of an adaptive solve is not a continuous function of the initial state: where an error ratio is exactly one the sequence of steps changes, and the result jumps by more than the tolerances (C180).
* The mean of milstein_stratonovich converges only like the square root of the step: its predictor includes the drift, which leaves a term alpha beta h sqrt(h) / 2 in the mean of every step (C177, C128).
* rk4 forward and back on y' = t misses the start by half a step size: order one (C176, a consequence of the nodes of C22).
* root_find without line search never reports convergence at a root at zero (default x_rtol = 1): the step |dz| stays larger than |z| (C171); it runs for maxiters + 1 steps.
* RungeKutta4 gives different solutions for x' = f(t, x) and for the same equation with time as a component of the state (C169); the latter is a workaround for its wrong nodes: it gives the classical method.
* ODEProblem's default tolerances (1e-4) differ from those of odeint (1e-3), which odeint compares with to decide whether the user has set tolerances: every solve of an ODEProblem with a fixed-step solver warns about tolerances nobody has set, and so does every interval of the adjoint of NeuralODE (C166).
* t_stops and args of odeint have no effect and are never announced; interpolator, return_all_eval and seminorm are ignored silently with fixed-step solvers (C166).
* The adjoint sensitivities call torch.autograd.grad without create_graph: the gradients of the interpolated adjoint are recorded as if the field were constant, their derivatives (Hessian-vector products, gradient penalties) are silently wrong (C165).
* Plotting: plot_3D_dataset shows all points in one colour, plot_static_vector_field reads the missing attribute defunc, plot_traj_vf_1D the undefined name st, plot_2d_boundary reshapes to a wrong size, more than two classes raise, classes labelled -1 and 1 get the same colour since colours are indexed by the label (C163).
* DEFunc assigns the time to the attribute t of every module of the field that has one: parameters or submodules of that name raise, values and buffers of that name are silently replaced by the current time (C161).
* With atol = 0 an entry of the state that stays zero makes the error ratio NaN and the adaptive loop endless (C160).
* The adjoints do not save the data control (nor the noise of Hutchinson estimators, nor the parameters) of the forward call: two calls in one loss, or a call of trajectory before backward, give wrong gradients (C158).
* The data control is detached, gradients with respect to the input of a controlled NeuralODE are incomplete (C159).
* The step size chosen by init_step depends on the unit in which time is measured, so do the states adaptive solves return (C156); fixed-step solves fail altogether in units where steps are below 1e-8 (torch.isclose, C156_fixed_refuted; same cause as C88).
* The step size chosen by init_step carries gradients, those chosen by adapt_step do not (utils.py 57): gradients through adaptive solves are neither the derivative of the returned numbers nor that for fixed step sizes (C155).
* MSBackward.root_solve calls torch.autograd.grad without create_graph: gradients through its solves leave out the product with the Jacobian and are wrong (C154).
* States without axes work with Euler and Midpoint only; rk4, dopri5 and tsit5 raise RuntimeError in torch.stack (C152).
* ImplicitEuler.step returns an nn.Parameter: gradients through solver 'ieuler' vanish without a warning (C153).  ParallelImplicitEuler does the same with its matrix of states (ode.py lines 302-317).
* Adaptive solves change the dtype of the state: a float32 state on a float64 t_span becomes float64 at the first clipped step (a float32 nn.Linear then raises), a float16/bfloat16 state becomes float32 after the first step size update even when t_span has the dtype of the state (C151).
* save_at given as a list of floats raises RuntimeError whenever t_span is float64, a list of integers whenever t_span is floating point (C149).
* An integer t_span makes the adaptive solvers loop forever, since init_step truncates the step size to the dtype of t_span (C150).
* Hypersolvers integrate backwards with the wrong sign of the correction (HyperMidpoint, HyperRungeKutta4) and call the network with negated times (C146).
* sensitivity='adjoint' with a hypersolver passes the augmented adjoint state to the correction network, which raises for networks of fixed width (C147); a solver_adjoint given by name avoids this.
* odeint_hybrid cuts gradients at every event that the bisection locates: the bisection runs under torch.no_grad and its states are used as the solution (C144).
* An event that fires in a step shortened to end at a requested time makes odeint_hybrid skip that time (C141).
* odeint_hybrid accepts events from steps whose error was never compared with the tolerances: spurious jumps for arbitrarily small atol and rtol (C142).
* `@attr.s` on EventCallback and StochasticEventCallback makes them unhashable (eq=True sets `__hash__ = None`): `parameters()`, `modules()`, `train()`, `eval()` and `to()` of every module that holds a callback raise TypeError, so that parameters of callbacks cannot be optimised; all callbacks of one class compare equal (C140).
* The interpolated adjoint on a decreasing t_span uses a spline whose knots are the negated times (C06) and evaluates it at the times themselves: x' = 1, v' = x v from (1, 1) over [1, 1/2, 0] gives the gradient 5/4 instead of 3/4 (C138). For states that are not matrices `sol.permute(1, 0, 2)` raises (C138).
* dense_output always raises: it passes (t, x) to torchcde's `hermite_cubic_coefficients_with_backward_differences(x, t)` (C139).
* A propagated integral loss takes part in the error control of dopri5 and tsit5: the trajectory changes with the loss, and a loss with a singularity stops the solve (C137).
* Solvers of ODEProblem, NeuralODE and the multiple-shooting solvers are built by `str_to_solver(name)` with the default dtype float32 and only converted later, so that float64 problems are solved with coefficients of 24 bits: x' = 1 over [0, 1] gives 1 + 2^-25 (rk4), 1 + 3/2^27 (dopri5), 1 - 7/2^29 (tsit5) at every tolerance (C135). `odeint` with a name takes the dtype of x and is accurate.
* sync_device_dtype overwrites the tableau: after one solve in half precision the same solver has errors of 2e-4, 6e-5, 1e-3 in all later float64 solves (C136).
* midpoint does not keep positive states positive under lambda h <= 1, unlike euler (C131).
* root_find never logs alpha and phi: the entries of the returned logger stay `[]` (C133). permanent_log leaves the histories with different lengths when a key is missing (C134); nothing in the package calls it.
* The log-density a CNF returns is that of the continuous flow, not of the map the solver applies to the samples: the returned density of the returned samples does not integrate to 1 (C130).
* `milstein_stratonovich` evaluates the diffusion at x + f h + g sqrt(h) (as the Ito variant does): its mean has an error beta f h^(3/2) / 2 per step (C128).
* Dictionary states (C123) are advertised by the signatures of NeuralODE.forward and handled at the end of `_fixed_odeint`, but `str_to_solver(solver, x.dtype)` and `sync_device_dtype` (x.device) raise AttributeError for every dictionary.
* Circular import (C122): if anything below `torchdyn.numerics` is imported before `torchdyn.core` and `torchdyn.models`, then `from torchdyn.numerics import sdeint` in core/problems.py and core/neuralde.py runs while numerics/sdeint.py is unfinished and binds the module instead of the function. SDEProblem.sdeint and NeuralSDE.forward then raise TypeError.
* `torchdyn.models.hybrid` cannot be imported (C122): line 22 imports LSDEFunc from torchdyn.models, where no such name exists; HybridNeuralDE and LatentNeuralSDE are unusable. Also seen: setup.py packages only "torchdyn", without its subpackages.
* `ODEProblem(seminorm=...)` is never read (C120): the adjoint solve always measures the error of the state and the adjoint only. For x' = theta max(0, 1/2 - |t|) at theta = 0 the gradient 1/8 comes out as 0.1297 for all tolerances.
* `ODEProblem(optimizable_params=...)` is silently ignored if the field has parameters (C121). A problem without parameters registers a dummy on the user's module, so a second problem on the same module ignores `optimizable_params` too.
* `odeint_symplectic` (C116, C117): on a decreasing grid the velocity half of the state is the derivative with respect to the negated time. Started from the natural velocity f(t0, x0) the first step is only first-order accurate, and feeding the returned final state back over the flipped grid does not return to the initial state; the velocity has to be negated by hand.
* `odeint_symplectic` with adaptive solvers (C118): line 150 passes `return_all_eval` as `args`, so it is ignored; lines 143 and 147 evaluate `f` instead of `f_`, so on a decreasing grid the first slope has the wrong sign and is taken at the negated time; for `f.order == 1` the slope of half of the state is combined with the full state, which raises for two or more positions; the adaptive leapfrog returns three values where `_adaptive_odeint` unpacks four, so it always raises ValueError.
* Tolerances do not bound the error (C106): for every grid and tolerances some polynomial right-hand side p(t) is solved as if it were 0, the error being as large as wanted (inherent to sampling; the first-step heuristic and the x10 growth after zero error estimates make few samples the rule).
* rk4 on fields with explicit time is only first order, with exact error 1/(4N) for y' = t on N equal steps (C103).

Layers, models, data sets
* Galerkin: bias=False raises (C71), adaptive radial bases raise (C72), centers and scales are ignored (C73), Polynomial and Fourier use
  non-integer degrees k deg/(deg-1) (C53, C74).
* CNF: wrong divergence for networks coupling rows (C75), order > 1 raises (C79), hutch_trace needs NeuralODE (C80).
* HNN does not conserve energy in odd dimension (C76). ConservativeLinearSNF always raises (C77). HybridNeuralDE(reverse=True) raises (C78).
* Spheres raise for odd sizes, spirals and Gaussians return more points than requested (C56), Gaussians are wrong or raise for dim > 2 (C81),
  unknown names give None (C82).

Seen while reading, without a theorem: `models/hybrid.py` cannot be imported (missing name); the Chebychev basis cuts the autograd graph
(`.item()`); GalConv2d has a hard-coded last coefficient dimension, so with any basis but Fourier half of its trainable coefficients never affect the output (`C113_idle_coefficients`); the Augmenter docstring counts dimensions wrongly.

## 7. Mutation tests

`tools/mutate.py` copies the development to a scratch directory, applies one edit to the model, rebuilds, cuts every proof that
fails, and lists the property theorems that depend on a cut proof. `seeded/LOG.jsonl` has one line per edit (`tools/mutlog.py`).
